(** The pairing interface of include/pbc_pairing.h and the generic parts of
    ecc/pairing.c.  A pairing is a record of the functions a pairing type
    installs; values of G1, G2 and GT are mathematical values ([gt] is the
    underlying field element out->data). *)
From Coq Require Import ZArith List.
From Verif.Base Require Import Outcome Array Algebra.
Import ListNotations.

(** include/pbc_pairing.h:24-45: the members used here; [is0_1], [is0_2] are
    element_is0 in G1 and G2, GT is a multiplicative group inside the field
    [gt] (pairing_GT_init, ecc/pairing.c:232-283: set0, is0, add, sub, neg and
    mul_mpz are set1, is1, mul, div, invert and pow_mpz of that field). *)
Record pairing := {
  g1 : Type; g2 : Type; gt : fld; ppt : Type;
  is0_1 : g1 -> bool; is0_2 : g2 -> bool;
  map_ : g1 -> g2 -> res gt;
  pp_init_ : g1 -> res ppt;
  pp_apply_ : ppt -> g2 -> res gt;
  prod_ : list g1 -> list g2 -> nat -> res gt }.

Section P.
Variable p : pairing.
(** include/pbc_pairing.h:118-135 *)
Definition pairing_apply (in1 : g1 p) (in2 : g2 p) : res (gt p) :=
  if is0_1 p in1 then Ok f1 else if is0_2 p in2 then Ok f1 else map_ p in1 in2.
(** :54-61; [None] is the NULL stored in p->pairing *)
Definition pairing_pp_init (in1 : g1 p) : res (option (ppt p)) :=
  if is0_1 p in1 then Ok None else (t <- pp_init_ p in1 ;; Ok (Some t)).
(** :79-89 *)
Definition pairing_pp_apply (in2 : g2 p) (pp : option (ppt p)) : res (gt p) :=
  match pp with
  | None => Ok f1
  | Some t => if is0_2 p in2 then Ok f1 else pp_apply_ p t in2
  end.
(** :153-171: the loop looking for an identity; true if one is found *)
Fixpoint prod_scan (in1 : list (g1 p)) (in2 : list (g2 p)) (i n : nat) : res bool :=
  match n with
  | O => Ok false
  | S n' =>
      a <- get in1 i ;; b <- get in2 i ;;
      if is0_1 p a then Ok true else if is0_2 p b then Ok true else prod_scan in1 in2 (S i) n'
  end.
Definition element_prod_pairing (in1 : list (g1 p)) (in2 : list (g2 p)) (n : nat) : res (gt p) :=
  found <- prod_scan in1 in2 0 n ;; if found then Ok f1 else prod_ p in1 in2 n.
(** ecc/pairing.c:15-33; element_cmp of GT compares field elements *)
Definition generic_is_almost_coddh (a : g1 p) (b : g1 p) (c : g2 p) (d : g2 p) : res bool :=
  t0 <- pairing_apply a d ;;
  t1 <- pairing_apply b c ;;
  if feqb t0 t1 then Ok true else Ok (feqb (fmul t0 t1) f1).
End P.

(** ecc/pairing.c:35-47: element 0 is used before the loop *)
Section G.
Context {A B : Type} {T : fld}.
Variable map0 : A -> B -> res T.
Fixpoint generic_prod_loop (out : T) (in1 : list A) (in2 : list B) (i n : nat) : res T :=
  match n with
  | O => Ok out
  | S n' =>
      a <- get in1 i ;; b <- get in2 i ;;
      tmp <- map0 a b ;;
      generic_prod_loop (fmul out tmp) in1 in2 (S i) n'
  end.
Definition generic_prod_pairings (in1 : list A) (in2 : list B) (n : nat) : res T :=
  a <- get in1 0 ;; b <- get in2 0 ;;
  out <- map0 a b ;;
  generic_prod_loop out in1 in2 1 (n - 1).
End G.
