(** element_set_multiz: nested lists of integers (arith/multiz.c) stored in
    elements of prime fields, extensions, polynomial rings, curves and
    pairing groups.  [sub] is element_set_multiz of the coefficient field. *)
From Coq Require Import ZArith List Bool.
From Verif.Base Require Import Outcome Array Algebra Slots.
From Verif.Spec Require Import Curve ElementText.   (* only for points and the shape of towers *)
From Verif.Model Require Import Multiz Poly IntText.
Import ListNotations.
Open Scope nat_scope.

(** arith/multiz.c:582-584, 591-595 multiz_at (out of range: undefined). *)
Definition multiz_at (l : list mz) (i : nat) : res mz := get l i.

(** arith/field.c:437-443 generic_set_multiz, kept by the prime fields;
    [of_z] is element_set_mpz. *)
Definition generic_set_multiz {A} (of_z : Z -> A) (m : mz) : res A := z <- first_leaf m ;; Ok (of_z z).

Section F.
Context {A : Type} (sub : mz -> res A) (zero : A).
(** arith/fieldquadratic.c:133-143 fq_set_multiz *)
Definition fq_set_multiz (m : mz) : res (A * A) :=
  match m with
  | MZ _ => x <- sub m ;; Ok (x, zero)
  | MA l =>
    c <- multiz_at l 0 ;; x <- sub c ;;
    if length l <? 2 then Ok (x, zero) else
    c <- multiz_at l 1 ;; y <- sub c ;; Ok (x, y)
  end.
(** arith/poly.c:1253-1267 polymod_set_multiz; n is the degree *)
Definition polymod_set_multiz (n : nat) (m : mz) : res (list A) :=
  match m with
  | MZ _ => x <- sub m ;; Ok (x :: repeat zero (n - 1))
  | MA l => traverse (fun i => if length l <=? i then Ok zero else c <- multiz_at l i ;; sub c) (seq 0 n)
  end.
(** ecc/pairing.c:159-161 mulg_set_multiz *)
Definition mulg_set_multiz (m : mz) : res A := sub m.
End F.

Section P.
Variables (K : fld) (sub : mz -> res K).
(** arith/poly.c:136-162 poly_set_mpz, poly_set_multiz *)
Definition poly_set_multiz (m : mz) : res (list K) :=
  match m with
  | MZ z => poly_remove_leading_zeroes K [fofz z]
  | MA l => f <- traverse (fun i => c <- multiz_at l i ;; sub c) (seq 0 (length l)) ;; poly_remove_leading_zeroes K f
  end.
(** ecc/curve.c:535-553 curve_set_multiz; [P] is the point before the call,
    which the branches that only warn leave unchanged. *)
Definition curve_set_multiz (P : point K) (m : mz) : res (point K) :=
  match m with
  | MZ z => if mz_is0 m then Ok None else Ok P
  | MA l =>
    if length l <? 2 then Ok P else
    c <- multiz_at l 0 ;; x <- sub c ;;
    c <- multiz_at l 1 ;; y <- sub c ;; Ok (Some (x, y))
  end.
End P.

(** The towers of extensions over F_p. *)
Fixpoint tower_zero (t : tower) : carrier t :=
  match t with TFp => 0%Z | TQuad t' => (tower_zero t', tower_zero t') | TPoly n t' => repeat (tower_zero t') n end.
Fixpoint tower_set_multiz (p : Z) (t : tower) : mz -> res (carrier t) :=
  match t with
  | TFp => generic_set_multiz (fun z => (z mod p)%Z)
  | TQuad t' => fq_set_multiz (tower_set_multiz p t') (tower_zero t')
  | TPoly n t' => polymod_set_multiz (tower_set_multiz p t') (tower_zero t') n
  end.

(** arith/multiz.c:105-128 multiz_out_str, f_out_str: the characters written
    and the number returned; [num] is mpz_out_str in the given base. *)
Fixpoint multiz_out_str (num : Z -> list Z) (m : mz) : list Z * nat :=
  match m with
  | MZ z => (num z, length (num z))
  | MA l =>
    let '(s, n) := (fix go (first : bool) (l : list mz) : list Z * nat :=
      match l with
      | [] => ([], 0)
      | x :: l' =>
        let '(sx, nx) := multiz_out_str num x in
        let '(sr, nr) := go false l' in
        ((if first then [] else [44; 32]%Z) ++ sx ++ sr, (if first then 0 else 2) + nx + nr)
      end) true l in
    (91%Z :: s ++ [93%Z], n + 2)
  end.

(** arith/multiz.c:515-523 f_set_str: an integer, never a list. *)
Definition multiz_set_str (s : list Z) (base : Z) : res (mz * Z) :=
  r <- pbc_mpz_set_str s base ;; Ok (MZ (fst r), snd r).
