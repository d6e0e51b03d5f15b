(** The element API over an F_p field as a machine with any number of
    registers: each call is dispatched to the back-end through the field's
    table of functions (include/pbc_field.h, struct field_s; the tables are
    filled in naivefp.c:230-270, fastfp.c:340-390, fasterfp.c:498-553,
    montfp.c:533-600 and field.c:569-618 for the defaults). *)
From Coq Require Import ZArith List Bool.
From Verif.Base Require Import Outcome Gmp Array.
From Verif.Model Require Import FieldInt NaiveFp FastFp FasterFp MontFp.
From Verif.Spec Require Import PrimeField.
Import ListNotations.
Open Scope Z_scope.

(** The table of functions.  Every assigning function receives the previous
    content of the output element as first argument. *)
Record backend := {
  elt : Type;
  b_init : elt;
  b_set0 : elt -> res elt;
  b_set1 : elt -> res elt;
  b_set_si : elt -> Z -> res elt;
  b_set_mpz : elt -> Z -> res elt;
  b_set : elt -> elt -> res elt;
  b_add : elt -> elt -> elt -> res elt;
  b_sub : elt -> elt -> elt -> res elt;
  b_mul : elt -> elt -> elt -> res elt;
  b_neg : elt -> elt -> res elt;
  b_double : elt -> elt -> res elt;
  b_halve : elt -> elt -> res elt;
  b_square : elt -> elt -> res elt;
  b_invert : elt -> elt -> res elt;
  b_mul_mpz : elt -> elt -> Z -> res elt;
  b_mul_si : elt -> elt -> Z -> res elt;
  b_pow_mpz : elt -> elt -> Z -> res elt;
  b_from_bytes : elt -> list Z -> res elt;
  b_from_hash : elt -> list Z -> res elt;
  b_to_mpz : elt -> res Z;
  b_is0 : elt -> bool;
  b_is1 : elt -> bool;
  b_cmp : elt -> elt -> Z;
  b_sign : elt -> res Z;
  b_is_sqr : elt -> res bool;
  b_to_bytes : elt -> res (list Z)
}.

(** field.c:458-469 generic_div; [same] tells whether c and a are the same
    object. *)
Definition b_div (be : backend) (same : bool) (c a b : elt be) : res (elt be) :=
  if same then d <- b_invert be (b_init be) b ;; b_mul be c d a
  else c1 <- b_invert be c b ;; b_mul be c1 c1 a.

Definition naive_be (p : Z) : backend := {|
  elt := Z; b_init := zp_init;
  b_set0 := fun _ => Ok zp_set0; b_set1 := fun _ => Ok zp_set1;
  b_set_si := fun _ n => Ok (zp_set_si p n); b_set_mpz := fun _ n => Ok (zp_set_mpz p n);
  b_set := fun _ a => Ok (zp_set a);
  b_add := fun _ a b => Ok (zp_add p a b); b_sub := fun _ a b => Ok (zp_sub p a b);
  b_mul := fun _ a b => Ok (zp_mul p a b);
  b_neg := fun _ a => Ok (zp_neg p a); b_double := fun _ a => Ok (zp_double p a);
  b_halve := fun _ a => Ok (zp_halve p a); b_square := fun _ a => zp_square p a;
  b_invert := fun _ a => zp_invert p a;
  b_mul_mpz := fun _ a n => Ok (zp_mul_mpz p a n); b_mul_si := fun _ a n => Ok (zp_mul_si p a n);
  b_pow_mpz := fun _ a n => zp_pow_mpz p a n;
  b_from_bytes := fun _ l => Ok (zp_from_bytes l); b_from_hash := fun _ l => zp_from_hash p l;
  b_to_mpz := fun a => Ok (zp_to_mpz a);
  b_is0 := zp_is0; b_is1 := zp_is1; b_cmp := zp_cmp;
  b_sign := fun a => Ok (zp_sign p a); b_is_sqr := fun a => Ok (zp_is_sqr p a);
  b_to_bytes := zp_to_bytes p |}.

(** fastfp.c sets no mul_mpz: generic_mul_mpz, field.c:386-392. *)
Definition fast_be (f : fpdata) : backend := {|
  elt := list Z; b_init := fast_init f;
  b_set0 := fun _ => Ok (fast_set0 f); b_set1 := fun _ => fast_set1 f;
  b_set_si := fun _ n => fast_set_si f n; b_set_mpz := fun _ n => fast_set_mpz f n;
  b_set := fun _ a => Ok (fast_set a);
  b_add := fun _ a b => Ok (fast_add f a b); b_sub := fun _ a b => Ok (fast_sub f a b);
  b_mul := fun _ a b => Ok (fast_mul f a b);
  b_neg := fun _ a => Ok (fast_neg f a); b_double := fun _ a => Ok (fast_double f a);
  b_halve := fun _ a => fast_halve f a; b_square := fun _ a => fast_square f a;
  b_invert := fun _ a => fast_invert f a;
  b_mul_mpz := fun _ a n => e <- fast_set_mpz f n ;; Ok (fast_mul f a e);
  b_mul_si := fun _ a n => fast_mul_si f a n;
  b_pow_mpz := fun _ a n => fast_pow_mpz f a n;
  b_from_bytes := fun _ l => fast_from_bytes f l; b_from_hash := fun _ l => fast_from_hash f l;
  b_to_mpz := fun a => Ok (fast_to_mpz a);
  b_is0 := fast_is0; b_is1 := fast_is1; b_cmp := fast_cmp;
  b_sign := fast_sign f; b_is_sqr := fun a => Ok (fast_is_sqr f a);
  b_to_bytes := fast_to_bytes f |}.

Definition faster_be (f : fpdata) (junk : list Z) : backend := {|
  elt := flagged; b_init := faster_init junk;
  b_set0 := fun c => Ok (faster_set0 c); b_set1 := faster_set1 f;
  b_set_si := faster_set_si f; b_set_mpz := faster_set_mpz f;
  b_set := fun c a => Ok (faster_set c a);
  b_add := fun c a b => Ok (faster_add f c a b); b_sub := fun c a b => Ok (faster_sub f c a b);
  b_mul := fun c a b => Ok (faster_mul f c a b);
  b_neg := fun c a => Ok (faster_neg f c a); b_double := fun c a => Ok (faster_double f c a);
  b_halve := faster_halve f; b_square := faster_square f;
  b_invert := faster_invert f;
  b_mul_mpz := fun c a n => e <- faster_set_mpz f (faster_init junk) n ;; Ok (faster_mul f c a e);
  b_mul_si := faster_mul_si f;
  b_pow_mpz := faster_pow_mpz f;
  b_from_bytes := faster_from_bytes f; b_from_hash := faster_from_hash f;
  b_to_mpz := fun a => Ok (faster_to_mpz a);
  b_is0 := faster_is0; b_is1 := faster_is1; b_cmp := faster_cmp;
  b_sign := faster_sign f; b_is_sqr := fun a => Ok (faster_is_sqr f a);
  b_to_bytes := faster_to_bytes f |}.

Definition mont_be (f : montdata) (junk : nat -> list Z) : backend := {|
  elt := flagged; b_init := mont_init f junk;
  b_set0 := fun c => Ok (mont_set0 c); b_set1 := fun c => Ok (mont_set1 f c);
  b_set_si := mont_set_si f; b_set_mpz := mont_set_mpz f;
  b_set := fun c a => Ok (mont_set c a);
  b_add := fun c a b => Ok (mont_add f c a b); b_sub := fun c a b => Ok (mont_sub f c a b);
  b_mul := mont_mul_elt f junk;
  b_neg := fun c a => Ok (mont_neg f c a); b_double := fun c a => Ok (mont_double f c a);
  b_halve := mont_halve f; b_square := mont_square f junk;
  b_invert := mont_invert f junk;
  b_mul_mpz := mont_mul_mpz f junk; b_mul_si := mont_mul_si f junk;
  b_pow_mpz := mont_pow_mpz f;
  b_from_bytes := mont_from_bytes f; b_from_hash := mont_from_hash f;
  b_to_mpz := mont_to_mpz f;
  b_is0 := mont_is0; b_is1 := mont_is1 f; b_cmp := mont_cmp;
  b_sign := mont_sgn_odd f; b_is_sqr := mont_is_sqr f;
  b_to_bytes := mont_to_bytes f |}.

Section Run.
Variable be : backend.
Notation E := (elt be).

(** New value of the target register. *)
Definition exec (o : asg) (s : nat -> E) : res E :=
  match o with
  | ASet0 c => b_set0 be (s c)
  | ASet1 c => b_set1 be (s c)
  | ASetSi c n => b_set_si be (s c) n
  | ASetMpz c n => b_set_mpz be (s c) n
  | ASet c a => b_set be (s c) (s a)
  | AAdd c a b => b_add be (s c) (s a) (s b)
  | ASub c a b => b_sub be (s c) (s a) (s b)
  | AMul c a b => b_mul be (s c) (s a) (s b)
  | ADiv c a b => b_div be (Nat.eqb c a) (s c) (s a) (s b)
  | ANeg c a => b_neg be (s c) (s a)
  | ADouble c a => b_double be (s c) (s a)
  | AHalve c a => b_halve be (s c) (s a)
  | ASquare c a => b_square be (s c) (s a)
  | AInvert c a => b_invert be (s c) (s a)
  | AMulMpz c a n => b_mul_mpz be (s c) (s a) n
  | AMulSi c a n => b_mul_si be (s c) (s a) n
  | APow c a n => b_pow_mpz be (s c) (s a) n
  | AFromBytes c l => b_from_bytes be (s c) l
  | AFromHash c l => b_from_hash be (s c) l
  end.

Definition observe (q : qry) (s : nat -> E) : res obs :=
  match q with
  | QToMpz a => z <- b_to_mpz be (s a) ;; Ok (VZ z)
  | QIs0 a => Ok (VB (b_is0 be (s a)))
  | QIs1 a => Ok (VB (b_is1 be (s a)))
  | QEq a b => Ok (VB (b_cmp be (s a) (s b) =? 0))
  | QSign a => z <- b_sign be (s a) ;; Ok (VZ z)
  | QIsSqr a => b <- b_is_sqr be (s a) ;; Ok (VB b)
  | QToBytes a => l <- b_to_bytes be (s a) ;; Ok (VBytes l)
  end.

(** A history of calls: the observations made. *)
Fixpoint run (h : list call) (s : nat -> E) : res (list obs) :=
  match h with
  | [] => Ok []
  | Asg o :: h' => x <- exec o s ;; run h' (upd s (target o) x)
  | Qry q :: h' => v <- observe q s ;; vs <- run h' s ;; Ok (v :: vs)
  end.

(** All elements freshly initialised. *)
Definition start : nat -> E := fun _ => b_init be.
End Run.

(** arith/fp.c:18-34: the implementation selected by pbc_tweak_use_fp. *)
Inductive fp_choice := UseNaive | UseFast | UseFaster | UseMont.

Definition option_fpinit (o : fp_choice) (p : Z) (junk : nat -> list Z) : res backend :=
  match o with
  | UseNaive => Ok (naive_be p)
  | UseFast => Ok (fast_be (fpdata_init p))
  | UseFaster => Ok (faster_be (fpdata_init p) (junk (nlimbs (fpdata_init p))))
  | UseMont => f <- mont_field_init p ;; Ok (mont_be f junk)
  end.

(** arith/fp.c:36-49: naive when the modulus fits an unsigned long, the
    selected implementation for an odd modulus, fasterfp otherwise. *)
Definition field_init_fp (o : fp_choice) (p : Z) (junk : nat -> list Z) : res backend :=
  if (0 <=? p) && (p <? B) then Ok (naive_be p)
  else if mpz_odd_p p then option_fpinit o p junk
  else option_fpinit UseFaster p junk.

(** field_init_fp, then a history of calls on freshly initialised elements. *)
Definition fp_session (o : fp_choice) (p : Z) (junk : nat -> list Z) (h : list call) : res (list obs) :=
  be <- field_init_fp o p junk ;; run be h (start be).
Definition option_session (o : fp_choice) (p : Z) (junk : nat -> list Z) (h : list call) : res (list obs) :=
  be <- option_fpinit o p junk ;; run be h (start be).
