(** arith/field.c:670-720, element_tonelli, over an arbitrary structure with
    the operations of a field.  element_pow_mpz is taken with its meaning
    (generic_pow_mpz is modelled in Model/GenericPow.v); field_get_nqr
    (field.c:378-381) returns the stored element [nqr]. *)
From Coq Require Import ZArith List Bool.
From Verif.Base Require Import Outcome Gmp Algebra.
Import ListNotations.
Open Scope Z_scope.

(** mpz_scan1 (z, 0) for z > 0: index of the lowest set bit. *)
Fixpoint scan1_pos (p : positive) : Z := match p with xO q => scan1_pos q + 1 | _ => 0 end.
Definition mpz_scan1 (z : Z) : Z := match z with Zpos p => scan1_pos p | _ => 0 end.

Section T.
Variable K : fld.
Notation pow := (@fpow K).

(** field.c:698-705: [m] iterations remain, at index i. *)
Fixpoint tonelli_loop (m : nat) (i order : Z) (ginv a : K) (e : Z) : Z :=
  match m with
  | O => e
  | S m' =>
    let t0 := Z.shiftr (order - 1) i in
    let e0 := pow ginv e in
    let e0 := fmul e0 a in
    let e0 := pow e0 t0 in
    let e := if negb (feqb e0 f1) then Z.setbit e (i - 1) else e in
    tonelli_loop m' (i + 1) order ginv a e
  end.

Definition element_tonelli (order : Z) (nqr a : K) : res K :=
  ginv <- finvert nqr ;;
  let t := order - 1 in
  let s := mpz_scan1 t in
  let t := Z.shiftr t s in
  let e := tonelli_loop (Z.to_nat (s - 1)) 2 order ginv a 0 in
  let e0 := fmul (pow ginv e) a in
  let t := Z.shiftr (t + 1) 1 in
  let e := Z.shiftr e 1 in
  let e0 := pow e0 t in
  let x := pow nqr e in
  Ok (fmul x e0).
End T.
