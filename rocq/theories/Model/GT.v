(** GT, the group of r-th roots of unity: ecc/pairing.c:113-283 installed over
    the defaults of field_init (arith/field.c:567-621).  An element of GT is an
    element of the field [T] (out->data). *)
From Coq Require Import ZArith.
From Verif.Base Require Import Outcome Algebra.
From Verif.Model Require Import GenericPow.
Local Open Scope Z_scope.

Section GT.
Variable T : fld.
(** mulg_set1, mulg_mul, mulg_div, mulg_invert, mulg_is1, mulg_cmp
    ecc/pairing.c:151-213; the field functions called are those of [T] *)
Definition mulg_set1 : T := f1.
Definition mulg_mul (a b : T) : T := fmul a b.
Definition mulg_div (a b : T) : res T := fdivide a b.
Definition mulg_invert (a : T) : res T := finvert a.
Definition mulg_is1 (a : T) : bool := feqb a f1.
Definition mulg_cmp (a b : T) : bool := feqb a b.
(** :215-217; F_{q^2} and the other extension fields keep generic_pow_mpz *)
Definition mulg_pow_mpz (a : T) (n : Z) : res T := generic_pow_mpz (mul_monoid T) a n.
(** :261-277 *)
Definition gt_set0 := mulg_set1.
Definition gt_add := mulg_mul.
Definition gt_sub := mulg_div.
Definition gt_mul_mpz := mulg_pow_mpz.
Definition gt_neg := mulg_invert.
Definition gt_is0 := mulg_is1.
Definition gt_set1 := mulg_set1.
Definition gt_mul := mulg_mul.
Definition gt_div := mulg_div.
Definition gt_pow_mpz := mulg_pow_mpz.
Definition gt_invert := mulg_invert.
Definition gt_is1 := mulg_is1.
(** defaults of field_init that pairing_GT_init keeps: arith/field.c:383-412,
    419-422, 429-435, 471-482 *)
Definition gt_square (a : T) : T := gt_mul a a.
Definition gt_double (a : T) : T := gt_add a a.
Definition gt_set_mpz (z : Z) : T := gt_set0.
Definition gt_set_si (si : Z) : T := gt_set_mpz si.
Definition gt_mul_si (a : T) (n : Z) : T := gt_mul a (gt_set_si n).
Definition gt_halve (a : T) : res T := e0 <- gt_invert (gt_set_si 2) ;; Ok (gt_mul a e0).
Definition gt_add_ui (a : T) (b : Z) : T := gt_add a (gt_set_mpz b).
(** element_mul_zn, element_pow_zn (include/pbc_field.h): the exponent is the
    canonical residue, given here as an integer *)
Definition gt_mul_zn (a : T) (n : Z) : res T := gt_mul_mpz a n.
Definition gt_pow_zn (a : T) (n : Z) : res T := gt_pow_mpz a n.
(** :118-128: [e] is the element of [T] drawn or hashed to, [finalpow] the
    pairing type's final powering *)
Definition gt_random (finalpow : T -> res T) (e : T) : res T := finalpow e.
Definition gt_from_hash (finalpow : T -> res T) (e : T) : res T := finalpow e.
End GT.
