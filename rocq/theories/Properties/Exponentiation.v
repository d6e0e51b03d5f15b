(** C07-C09: exponentiation in an arbitrary structure with an associative
    product (for curves: addition).  [zpow a n] (Base/Algebra.v) is a
    multiplied by itself n times. *)
From Coq Require Import ZArith Znumtheory List Bool.
From Verif.Base Require Import Outcome Gmp Algebra.
From Verif.Model Require Import GenericPow.
From Verif.Proofs Require Import PowFacts FieldFacts ZpField PowWitness.
Open Scope Z_scope.

(** C07 *)
Theorem pow_mpz_correct : forall (G : monoid) (a : G) n, monoid_laws G -> 0 <= n ->
  generic_pow_mpz G a n = Ok (zpow a n).
Proof. exact pow_correct. Qed.
Print Assumptions pow_mpz_correct.

(** The window width does not matter, as long as it is positive. *)
Theorem pow_any_window_correct : forall (G : monoid) (a : G) n k, monoid_laws G -> 0 <= n -> 1 <= k ->
  element_pow_wind G n k (build_pow_window G a k) = Ok (zpow a n).
Proof. exact wind_correct. Qed.
Print Assumptions pow_any_window_correct.

(** zpow is determined by its recursion. *)
Theorem zpow_meaning : forall (G : monoid) (a : G), zpow a 0 = mone G /\
  forall n, 0 <= n -> zpow a (n + 1) = mmul G a (zpow a n).
Proof. exact zpow_char. Qed.
Print Assumptions zpow_meaning.

(** C08 *)
Theorem pow2_correct : forall (G : monoid) (a1 : G) n1 a2 n2, monoid_laws G -> m_commutative G ->
  0 <= n1 -> 0 <= n2 ->
  element_pow2_mpz G a1 n1 a2 n2 = mmul G (zpow a1 n1) (zpow a2 n2).
Proof. exact pow2_ok. Qed.
Print Assumptions pow2_correct.

Theorem pow3_correct : forall (G : monoid) (a1 : G) n1 a2 n2 a3 n3, monoid_laws G -> m_commutative G ->
  0 <= n1 -> 0 <= n2 -> 0 <= n3 ->
  element_pow3_mpz G a1 n1 a2 n2 a3 n3 = Ok (mmul G (mmul G (zpow a1 n1) (zpow a2 n2)) (zpow a3 n3)).
Proof. exact pow3_ok. Qed.
Print Assumptions pow3_correct.

(** C09: exponents above the declared order are reduced modulo it, so that
    order must be a multiple of the order of the element. *)
Theorem pp_pow_correct : forall (G : monoid) (a : G) n order, monoid_laws G -> 0 <= n -> 0 < order ->
  (order < n -> zpow a order = mone G) ->
  element_pp_pow G n order (element_pp_init G a order) = generic_pow_mpz G a n.
Proof. exact pp_ok. Qed.
Print Assumptions pp_pow_correct.

(** The hypotheses hold in the multiplicative structure of Z/13. *)
Example pow_example : monoid_laws (mul_monoid Z13) /\ m_commutative (mul_monoid Z13) /\
  zpow (two13 : mul_monoid Z13) 12 = mone (mul_monoid Z13).
Proof. exact z13_laws. Qed.

(** In F_p the declared order is p, but the exponent of the multiplicative
    group is p - 1: preprocessed powers beyond p are wrong. *)
Theorem pp_pow_large_exponent_refuted : exists (p : Z) (Hp : 1 < p) (a : Zp p Hp) n r,
  prime p /\ a <> f0 /\ 0 <= n /\
  element_pp_pow (mul_monoid (Zp p Hp)) n p (element_pp_init (mul_monoid (Zp p Hp)) a p) = Ok r /\
  r <> fpow a n.
Proof. exact pp_refuted. Qed.
Print Assumptions pp_pow_large_exponent_refuted.
