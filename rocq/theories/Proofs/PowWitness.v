(** Closed forms of the exponentiation theorems and witnesses. *)
From Coq Require Import ZArith Znumtheory List Bool Lia.
From Verif.Base Require Import Outcome Gmp Algebra.
From Verif.Model Require Import GenericPow.
From Verif.Proofs Require Import PowFacts FieldFacts ZpField FpWitness.
Open Scope Z_scope.

Lemma pow_correct : forall (G : monoid) (a : G) n, monoid_laws G -> 0 <= n ->
  generic_pow_mpz G a n = Ok (zpow a n).
Proof. intros. apply generic_pow_spec; auto. Qed.
Lemma wind_correct : forall (G : monoid) (a : G) n k, monoid_laws G -> 0 <= n -> 1 <= k ->
  element_pow_wind G n k (build_pow_window G a k) = Ok (zpow a n).
Proof. intros. apply pow_wind_spec; auto. Qed.
Lemma zpow_char : forall (G : monoid) (a : G), zpow a 0 = mone G /\
  forall n, 0 <= n -> zpow a (n + 1) = mmul G a (zpow a n).
Proof.
  intros. split; auto. intros n Hn. unfold zpow. replace (Z.to_nat (n + 1)) with (S (Z.to_nat n)) by lia. reflexivity.
Qed.
Lemma pow2_ok : forall (G : monoid) (a1 : G) n1 a2 n2, monoid_laws G -> m_commutative G ->
  0 <= n1 -> 0 <= n2 -> element_pow2_mpz G a1 n1 a2 n2 = mmul G (zpow a1 n1) (zpow a2 n2).
Proof. intros. apply pow2_spec; auto. Qed.
Lemma pow3_ok : forall (G : monoid) (a1 : G) n1 a2 n2 a3 n3, monoid_laws G -> m_commutative G ->
  0 <= n1 -> 0 <= n2 -> 0 <= n3 ->
  element_pow3_mpz G a1 n1 a2 n2 a3 n3 = Ok (mmul G (mmul G (zpow a1 n1) (zpow a2 n2)) (zpow a3 n3)).
Proof. intros. apply pow3_spec; auto. Qed.
Lemma pp_ok : forall (G : monoid) (a : G) n order, monoid_laws G -> 0 <= n -> 0 < order ->
  (order < n -> zpow a order = mone G) ->
  element_pp_pow G n order (element_pp_init G a order) = generic_pow_mpz G a n.
Proof. intros. rewrite generic_pow_spec, pp_pow_spec; auto. Qed.

Lemma one_lt_13 : 1 < 13. Proof. reflexivity. Qed.
Definition Z13 : fld := Zp 13 one_lt_13.
Definition two13 : Z13 := zmk 13 one_lt_13 2.

Lemma z13_laws : monoid_laws (mul_monoid Z13) /\ m_commutative (mul_monoid Z13) /\
  zpow (two13 : mul_monoid Z13) 12 = mone (mul_monoid Z13).
Proof.
  assert (L : fld_laws Z13) by (apply Zp_laws; exact prime13).
  split; [apply mul_monoid_laws; auto|]. split; [apply mul_monoid_comm; auto|].
  apply zval_inj. vm_compute. reflexivity.
Qed.

Lemma pp_refuted : exists (p : Z) (Hp : 1 < p) (a : Zp p Hp) n r,
  prime p /\ a <> f0 /\ 0 <= n /\
  element_pp_pow (mul_monoid (Zp p Hp)) n p (element_pp_init (mul_monoid (Zp p Hp)) a p) = Ok r /\
  r <> fpow a n.
Proof.
  exists 13, one_lt_13, two13, 14. eexists. split; [exact prime13|]. split; [discriminate|]. split; [lia|].
  split; [vm_compute; reflexivity|].
  intros E. apply (f_equal (zval 13)) in E. vm_compute in E. discriminate.
Qed.
