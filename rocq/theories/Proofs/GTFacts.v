(** GT is a multiplicative group. *)
From Coq Require Import ZArith Bool Lia Ring Field.
From Verif.Base Require Import Outcome Algebra.
From Verif.Model Require Import GenericPow GT.
From Verif.Proofs Require Import FieldFacts PowFacts BilinearZ.

Section S.
Variable T : fld.
Hypothesis HT : fld_laws T.
Add Field KFgt : (fl_field T HT).
Theorem gt_operations : forall (a b : T) n, b <> f0 -> (0 <= n)%Z ->
  gt_add T a b = fmul a b /\ gt_mul T a b = fmul a b /\
  gt_sub T a b = Ok (fdiv a b) /\ gt_div T a b = Ok (fdiv a b) /\
  gt_neg T b = Ok (finv b) /\ gt_invert T b = Ok (finv b) /\
  gt_double T a = fmul a a /\ gt_square T a = fmul a a /\
  gt_mul_zn T a n = Ok (fpow a n) /\ gt_pow_zn T a n = Ok (fpow a n) /\
  gt_mul_mpz T a n = Ok (fpow a n) /\ gt_pow_mpz T a n = Ok (fpow a n) /\
  (gt_is0 T a = true <-> a = gt_set0 T) /\ (gt_is1 T a = true <-> a = gt_set1 T) /\ gt_set0 T = f1.
Proof.
  intros a b n N Hn.
  assert (D : fdivide a b = Ok (fdiv a b)) by (unfold fdivide; rewrite (finvert_ok T HT) by auto; cbn [bind]; f_equal; field; auto).
  assert (I := finvert_ok T HT b N).
  assert (P : generic_pow_mpz (mul_monoid T) a n = Ok (fpow a n)) by (apply (generic_pow_spec _ (mul_monoid_laws T HT)); auto).
  repeat split; try exact D; try exact I; try exact P; unfold gt_is0, gt_is1, mulg_is1; try apply (fl_eqb T HT).
Qed.
Definition root (r : Z) (a : T) : Prop := fpow a r = f1.
Lemma root_nz : forall r a, (0 < r)%Z -> root r a -> a <> f0.
Proof.
  intros r a Hr H E. unfold root, fpow, zpow in H. rewrite E in H. destruct (Z.to_nat r) eqn:EN; [lia | ]. cbn [npow] in H.
  apply (f_1_neq_0 T HT). rewrite <- H. change (@eq T (fmul f0 (npow (f0 : mul_monoid T) n)) f0). ring.
Qed.
Lemma fpow_base : forall (a b : T) k, fpow (fmul a b) k = fmul (fpow a k) (fpow b k).
Proof. intros. exact (zpow_mul_base _ (mul_monoid_laws T HT) (mul_monoid_comm T HT) a b k). Qed.
Lemma root_mul : forall r a b, root r a -> root r b -> root r (fmul a b).
Proof. unfold root. intros r a b A B. rewrite fpow_base, A, B. ring. Qed.
Lemma root_inv : forall r a, (0 < r)%Z -> root r a -> root r (finv a).
Proof.
  unfold root. intros r a Hr A. assert (N := root_nz r a Hr A). transitivity (fmul (fpow a r) (fpow (finv a) r)); [rewrite A; ring | ].
  rewrite <- fpow_base. replace (fmul a (finv a)) with (f1 : T) by (field; auto). apply (fpow1 T HT).
Qed.
Lemma root_pow : forall r a n, (0 < r)%Z -> (0 <= n)%Z -> root r a -> root r (fpow a n).
Proof. unfold root. intros r a n Hr Hn A. rewrite <- (fpowM T HT) by lia. rewrite Z.mul_comm, (fpowM T HT) by lia. rewrite A. apply (fpow1 T HT). Qed.
Theorem gt_closed : forall r (a b : T) n, (0 < r)%Z -> (0 <= n)%Z -> fpow a r = f1 -> fpow b r = f1 ->
  fpow (gt_add T a b) r = f1 /\ fpow (gt_set0 T) r = f1 /\ (exists u, gt_neg T a = Ok u /\ fpow u r = f1 /\ gt_add T a u = gt_set0 T) /\
  (exists u, gt_sub T a b = Ok u /\ fpow u r = f1 /\ gt_add T u b = a) /\
  (exists u, gt_mul_mpz T a n = Ok u /\ fpow u r = f1 /\ gt_mul_mpz T a (n mod r) = Ok u).
Proof.
  intros r a b n Hr Hn A B. assert (NA := root_nz r a Hr A). assert (NB := root_nz r b Hr B).
  split; [apply root_mul; auto | ]. split; [apply (fpow1 T HT) | ].
  split; [exists (finv a); split; [apply (finvert_ok T HT); auto | split; [apply root_inv; auto | unfold gt_add, mulg_mul, gt_set0, mulg_set1; field; auto]] | ].
  split.
  - exists (fdiv a b). split; [apply (gt_operations a b 0); auto; lia | ]. split; [ | unfold gt_add, mulg_mul; field; auto].
    replace (fdiv a b) with (fmul a (finv b)) by (field; auto). apply root_mul; auto. apply root_inv; auto.
  - exists (fpow a n). assert (BM := Z.mod_pos_bound n r Hr). split; [apply (gt_operations a b n); auto | ]. split; [apply root_pow; auto | ].
    rewrite (fpow_mod T HT a r n) by auto. apply (gt_operations a b (n mod r)); auto. lia.
Qed.
Theorem gt_small_scalars_ignored : forall (a : T) n, gt_mul_si T a n = a /\ gt_halve T a = Ok a /\ gt_add_ui T a n = a.
Proof.
  intros a n. unfold gt_mul_si, gt_halve, gt_add_ui, gt_mul, gt_add, mulg_mul, gt_set_si, gt_set_mpz, gt_set0, mulg_set1, gt_invert, mulg_invert.
  assert (E : fmul a f1 = a) by ring. split; [auto | ]. split; auto. rewrite (finvert_ok T HT) by apply (f_1_neq_0 T HT). cbn [bind].
  f_equal. field. apply (f_1_neq_0 T HT).
Qed.
End S.
