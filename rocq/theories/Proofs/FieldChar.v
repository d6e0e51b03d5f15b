(** Consequences of having a prime number of elements. *)
From Coq Require Import ZArith List Bool Lia Ring Field Znumtheory.
From Verif.Base Require Import Outcome Algebra Slots.
From Verif.Spec Require Import FiniteField Curve.
From Verif.Proofs Require Import PowFacts FieldFacts SlotFacts Frobenius.

Section S.
Variable K : fld.
Hypothesis HK : fld_laws K.
Add Field KFch : (fl_field K HK).
Variable q : Z.
Hypothesis Pq : prime q.
Hypothesis Hq : has_order K q.
Lemma char_q : (fofz q : K) = f0.
Proof. destruct Hq as (l & ND & IN & LEN). rewrite <- LEN. apply (char_order K HK l ND IN). Qed.
Lemma char_divides : forall n, (fofz n : K) = f0 -> (q | n)%Z.
Proof.
  intros n E. destruct (Zdivide_dec q n) as [D | ND]; auto. exfalso.
  assert (G : rel_prime q n) by (apply prime_rel_prime; auto). apply rel_prime_bezout in G. destruct G as [u w B].
  apply (f_1_neq_0 K HK). rewrite <- (fofz_1 K), <- B. rewrite (fofz_add K HK), !(fofz_mul K HK), E, char_q. ring.
Qed.
Lemma f2_nz : (2 < q)%Z -> f2 K <> f0.
Proof. intros H E. rewrite <- (fofz_2 K : fofz 2 = f2 K) in E. apply char_divides in E. apply Z.divide_pos_le in E; lia. Qed.
Lemma f3_nz : (3 < q)%Z -> f3 K <> f0.
Proof.
  intros H E. assert (E3 : (fofz 3 : K) = f0) by (rewrite <- E; change 3%Z with (2 + 1)%Z; rewrite (fofz_add K HK), (fofz_2 K), (fofz_1 K); reflexivity).
  apply char_divides in E3. apply Z.divide_pos_le in E3; lia.
Qed.
Lemma minus_one_nonsquare : (q mod 4 = 3)%Z -> ~ is_square (fopp f1 : K).
Proof.
  intros H4 (y & Y). pose proof (prime_ge_2 q Pq). assert (2 < q)%Z by (destruct (Z.eq_dec q 2) as [-> | ]; [cbn in H4; lia | lia]).
  assert (NY : y <> f0). { intros ->. apply (f_1_neq_0 K HK). transitivity (fopp (fopp f1) : K); [ring | ]. rewrite <- Y. ring. }
  destruct Hq as (l & ND & IN & LEN). pose proof (fermat K HK l ND IN y NY) as F.
  pose proof (Z.div_mod q 4 ltac:(lia)) as D. rewrite H4 in D. assert (0 <= q / 4)%Z by (apply Z.div_pos; lia).
  set (m := Z.to_nat (q / 4)). assert (EN : (length l - 1 = 2 * (2 * m + 1))%nat) by (unfold m; lia).
  rewrite EN in F. rewrite (npow_mul (mul_monoid K) (mul_monoid_laws K HK)) in F.
  assert (Y2 : npow (y : mul_monoid K) 2 = (fopp f1 : K)). { rewrite <- Y. cbn [npow]. change (fmul y (fmul y f1) = fmul y y). ring. }
  rewrite Y2 in F. rewrite (npow_add (mul_monoid K) (mul_monoid_laws K HK)), (npow_mul (mul_monoid K) (mul_monoid_laws K HK)) in F.
  assert (O : npow ((fopp f1 : K) : mul_monoid K) 2 = (f1 : K)). { cbn [npow]. change (fmul (fopp f1) (fmul (fopp f1) f1) = (f1 : K)). ring. }
  rewrite O in F. replace (npow (f1 : mul_monoid K) m) with (f1 : K) in F by (symmetry; apply (npow_one (mul_monoid K) (mul_monoid_laws K HK))).
  cbn [npow] in F. apply f2_nz; auto. unfold f2. change (fmul f1 (fmul (fopp f1) f1) = (f1 : K)) in F.
  transitivity (fsub f1 (fmul f1 (fmul (fopp f1) f1)) : K); [ring | ]. rewrite F. ring.
Qed.
End S.
