(** element_tonelli returns a square root. *)
From Coq Require Import ZArith Znumtheory List Bool Lia Ring Field Field_theory.
From Verif.Base Require Import Outcome Gmp Algebra.
From Verif.Model Require Import Tonelli.
From Verif.Proofs Require Import PowFacts FieldFacts.
Import ListNotations.
Open Scope Z_scope.

Lemma scan1_spec : forall z, 0 < z -> exists t, z = 2 ^ mpz_scan1 z * t /\ Z.odd t = true /\ 0 < t /\ 0 <= mpz_scan1 z.
Proof.
  intros [|p|p] H; try lia. clear H. simpl. induction p as [p IH|p IH|].
  - exists (Zpos p~1). simpl. repeat split; auto; lia.
  - destruct IH as [t [E [Ho [Ht Hs]]]]. exists t. cbn [scan1_pos]. repeat split; auto; try lia.
    rewrite Z.pow_add_r by lia. change (Zpos p~0) with (2 * Zpos p). rewrite E. lia.
  - exists 1. simpl. repeat split; auto; lia.
Qed.

Section S.
Variable K : fld.
Hypothesis HK : fld_laws K.
Add Field Kf : (fl_field K HK).
Notation M := (mul_monoid K).
Notation pow := (@fpow K).
Let ML := mul_monoid_laws K HK.
Let MC := mul_monoid_comm K HK.

Lemma pow_add : forall (x : K) i j, 0 <= i -> 0 <= j -> pow x (i + j) = fmul (pow x i) (pow x j).
Proof. intros. apply (zpow_add M ML); auto. Qed.
Lemma pow_mul : forall (x : K) i j, 0 <= i -> 0 <= j -> pow x (i * j) = pow (pow x i) j.
Proof. intros. apply (zpow_mul M ML); auto. Qed.
Lemma pow_mul_base : forall (x y : K) n, pow (fmul x y) n = fmul (pow x n) (pow y n).
Proof. intros. apply (zpow_mul_base M ML MC). Qed.
Lemma pow_1 : forall (x : K), pow x 1 = x. Proof. intros. apply (zpow_1 M ML). Qed.
Lemma pow_0 : forall (x : K), pow x 0 = f1. Proof. reflexivity. Qed.
Lemma pow_one : forall n, pow f1 n = f1. Proof. intros. apply (zpow_one M ML). Qed.
Lemma pow_zero : forall n, 0 < n -> pow f0 n = f0.
Proof. intros n H. unfold fpow, zpow. apply (npow_0_pos K HK). lia. Qed.
Lemma pow_2 : forall x : K, pow x 2 = fmul x x.
Proof. intros. change 2 with (1 + 1). rewrite pow_add, pow_1 by lia. reflexivity. Qed.

Variables (q : Z) (g : K).
Hypothesis Hq : 1 < q.
Hypothesis Hodd : Z.odd q = true.
Hypothesis Hg : g <> f0.
Hypothesis Hnqr : pow g ((q - 1) / 2) = fopp f1.

Lemma shiftr_div : forall z i, 0 <= i -> Z.shiftr z i = z / 2 ^ i.
Proof. intros. apply Z.shiftr_div_pow2; auto. Qed.

Lemma ginv_half : pow (finv g) ((q - 1) / 2) = fopp f1.
Proof.
  assert (E : fmul (pow (finv g) ((q - 1) / 2)) (pow g ((q - 1) / 2)) = f1).
  { rewrite <- pow_mul_base. replace (fmul (finv g) g) with (@f1 K) by (field; auto). apply pow_one. }
  rewrite Hnqr in E.
  transitivity (fopp (fmul (pow (finv g) ((q - 1) / 2)) (fopp f1))); [ring|]. rewrite E. ring.
Qed.

Lemma pow_ginv : forall e, 0 <= e -> fmul (pow (finv g) e) (pow g e) = f1.
Proof. intros. rewrite <- pow_mul_base. replace (fmul (finv g) g) with (@f1 K) by (field; auto). apply pow_one. Qed.

Definition Inv (a : K) (i e : Z) : Prop :=
  0 <= e < 2 ^ (i - 1) /\ Z.even e = true /\ pow (fmul (pow (finv g) e) a) ((q - 1) / 2 ^ (i - 1)) = f1.

Lemma loop_inv : forall s t, q - 1 = 2 ^ s * t -> 0 < t ->
  forall a m i e, 2 <= i -> i - 1 + Z.of_nat m = s -> Inv a i e ->
  Inv a (s + 1) (tonelli_loop K m i q (finv g) a e).
Proof.
  intros s t Es Ht a. induction m as [|m IH]; intros i e Hi Hm HI.
  - cbn [tonelli_loop]. replace (s + 1) with i by lia. auto.
  - cbn [tonelli_loop]. apply IH; [lia|lia|].
    destruct HI as [He [Ev HI]]. unfold Inv. replace (i + 1 - 1) with i by lia.
    rewrite shiftr_div by lia. set (t0 := (q - 1) / 2 ^ i).
    assert (T0 : q - 1 = 2 ^ i * t0).
    { unfold t0. rewrite Es. replace s with (i + (s - i)) by lia. rewrite Z.pow_add_r by lia.
      rewrite <- Z.mul_assoc. rewrite (Z.mul_comm (2 ^ i)) at 2. rewrite Z.div_mul by (apply Z.pow_nonzero; lia). reflexivity. }
    assert (P2 : 0 < 2 ^ (i - 1)) by (apply Z.pow_pos_nonneg; lia).
    assert (PI : 2 ^ i = 2 * 2 ^ (i - 1)) by (rewrite <- Z.pow_succ_r by lia; f_equal; lia).
    assert (T00 : 0 <= t0) by (unfold t0; apply Z.div_pos; try apply Z.pow_pos_nonneg; lia).
    assert (T1 : (q - 1) / 2 ^ (i - 1) = t0 * 2).
    { symmetry. apply Z.div_unique with 0; [lia|]. rewrite T0, PI. ring. }
    assert (TH : (q - 1) / 2 = 2 ^ (i - 1) * t0).
    { symmetry. apply Z.div_unique with 0; [lia|]. rewrite T0, PI. ring. }
    rewrite T1, pow_mul in HI by lia. set (b := fmul (pow (finv g) e) a) in *.
    rewrite pow_2 in HI.
    destruct (feqb (pow b t0) f1) eqn:E1; cbn [negb].
    + apply (feqb_eq K HK) in E1. repeat split; auto; lia.
    + apply (feqb_neq K HK) in E1.
      assert (E2 : pow b t0 = fopp f1).
      { destruct (f_sq_eq K HK (pow b t0) f1); auto. rewrite HI. ring. tauto. }
      assert (SB : Z.setbit e (i - 1) = e + 2 ^ (i - 1)).
      { rewrite Z.setbit_spec'.
        assert (LD : Z.land e (2 ^ (i - 1)) = 0).
        { apply Z.bits_inj'. intros j Hj. rewrite Z.land_spec, Z.bits_0.
          rewrite Z.pow2_bits_eqb by lia. destruct (Z.eqb_spec (i - 1) j); [|apply andb_false_r].
          subst j. rewrite andb_true_r. destruct (Z.eq_dec e 0) as [->|]; [apply Z.bits_0|].
          apply Z.bits_above_log2; [lia|]. apply Z.log2_lt_pow2; lia. }
        rewrite Z.add_nocarry_lxor by exact LD. symmetry. apply Z.lxor_lor. exact LD. }
      rewrite SB. split; [lia|]. split.
      * rewrite Z.even_add, Ev. replace (i - 1) with (1 + (i - 2)) by lia. rewrite Z.pow_add_r by lia.
        rewrite Z.even_mul. reflexivity.
      * rewrite pow_add by lia. replace (fmul (fmul (pow (finv g) e) (pow (finv g) (2 ^ (i - 1)))) a)
          with (fmul b (pow (finv g) (2 ^ (i - 1)))) by (unfold b; ring).
        rewrite pow_mul_base, E2, <- pow_mul, <- TH, ginv_half by lia. ring.
Qed.

Lemma tonelli_spec : forall a, a <> f0 -> pow a ((q - 1) / 2) = f1 ->
  exists x, element_tonelli K q g a = Ok x /\ fmul x x = a.
Proof.
  intros a Ha Hs. unfold element_tonelli. rewrite (finvert_ok K HK) by auto. cbn [bind].
  destruct (scan1_spec (q - 1)) as [t [Et [Ht [Ht0 Hs0]]]]; [lia|]. set (s := mpz_scan1 (q - 1)) in *.
  assert (S1 : 1 <= s).
  { destruct (Z.eq_dec s 0) as [E0|]; [|lia]. rewrite E0 in Et. rewrite Z.pow_0_r, Z.mul_1_l in Et.
    rewrite <- Et in Ht. rewrite Z.odd_sub, Hodd in Ht. discriminate. }
  rewrite !shiftr_div by lia.
  assert (ET : (q - 1) / 2 ^ s = t).
  { rewrite Et, Z.mul_comm. apply Z.div_mul. apply Z.pow_nonzero; lia. }
  rewrite ET. set (e := tonelli_loop K (Z.to_nat (s - 1)) 2 q (finv g) a 0).
  assert (HI : Inv a (s + 1) e).
  { apply (loop_inv s t); auto; try lia. unfold Inv. change (2 - 1) with 1. split; [lia|]. split; auto.
    rewrite Z.pow_1_r. replace (fmul (pow (finv g) 0) a) with a by (rewrite pow_0; ring). exact Hs. }
  destruct HI as [He [Ev HI]]. replace (s + 1 - 1) with s in * by lia. rewrite ET in HI.
  set (b := fmul (pow (finv g) e) a) in *. eexists. split; [reflexivity|].
  rewrite Z.pow_1_r.
  assert (E2 : e = 2 * (e / 2)) by (apply Z.even_spec in Ev; destruct Ev as [w Ew]; rewrite Ew; rewrite (Z.mul_comm 2 w), Z.div_mul by lia; lia).
  assert (T2 : t + 1 = 2 * ((t + 1) / 2)).
  { apply Z.odd_spec in Ht. destruct Ht as [w Ew]. rewrite Ew. replace (2 * w + 1 + 1) with ((w + 1) * 2) by ring.
    rewrite Z.div_mul by lia. ring. }
  assert (0 <= e / 2) by lia. assert (0 <= (t + 1) / 2) by lia.
  transitivity (fmul (pow g (e / 2 * 2)) (pow b ((t + 1) / 2 * 2))).
  - rewrite !pow_mul, !pow_2 by lia. ring.
  - rewrite (Z.mul_comm (e / 2)), (Z.mul_comm ((t + 1) / 2)), <- E2, <- T2, pow_add, pow_1, HI by lia.
    unfold b. transitivity (fmul (fmul (pow (finv g) e) (pow g e)) a); [ring|]. rewrite pow_ginv by lia. ring.
Qed.

Lemma tonelli_zero : exists x, element_tonelli K q g f0 = Ok x /\ x = f0.
Proof.
  unfold element_tonelli. rewrite (finvert_ok K HK) by auto. cbn [bind]. eexists. split; [reflexivity|].
  destruct (scan1_spec (q - 1)) as [t [Et [Ht [Ht0 Hs0]]]]; [lia|]. set (s := mpz_scan1 (q - 1)) in *.
  assert (ET : Z.shiftr (q - 1) s = t).
  { rewrite shiftr_div by lia. rewrite Et, Z.mul_comm. apply Z.div_mul. apply Z.pow_nonzero; lia. }
  rewrite ET. set (e := tonelli_loop _ _ _ _ _ _ _).
  replace (fmul (pow (finv g) e) f0) with (@f0 K) by ring.
  rewrite pow_zero; [ring|]. rewrite shiftr_div by lia. rewrite Z.pow_1_r.
  apply Z.div_str_pos. lia.
Qed.
End S.
