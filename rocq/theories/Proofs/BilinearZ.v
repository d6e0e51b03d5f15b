(** Bilinearity of the Tate pairing for all integers. *)
From Coq Require Import ZArith List Lia Ring Field.
From Verif.Base Require Import Algebra.
From Verif.Spec Require Import Curve Tate.
From Verif.Proofs Require Import PowFacts FieldFacts CurveGroup CurveFacts LineAlgebra TateFacts Bilinear.

Section F.
Variable K : fld.
Hypothesis HK : fld_laws K.
Add Field KFbz : (fl_field K HK).
Local Notation M := (mul_monoid K).
Let ML := mul_monoid_laws K HK.
Lemma fpowA : forall (x : K) i j, (0 <= i)%Z -> (0 <= j)%Z -> fpow x (i + j) = fmul (fpow x i) (fpow x j).
Proof. intros. exact (zpow_add M ML x i j H H0). Qed.
Lemma fpowM : forall (x : K) i j, (0 <= i)%Z -> (0 <= j)%Z -> fpow x (i * j) = fpow (fpow x i) j.
Proof. intros. exact (zpow_mul M ML x i j H H0). Qed.
Lemma fpow1 : forall i, fpow (f1 : K) i = f1. Proof. intros. exact (zpow_one M ML i). Qed.
Lemma fpow_nz : forall (x : K) i, x <> f0 -> fpow x i <> f0.
Proof. intros x i N. unfold fpow, zpow. induction (Z.to_nat i); [apply (f_1_neq_0 K HK) | apply (f_mul_nz K HK); auto]. Qed.
Lemma fpow_mod : forall (x : K) r k, (0 < r)%Z -> (0 <= k)%Z -> fpow x r = f1 -> fpow x k = fpow x (k mod r).
Proof.
  intros x r k Hr Hk E. rewrite (Z.div_mod k r) at 1 by lia. assert (0 <= k / r)%Z by (apply Z.div_pos; lia). assert (H2 := Z.mod_pos_bound k r Hr).
  rewrite fpowA by nia. rewrite fpowM by lia. rewrite E, fpow1. ring.
Qed.
Lemma fpow_neg : forall (x u : K) r k, (0 < r)%Z -> (0 <= k)%Z -> x <> f0 -> fpow x r = f1 -> fmul u (fpow x k) = f1 -> u = fpow x ((- k) mod r).
Proof.
  intros x u r k Hr Hk N E U. assert (H2 := Z.mod_pos_bound (- k) r Hr). assert (N2 := fpow_nz x k N).
  assert (E2 : fmul (fpow x ((- k) mod r)) (fpow x k) = f1).
  { rewrite <- fpowA by lia. replace ((- k) mod r + k)%Z with (r * (- ((- k) / r)))%Z by (rewrite (Z.mod_eq (- k) r) by lia; ring).
    assert (- k / r <= 0)%Z by (apply Z.div_le_upper_bound; lia). rewrite fpowM by lia. rewrite E. apply fpow1. }
  transitivity (fmul (fmul u (fpow x k)) (fpow x ((- k) mod r))); [ | rewrite U; ring].
  transitivity (fmul u (fmul (fpow x ((- k) mod r)) (fpow x k))); [rewrite E2; ring | ring].
Qed.
End F.

Section S.
Variable K : fld.
Hypothesis HK : fld_laws K.
Variables (a b : K).
Hypothesis HE : elliptic K a b.
Variables G1 G2 : point K -> Prop.
Hypothesis S1 : subgroup K a b G1.
Hypothesis S2 : subgroup K a b G2.
Hypothesis D12 : forall P, G1 P -> G2 P -> P = None.
Variables r e : Z.
Hypothesis Hr : (0 < r)%Z.
Hypothesis He : (0 <= e)%Z.
Hypothesis FERMAT : forall x : K, x <> f0 -> fpow x (r * e) = f1.
Local Notation tate := (tate K a r e).
Local Notation mul := (pmul K a).
Let C2 : f2 K <> f0 := proj1 HE.
Lemma mul_neg : forall n P, on_curve K a b P -> mul n (pneg P) = pneg (mul n P).
Proof.
  induction n; intros P O; cbn [pmul]; [reflexivity | ]. rewrite IHn by auto. symmetry. apply (pneg_add K HK a b HE); auto.
  apply (pmul_on K HK a b C2); auto.
Qed.
Lemma order_neg : forall k P, on_curve K a b P -> pzmul K a k P = None -> pzmul K a k (pneg P) = None.
Proof.
  intros [ | p | p] P O H; cbn [pzmul] in *; auto; rewrite mul_neg by auto; [rewrite H; reflexivity | ]. destruct (mul (Pos.to_nat p) P) as [[x y] | ]; [discriminate | reflexivity].
Qed.
Lemma tate_nz : forall P Q, G1 P -> G2 Q -> tate P Q <> f0.
Proof. intros P Q HP HQ. unfold Tate.tate. apply (fpow_nz K HK). apply (mil_nz K HK a b HE G1 G2 S1 S2 D12); auto. Qed.
Lemma add_neg_l : forall P, padd K a (pneg P) P = None.
Proof. intros. rewrite (add_comm K HK a). apply (add_neg_r K HK a C2). Qed.
Lemma tate_z1 : forall m P Q, G1 P -> G2 Q -> pzmul K a r P = None -> tate (pzmul K a m P) Q = fpow (tate P Q) (m mod r).
Proof.
  intros m P Q HP HQ O. assert (T := tate_r K HK a b HE G1 G2 S1 S2 D12 r e Hr He FERMAT P Q HP HQ). assert (N := tate_nz P Q HP HQ).
  assert (E : forall n, tate (mul n P) Q = fpow (tate P Q) (Z.of_nat n)).
  { intros n. rewrite (tate_mul1 K HK a b HE G1 G2 S1 S2 D12 r e Hr He FERMAT) by auto. unfold fpow, zpow. rewrite Nat2Z.id. reflexivity. }
  destruct m as [ | p | p]; cbn [pzmul].
  - rewrite Z.mod_0_l by lia. apply (tate_P0 K HK).
  - rewrite E, positive_nat_Z. apply (fpow_mod K HK); auto; lia.
  - change (Z.neg p) with (- Z.pos p)%Z. apply (fpow_neg K HK); auto; try lia. rewrite <- positive_nat_Z, <- E.
    assert (G := mul_G1 K a b G1 S1 (Pos.to_nat p) P HP). assert (OR := order_nmul K HK a b HE G1 S1 r e Hr FERMAT (Pos.to_nat p) P HP O).
    rewrite <- (tate_1 K HK a b HE G1 G2 S1 S2 D12 r e Hr He FERMAT); auto.
    + rewrite add_neg_l. apply (tate_P0 K HK).
    + apply (sg_neg _ _ _ _ S1). auto.
    + apply order_neg; auto. apply (sg_on _ _ _ _ S1). auto.
Qed.
Lemma tate_z2 : forall m P Q, G1 P -> G2 Q -> pzmul K a r P = None -> tate P (pzmul K a m Q) = fpow (tate P Q) (m mod r).
Proof.
  intros m P Q HP HQ O. assert (T := tate_r K HK a b HE G1 G2 S1 S2 D12 r e Hr He FERMAT P Q HP HQ). assert (N := tate_nz P Q HP HQ).
  assert (E : forall n, tate P (mul n Q) = fpow (tate P Q) (Z.of_nat n)).
  { intros n. rewrite (tate_mul2 K HK a b HE G1 G2 S1 S2 D12 r e Hr He FERMAT) by auto. unfold fpow, zpow. rewrite Nat2Z.id. reflexivity. }
  destruct m as [ | p | p]; cbn [pzmul].
  - rewrite Z.mod_0_l by lia. apply (tate_Q0 K HK).
  - rewrite E, positive_nat_Z. apply (fpow_mod K HK); auto; lia.
  - change (Z.neg p) with (- Z.pos p)%Z. apply (fpow_neg K HK); auto; try lia. rewrite <- positive_nat_Z, <- E.
    assert (G := mul_G2 K a b G2 S2 (Pos.to_nat p) Q HQ).
    rewrite <- (tate_2 K HK a b HE G1 G2 S1 S2 D12 r e Hr He FERMAT); auto.
    + rewrite add_neg_l. apply (tate_Q0 K HK).
    + apply (sg_neg _ _ _ _ S2). auto.
Qed.
Lemma pz_G2 : forall m Q, G2 Q -> G2 (pzmul K a m Q).
Proof.
  intros [ | p | p] Q H; cbn [pzmul]; [apply (sg_0 _ _ _ _ S2) | apply (mul_G2 K a b G2 S2); auto | apply (sg_neg _ _ _ _ S2); apply (mul_G2 K a b G2 S2); auto].
Qed.
Theorem tate_bilinear_z : forall m n P Q, G1 P -> G2 Q -> pzmul K a r P = None ->
  tate (pzmul K a m P) (pzmul K a n Q) = fpow (tate P Q) ((m * n) mod r).
Proof.
  intros m n P Q HP HQ O. rewrite tate_z1, tate_z2 by (auto using pz_G2).
  assert (H1 := Z.mod_pos_bound m r Hr). assert (H2 := Z.mod_pos_bound n r Hr). rewrite <- (fpowM K HK) by lia.
  rewrite (fpow_mod K HK _ r) by (try lia; try nia; apply (tate_r K HK a b HE G1 G2 S1 S2 D12 r e Hr He FERMAT); auto).
  f_equal. rewrite <- Zmult_mod. f_equal. ring.
Qed.
End S.
