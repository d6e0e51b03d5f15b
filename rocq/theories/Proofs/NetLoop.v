(** The Shipsey-Stange loop computes the terms of the elliptic nets of
    NetFacts.v. *)
From Coq Require Import ZArith List Bool Lia Ring Field.
From Verif.Base Require Import Outcome Algebra Slots Gmp.
From Verif.Spec Require Import Curve Tate Twist.
From Verif.Model Require Import GenericPow Curve Miller EllNet.
From Verif.Proofs Require Import FieldFacts SlotFacts CurveGroup CurveFacts LineAlgebra TateFacts Embed MillerFacts NetFacts.

Section S.
Variables K L : fld.
Hypothesis HK : fld_laws K.
Hypothesis HL : fld_laws L.
Add Field KFnl : (fl_field K HK).
Add Field LFnl : (fl_field L HL).
Variable up : K -> L.
Hypothesis Hup : embedding K L up.
Local Notation "0" := f0. Local Notation "1" := f1.
Local Notation "x + y" := (fadd x y). Local Notation "x - y" := (fsub x y). Local Notation "x * y" := (fmul x y). Local Notation "- x" := (fopp x).
Local Notation "x / y" := (fdiv x y).
Variables (a b : K).
Hypothesis HE : elliptic K a b.
Let C2 : f2 K <> 0 := proj1 HE.
Let HEL : elliptic L (up a) (up b) := e_elliptic K L HK HL up Hup a C2 b HE.
Variables x1 y1 : K.
Local Notation P := (Some (x1, y1)).
Hypothesis OP : on_curve K a b P.
Variable r : nat.
Hypothesis R5 : (5 <= r)%nat.
Local Notation Zr := (Z.of_nat r).
Hypothesis ORD : forall j, (0 < j < r)%nat -> pmul K a j P <> None.
Hypothesis TOR : pmul K a r P = None.
Local Notation P' := (Some (up x1, up y1)).
Lemma OP' : on_curve L (up a) (up b) P'. Proof. apply (e_on K L up Hup a b P). auto. Qed.
Lemma up_mulP : forall j, pmul L (up a) j P' = epoint up (pmul K a j P).
Proof. intros. symmetry. apply (e_pmul K L HK HL up Hup a C2). Qed.
Lemma ORD' : forall j, (0 < j < r)%nat -> pmul L (up a) j P' <> None.
Proof. intros j H. rewrite up_mulP. specialize (ORD j H). destruct (pmul K a j P) as [[x y] | ]; cbn; congruence. Qed.
Lemma TOR' : pmul L (up a) r P' = None. Proof. rewrite up_mulP, TOR. reflexivity. Qed.
Local Notation A := (az K a x1 y1).
Local Notation AL := (az L (up a) (up x1) (up y1)).
Lemma up_xm : forall j, up (xm K a x1 y1 j) = xm L (up a) (up x1) (up y1) j.
Proof. intros j. unfold xm. rewrite up_mulP. destruct (pmul K a j P) as [[x y] | ]; cbn [epoint xc]; auto. apply Hup. Qed.
Lemma up_an : forall n, (n <= r)%nat -> up (an K a x1 y1 n) = an L (up a) (up x1) (up y1) n.
Proof.
  intros n. induction n as [n IH] using lt_wf_ind. intros H.
  destruct (le_lt_dec n 2) as [S2 | S2].
  - destruct n as [ | [ | [ | n]]]; [ | | | lia].
    + apply Hup.
    + apply Hup.
    + rewrite !an_2, (em_mul _ _ _ Hup). f_equal. apply (e_f2 K L up Hup).
  - assert (N : an L (up a) (up x1) (up y1) (n - 1 - 1) <> 0) by (apply (an_nz L HL (up a) (up b) HEL _ _ OP' r R5 ORD'); lia).
    apply (f_cancel L HL _ _ _ N). rewrite <- (IH (n - 1 - 1)%nat) at 1 by lia. rewrite <- (em_mul _ _ _ Hup).
    replace n with (n - 1 + 1)%nat at 2 4 by lia.
    transitivity (up (an K a x1 y1 (n - 1 + 1) * an K a x1 y1 (n - 1 - 1))); [f_equal; ring | ].
    transitivity (an L (up a) (up x1) (up y1) (n - 1 + 1) * an L (up a) (up x1) (up y1) (n - 1 - 1)); [ | ring].
    rewrite (an_rec K HK a b HE x1 y1 OP r R5 ORD) by lia. rewrite (an_rec L HL (up a) (up b) HEL (up x1) (up y1) OP' r R5 ORD') by lia.
    rewrite !(em_mul _ _ _ Hup), (e_sub K L HK HL up Hup), up_xm, IH by lia. reflexivity.
Qed.
Lemma up_az : forall z, (Z.abs z <= Zr)%Z -> up (A z) = AL z.
Proof. intros z H. unfold az. destruct (Z.ltb_spec z 0); [rewrite (e_opp K L HK HL up Hup) | ]; rewrite up_an by lia; reflexivity. Qed.

(** ** The variables c *)
Definition cinv (k : Z) (c : cblock K) : Prop :=
  forall i, (-3 <= i <= 4)%Z -> (k + i <= Zr)%Z ->
    match i with
    | Z0 => c0 c | 1%Z => c1 c | 2%Z => c2 c | 3%Z => c3 c | 4%Z => c4 c | (-1)%Z => cm1 c | (-2)%Z => cm2 c | (-3)%Z => cm3 c | _ => 0
    end = A (k + i).
Variable C : K.
Hypothesis HC : C * (f2 K * y1) = 1.
Lemma half : forall x y, x * A 2 = y -> y * C = x.
Proof. intros x y <-. rewrite az_2. transitivity (x * (C * (f2 K * y1))); [ring | rewrite HC; ring]. Qed.
Lemma odd_term : forall n, (Z.abs n + Z.abs (n - 1) <= Zr)%Z ->
  A (2 * n - 1) = A (n + 1) * A (n - 1) * (A (n - 1) * A (n - 1)) - A n * A n * (A n * A (n - 2)).
Proof.
  intros n H. pose proof (az_net K HK a b HE x1 y1 OP r R5 ORD n (n - 1) H) as E. unfold net_eq in E.
  replace (n + (n - 1))%Z with (2 * n - 1)%Z in E by lia. replace (n - (n - 1))%Z with 1%Z in E by lia.
  replace (n - 1 + 1)%Z with n in E by lia. replace (n - 1 - 1)%Z with (n - 2)%Z in E by lia.
  rewrite <- E, az_1. ring.
Qed.
Lemma even_term : forall n, (Z.abs (n + 1) + Z.abs (n - 1) <= Zr)%Z ->
  A (2 * n) = (A (n + 2) * A n * (A (n - 1) * A (n - 1)) - A (n + 1) * A (n + 1) * (A n * A (n - 2))) * C.
Proof.
  intros n H. symmetry. apply half. pose proof (az_net K HK a b HE x1 y1 OP r R5 ORD (n + 1) (n - 1) H) as E. unfold net_eq in E.
  replace (n + 1 + (n - 1))%Z with (2 * n)%Z in E by lia. replace (n + 1 - (n - 1))%Z with 2%Z in E by lia.
  replace (n + 1 + 1)%Z with (n + 2)%Z in E by lia. replace (n + 1 - 1)%Z with n in E by lia.
  replace (n - 1 + 1)%Z with n in E by lia. replace (n - 1 - 1)%Z with (n - 2)%Z in E by lia. auto.
Qed.
Lemma cinv_get : forall k c, cinv k c ->
  (cm3 c = A (k - 3) \/ Zr < k - 3)%Z /\ (cm2 c = A (k - 2) \/ Zr < k - 2)%Z /\ (cm1 c = A (k - 1) \/ Zr < k - 1)%Z /\ (c0 c = A k \/ Zr < k)%Z /\
  (c1 c = A (k + 1) \/ Zr < k + 1)%Z /\ (c2 c = A (k + 2) \/ Zr < k + 2)%Z /\ (c3 c = A (k + 3) \/ Zr < k + 3)%Z /\ (c4 c = A (k + 4) \/ Zr < k + 4)%Z.
Proof.
  intros k c H. repeat split.
  - destruct (Z_le_gt_dec (k - 3) Zr); [left; apply (H (-3)%Z); lia | right; lia].
  - destruct (Z_le_gt_dec (k - 2) Zr); [left; apply (H (-2)%Z); lia | right; lia].
  - destruct (Z_le_gt_dec (k - 1) Zr); [left; apply (H (-1)%Z); lia | right; lia].
  - destruct (Z_le_gt_dec k Zr); [left | right; lia]. replace (A k) with (A (k + 0)) by (f_equal; lia). apply (H 0%Z); lia.
  - destruct (Z_le_gt_dec (k + 1) Zr); [left; apply (H 1%Z); lia | right; lia].
  - destruct (Z_le_gt_dec (k + 2) Zr); [left; apply (H 2%Z); lia | right; lia].
  - destruct (Z_le_gt_dec (k + 3) Zr); [left; apply (H 3%Z); lia | right; lia].
  - destruct (Z_le_gt_dec (k + 4) Zr); [left; apply (H 4%Z); lia | right; lia].
Qed.
Definition bitz (bit : bool) : Z := if bit then 1%Z else 0%Z.
Lemma c_step_inv : forall bit k c, (1 <= k)%Z -> (2 * k + bitz bit <= Zr)%Z -> cinv k c ->
  cinv (2 * k + bitz bit) (c_step K bit C (keep K c) (rest K c)).
Proof.
  intros bit k c K1 KR H. apply cinv_get in H. destruct H as (E1 & E2 & E3 & E4 & E5 & E6 & E7 & E8).
  intros i Hi Hr.
  assert (O : forall n z, z = (2 * n - 1)%Z -> (Z.abs n + Z.abs (n - 1) <= Zr)%Z -> A z = A (n + 1) * A (n - 1) * (A (n - 1) * A (n - 1)) - A n * A n * (A n * A (n - 2)))
    by (intros n z -> G; apply odd_term; auto).
  assert (V : forall n z, z = (2 * n)%Z -> (Z.abs (n + 1) + Z.abs (n - 1) <= Zr)%Z -> A z = (A (n + 2) * A n * (A (n - 1) * A (n - 1)) - A (n + 1) * A (n + 1) * (A n * A (n - 2))) * C)
    by (intros n z -> G; apply even_term; auto).
  assert (HH : forall (x : K) (z w : Z), (x = A z \/ (Zr < z)%Z) -> (z <= Zr)%Z -> z = w -> x = A w) by (intros x z w [-> | ?] ? <-; [auto | lia]).
  assert (D : i = (-3)%Z \/ i = (-2)%Z \/ i = (-1)%Z \/ i = 0%Z \/ i = 1%Z \/ i = 2%Z \/ i = 3%Z \/ i = 4%Z) by lia.
  destruct bit; cbn [bitz c_step] in *.
  - destruct D as [-> | [-> | [-> | [-> | [-> | [-> | [-> | ->]]]]]]];
    cbn [c_double_add cm3 cm2 cm1 c0 c1 c2 c3 c4 keep rest sm2 sm1 s0 s1 s2 s3 tm2 tm1 t0 t1 t2 t3].
    + rewrite (V (k - 1)%Z) by lia.
      rewrite (HH _ _ (k - 1 - 2)%Z E1), (HH _ _ (k - 1 - 1)%Z E2), (HH _ _ (k - 1)%Z E3), (HH _ _ (k - 1 + 1)%Z E4), (HH _ _ (k - 1 + 2)%Z E5) by lia. ring.
    + rewrite (O k%Z) by lia. rewrite (HH _ _ (k - 2)%Z E2), (HH _ _ (k - 1)%Z E3), (HH _ _ k%Z E4), (HH _ _ (k + 1)%Z E5) by lia. ring.
    + rewrite (V k%Z) by lia. rewrite (HH _ _ (k - 2)%Z E2), (HH _ _ (k - 1)%Z E3), (HH _ _ k%Z E4), (HH _ _ (k + 1)%Z E5), (HH _ _ (k + 2)%Z E6) by lia. ring.
    + rewrite (O (k + 1)%Z) by lia. rewrite (HH _ _ (k + 1 - 2)%Z E3), (HH _ _ (k + 1 - 1)%Z E4), (HH _ _ (k + 1)%Z E5), (HH _ _ (k + 1 + 1)%Z E6) by lia. ring.
    + rewrite (V (k + 1)%Z) by lia. rewrite (HH _ _ (k + 1 - 2)%Z E3), (HH _ _ (k + 1 - 1)%Z E4), (HH _ _ (k + 1)%Z E5), (HH _ _ (k + 1 + 1)%Z E6), (HH _ _ (k + 1 + 2)%Z E7) by lia. ring.
    + rewrite (O (k + 2)%Z) by lia. rewrite (HH _ _ (k + 2 - 2)%Z E4), (HH _ _ (k + 2 - 1)%Z E5), (HH _ _ (k + 2)%Z E6), (HH _ _ (k + 2 + 1)%Z E7) by lia. ring.
    + rewrite (V (k + 2)%Z) by lia. rewrite (HH _ _ (k + 2 - 2)%Z E4), (HH _ _ (k + 2 - 1)%Z E5), (HH _ _ (k + 2)%Z E6), (HH _ _ (k + 2 + 1)%Z E7), (HH _ _ (k + 2 + 2)%Z E8) by lia. ring.
    + rewrite (O (k + 3)%Z) by lia. rewrite (HH _ _ (k + 3 - 2)%Z E5), (HH _ _ (k + 3 - 1)%Z E6), (HH _ _ (k + 3)%Z E7), (HH _ _ (k + 3 + 1)%Z E8) by lia. ring.
  - destruct D as [-> | [-> | [-> | [-> | [-> | [-> | [-> | ->]]]]]]];
    cbn [c_double cm3 cm2 cm1 c0 c1 c2 c3 c4 keep rest sm2 sm1 s0 s1 s2 s3 tm2 tm1 t0 t1 t2 t3].
    + rewrite (O (k - 1)%Z) by lia. rewrite (HH _ _ (k - 1 - 2)%Z E1), (HH _ _ (k - 1 - 1)%Z E2), (HH _ _ (k - 1)%Z E3), (HH _ _ (k - 1 + 1)%Z E4) by lia. ring.
    + rewrite (V (k - 1)%Z) by lia.
      rewrite (HH _ _ (k - 1 - 2)%Z E1), (HH _ _ (k - 1 - 1)%Z E2), (HH _ _ (k - 1)%Z E3), (HH _ _ (k - 1 + 1)%Z E4), (HH _ _ (k - 1 + 2)%Z E5) by lia. ring.
    + rewrite (O k%Z) by lia. rewrite (HH _ _ (k - 2)%Z E2), (HH _ _ (k - 1)%Z E3), (HH _ _ k%Z E4), (HH _ _ (k + 1)%Z E5) by lia. ring.
    + rewrite (V k%Z) by lia. rewrite (HH _ _ (k - 2)%Z E2), (HH _ _ (k - 1)%Z E3), (HH _ _ k%Z E4), (HH _ _ (k + 1)%Z E5), (HH _ _ (k + 2)%Z E6) by lia. ring.
    + rewrite (O (k + 1)%Z) by lia. rewrite (HH _ _ (k + 1 - 2)%Z E3), (HH _ _ (k + 1 - 1)%Z E4), (HH _ _ (k + 1)%Z E5), (HH _ _ (k + 1 + 1)%Z E6) by lia. ring.
    + rewrite (V (k + 1)%Z) by lia. rewrite (HH _ _ (k + 1 - 2)%Z E3), (HH _ _ (k + 1 - 1)%Z E4), (HH _ _ (k + 1)%Z E5), (HH _ _ (k + 1 + 1)%Z E6), (HH _ _ (k + 1 + 2)%Z E7) by lia. ring.
    + rewrite (O (k + 2)%Z) by lia. rewrite (HH _ _ (k + 2 - 2)%Z E4), (HH _ _ (k + 2 - 1)%Z E5), (HH _ _ (k + 2)%Z E6), (HH _ _ (k + 2 + 1)%Z E7) by lia. ring.
    + rewrite (V (k + 2)%Z) by lia. rewrite (HH _ _ (k + 2 - 2)%Z E4), (HH _ _ (k + 2 - 1)%Z E5), (HH _ _ (k + 2)%Z E6), (HH _ _ (k + 2 + 1)%Z E7), (HH _ _ (k + 2 + 2)%Z E8) by lia. ring.
Qed.
(** the first block *)
Lemma first_inv_of : forall c, cm3 c = - (f2 K * y1) -> cm2 c = - (1) -> cm1 c = 0 -> c0 c = 1 -> c1 c = f2 K * y1 -> c2 c = A 3 -> c3 c = A 4 -> c4 c = A 5 -> cinv 1 c.
Proof.
  intros c H1 H2 H3 H4 H5 H6 H7 H8 i Hi _.
  assert (D : i = (-3)%Z \/ i = (-2)%Z \/ i = (-1)%Z \/ i = 0%Z \/ i = 1%Z \/ i = 2%Z \/ i = 3%Z \/ i = 4%Z) by lia.
  destruct D as [-> | [-> | [-> | [-> | [-> | [-> | [-> | ->]]]]]]]; cbn [Z.add Z.pos_sub]; auto.
Qed.
Lemma five : forall c1 c2 c3 : K, c1 = A 2 -> c2 = A 3 -> c3 = A 4 -> fifth K c1 c2 c3 = A 5.
Proof. intros c1' c2' c3' -> -> ->. rewrite (az_5 K HK a b HE x1 y1 OP r R5 ORD). reflexivity. Qed.
Lemma first_c_inv : cinv 1 (first_c K a b x1 y1).
Proof.
  pose proof (az_3 K HK a b HE x1 y1 OP r R5 ORD) as E3. pose proof (az_4 K HK a b HE x1 y1 OP r R5 ORD) as E4.
  assert (F2 : c1 (first_c K a b x1 y1) = A 2) by (cbn [first_c c1]; rewrite az_2; unfold double, f2; ring).
  assert (F3 : c2 (first_c K a b x1 y1) = A 3) by (cbn [first_c c2]; rewrite E3; unfold double, f3, f2; ring).
  assert (F4 : c3 (first_c K a b x1 y1) = A 4) by (cbn [first_c c3]; rewrite E4; unfold double, f3, f2; ring).
  apply first_inv_of; auto.
  - change (- c1 (first_c K a b x1 y1) = - (f2 K * y1)). rewrite F2. reflexivity.
  - apply (five _ _ _ F2 F3 F4).
Qed.
Lemma first_c_a_inv : a = 1 -> b = 0 -> cinv 1 (first_c_a K x1 y1).
Proof.
  intros Ha Hb. pose proof (az_3 K HK a b HE x1 y1 OP r R5 ORD) as E3. pose proof (az_4 K HK a b HE x1 y1 OP r R5 ORD) as E4.
  assert (F2 : c1 (first_c_a K x1 y1) = A 2) by (cbn [first_c_a c1]; rewrite az_2; unfold double, f2; ring).
  assert (F3 : c2 (first_c_a K x1 y1) = A 3) by (cbn [first_c_a c2]; rewrite E3, Ha, Hb; unfold double, f3, f2; ring).
  assert (F4 : c3 (first_c_a K x1 y1) = A 4) by (cbn [first_c_a c3]; rewrite E4, Ha, Hb; unfold double, f3, f2; ring).
  apply first_inv_of; auto.
  - change (- c1 (first_c_a K x1 y1) = - (f2 K * y1)). rewrite F2. reflexivity.
  - apply (five _ _ _ F2 F3 F4).
Qed.

(** ** The variables d *)
Variables xq yq : L.
Hypothesis OQ : on_curve L (up a) (up b) (Some (xq, yq)).
Hypothesis QN : forall j, pmul L (up a) j P' <> Some (xq, yq).
Local Notation W := (bz L (up a) (up x1) (up y1) r xq yq).
Definition dinv (k : Z) (d : dblock L) : Prop := dm1 d = W (k - 1) /\ d0 d = W k /\ d1 d = W (k + 1).
Variable scal : K -> L -> L.
Hypothesis SC : forall c u, scal c u = up c * u.
Variable mulA : L -> L.
Hypothesis MA : forall u, mulA u * (up x1 - xq) = u.
Variable B : L.
Hypothesis HB : B * dd L (up x1) (up y1) xq yq = 1.
Lemma xq_nz' : up x1 - xq <> 0. Proof. apply (xq_nz L HL (up a) (up b) HEL _ _ OP' r R5 ORD' TOR' xq yq OQ QN). Qed.
Lemma d_step_inv : forall bit k c d, (1 <= k)%Z -> (2 * k + bitz bit <= Zr)%Z -> cinv k c -> dinv k d ->
  dinv (2 * k + bitz bit) (d_step K L scal mulA B bit (keep K c) d).
Proof.
  intros bit k c d K1 KR H (D1 & D2 & D3). apply cinv_get in H. destruct H as (E1 & E2 & E3 & E4 & E5 & E6 & E7 & E8).
  assert (HH : forall (x : K) (z w : Z), (x = A z \/ (Zr < z)%Z) -> (z <= Zr)%Z -> z = w -> (-1 <= w)%Z -> up x = AL w).
  { intros x z w [-> | ?] ? <- ?; [apply up_az; lia | lia]. }
  assert (N : forall j, (-1 <= j)%Z -> (k + j < Zr)%Z -> (j <= 2)%Z -> W (2 * k + j) * W (- j) = W (k + 1) * W (k - 1) * (AL (k + j) * AL (k + j)) - W k * W k * (AL (k + j + 1) * AL (k + j - 1))).
  { intros j J1 J2 J3. pose proof (bz_net L HL (up a) (up b) HEL _ _ OP' r R5 ORD' TOR' xq yq OQ QN k (k + j)%Z ltac:(lia) ltac:(lia) ltac:(lia)) as E.
    replace (k + (k + j))%Z with (2 * k + j)%Z in E by lia. replace (k - (k + j))%Z with (- j)%Z in E by lia. auto. }
  assert (W0 : W 0 = 1) by (apply (bz_0 L HL (up a) (up b) HEL _ _ OP' r R5 ORD' TOR' xq yq OQ QN)).
  assert (W1 : W 1 = 1) by (apply (bz_1 L HL (up a) (up b) HEL _ _ OP' r R5 ORD' TOR' xq yq OQ QN)).
  assert (Wm1 : W (-1) = up x1 - xq) by apply bz_m1. assert (Wm2 : W (-2) = dd L (up x1) (up y1) xq yq) by apply bz_m2.
  assert (MU : forall u w, w * (up x1 - xq) = u -> mulA u = w). { intros u w E. pose proof xq_nz'. apply (f_cancel L HL (up x1 - xq)); auto. transitivity (mulA u * (up x1 - xq)); [ring | ]. rewrite MA, <- E. ring. }
  assert (BU : forall u w, w * dd L (up x1) (up y1) xq yq = u -> u * B = w). { intros u w <-. transitivity (w * (B * dd L (up x1) (up y1) xq yq)); [ring | ]. rewrite HB. ring. }
  destruct bit; cbn [bitz d_step] in *; (split; [ | split]); unfold d_double_add, d_double; cbv zeta; cbn [dm1 d0 d1 keep sm1 s0 s1 s2 tm1 t0 t1 t2]; rewrite D1, D2, D3.
  - replace (2 * k + 1 - 1)%Z with (2 * k + 0)%Z by lia. specialize (N 0%Z ltac:(lia) ltac:(lia) ltac:(lia)). rewrite Z.opp_0, W0 in N.
    rewrite !SC, !(em_mul _ _ _ Hup), (HH _ _ (k + 0 - 1)%Z E3), (HH _ _ (k + 0)%Z E4), (HH _ _ (k + 0 + 1)%Z E5) by lia.
    replace (W (2 * k + 0)) with (W (2 * k + 0) * 1) by ring. rewrite N. ring.
  - specialize (N 1%Z ltac:(lia) ltac:(lia) ltac:(lia)). change (- (1))%Z with (-1)%Z in N. rewrite Wm1 in N. apply MU. rewrite N.
    rewrite !SC, !(em_mul _ _ _ Hup), (HH _ _ (k + 1 - 1)%Z E4), (HH _ _ (k + 1)%Z E5), (HH _ _ (k + 1 + 1)%Z E6) by lia. ring.
  - replace (2 * k + 1 + 1)%Z with (2 * k + 2)%Z by lia. specialize (N 2%Z ltac:(lia) ltac:(lia) ltac:(lia)). change (- (2))%Z with (-2)%Z in N. rewrite Wm2 in N.
    apply BU. rewrite N. rewrite !SC, !(em_mul _ _ _ Hup), (HH _ _ (k + 2 - 1)%Z E5), (HH _ _ (k + 2)%Z E6), (HH _ _ (k + 2 + 1)%Z E7) by lia. ring.
  - replace (2 * k + 0 - 1)%Z with (2 * k + -1)%Z by lia. specialize (N (-1)%Z ltac:(lia) ltac:(lia) ltac:(lia)). change (- -1)%Z with 1%Z in N. rewrite W1 in N.
    rewrite !SC, !(em_mul _ _ _ Hup), (HH _ _ (k + -1 - 1)%Z E2), (HH _ _ (k + -1)%Z E3), (HH _ _ (k + -1 + 1)%Z E4) by lia.
    replace (W (2 * k + -1)) with (W (2 * k + -1) * 1) by ring. rewrite N. ring.
  - specialize (N 0%Z ltac:(lia) ltac:(lia) ltac:(lia)). rewrite Z.opp_0, W0 in N.
    rewrite !SC, !(em_mul _ _ _ Hup), (HH _ _ (k + 0 - 1)%Z E3), (HH _ _ (k + 0)%Z E4), (HH _ _ (k + 0 + 1)%Z E5) by lia.
    replace (W (2 * k + 0)) with (W (2 * k + 0) * 1) by ring. rewrite N. ring.
  - replace (2 * k + 0 + 1)%Z with (2 * k + 1)%Z by lia. specialize (N 1%Z ltac:(lia) ltac:(lia) ltac:(lia)). change (- (1))%Z with (-1)%Z in N. rewrite Wm1 in N. apply MU. rewrite N.
    rewrite !SC, !(em_mul _ _ _ Hup), (HH _ _ (k + 1 - 1)%Z E4), (HH _ _ (k + 1)%Z E5), (HH _ _ (k + 1 + 1)%Z E6) by lia. ring.
Qed.
Lemma first_d_inv : forall d2, d2 = f2 L * up x1 + xq - (up y1 - yq) / (up x1 - xq) * ((up y1 - yq) / (up x1 - xq)) -> dinv 1 (first_d L d2).
Proof.
  intros d2 ->. repeat split; cbn [first_d dm1 d0 d1].
  - symmetry. apply (bz_0 L HL (up a) (up b) HEL _ _ OP' r R5 ORD' TOR' xq yq OQ QN).
  - symmetry. apply (bz_1 L HL (up a) (up b) HEL _ _ OP' r R5 ORD' TOR' xq yq OQ QN).
  - symmetry. apply (bz_2 L HL (up a) (up b) HEL _ _ OP' r R5 ORD' TOR' xq yq OQ QN).
Qed.
Lemma net_loop_inv : forall m c d, (m <= start_bit Zr)%nat -> cinv (Z.of_nat (kk Zr (Datatypes.S m))) c -> dinv (Z.of_nat (kk Zr (Datatypes.S m))) d ->
  let '(c', d') := net_loop K Zr L scal mulA B m C c d in cinv Zr c' /\ dinv Zr d'.
Proof.
  assert (R2 : (2 < Zr)%Z) by lia.
  assert (ST : forall m c d, (m <= start_bit Zr)%nat -> cinv (Z.of_nat (kk Zr (Datatypes.S m))) c -> dinv (Z.of_nat (kk Zr (Datatypes.S m))) d ->
    cinv (Z.of_nat (kk Zr m)) (c_step K (mpz_tstbit Zr (Z.of_nat m)) C (keep K c) (rest K c)) /\
    dinv (Z.of_nat (kk Zr m)) (d_step K L scal mulA B (mpz_tstbit Zr (Z.of_nat m)) (keep K c) d)).
  { intros m c d M Hc Hd. change (mpz_tstbit Zr (Z.of_nat m)) with (Z.testbit Zr (Z.of_nat m)).
    assert (E : Z.of_nat (kk Zr m) = (2 * Z.of_nat (kk Zr (Datatypes.S m)) + bitz (Z.testbit Zr (Z.of_nat m)))%Z).
    { rewrite (kk_step Zr R2 m). unfold bitz. destruct (Z.testbit Zr (Z.of_nat m)); lia. }
    pose proof (kk_pos Zr R2 m M) as KP.
    assert (KL : (Z.of_nat (kk Zr m) <= Zr)%Z). { unfold kk. rewrite Z2Nat.id by (apply Z.div_pos; [lia | apply Z.pow_pos_nonneg; lia]). apply Z.div_le_upper_bound; [apply Z.pow_pos_nonneg; lia | ].
      assert (0 < 2 ^ Z.of_nat m)%Z by (apply Z.pow_pos_nonneg; lia). nia. }
    rewrite E in *. split; [apply c_step_inv | apply d_step_inv]; auto; lia. }
  induction m as [ | m IH]; intros c d M Hc Hd; destruct (ST _ c d M Hc Hd) as (Hc' & Hd'); cbn [net_loop].
  - rewrite kk_0, Nat2Z.id in Hc', Hd'. auto.
  - apply IH; auto; lia.
Qed.
Theorem net_loop_last : forall c d2, cinv 1 c -> d2 = f2 L * up x1 + xq - (up y1 - yq) / (up x1 - xq) * ((up y1 - yq) / (up x1 - xq)) ->
  let '(c', d') := net_loop K Zr L scal mulA B (start_bit Zr) C c (first_d L d2) in cinv Zr c' /\ d1 d' = W (Zr + 1).
Proof.
  intros c d2 Hc E. assert (R2 : (2 < Zr)%Z) by lia.
  pose proof (net_loop_inv (start_bit Zr) c (first_d L d2) (le_n _)) as H. rewrite (kk_start Zr R2) in H.
  specialize (H Hc (first_d_inv d2 E)). destruct (net_loop K Zr L scal mulA B (start_bit Zr) C c (first_d L d2)) as [c' d']. destruct H as (H1 & _ & _ & H2). auto.
Qed.
End S.
