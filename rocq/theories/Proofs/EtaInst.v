(** eta_T is bilinear: the abstract argument (EtaBilinear) in GF(3^6m). *)
From Coq Require Import ZArith List Bool Lia Arith Ring Field.
From Verif.Base Require Import Outcome Algebra Slots.
From Verif.Spec Require Import FiniteField Curve Tate Twist Quadratic Extension Ternary TernaryTower EtaT.
From Verif.Proofs Require Import PowFacts FieldFacts SlotFacts RootFacts CurveGroup CurveFacts Bilinear BilinearZ GTFacts Embed TowerAlgebra TowerFields EtaFinal EtaLoop TernaryCurve EtaBilinear.
Open Scope nat_scope.

Section I.
Variable K : fld.
Hypothesis HK : fld_laws K.
Variable m : nat.
Hypothesis HO : has_order K (3 ^ Z.of_nat m).
Hypothesis Om : Nat.odd m = true.
Hypothesis N3 : m mod 3 <> 0.
Let C3 : fadd (fadd f1 f1) f1 = (f0 : K) := order_char3 K m HK HO.
Let RK : ring_theory (f0 : K) f1 fadd fmul fsub fopp eq := F_R (fl_field K HK).
Add Ring KR3i : RK (morphism (t_morph K RK C3), constants [t_const]).
Local Notation F6 := (GF36m K).
Let H6 : fld_laws F6 := laws36 K HK m HO Om N3.
Let D3 : fadd (fadd f1 f1) f1 = (f0 : F6).
Proof. exact (order_char3 F6 (6 * m) H6 (order36 K m HO N3)). Qed.
Let R6 : ring_theory (f0 : F6) f1 fadd fmul fsub fopp eq := F_R (fl_field F6 H6).
Add Ring KR6i : R6 (morphism (t_morph F6 R6 D3), constants [t_const]).
Local Notation q := (3 ^ Z.of_nat m)%Z.
Local Notation q3 := (3 ^ Z.of_nat (3 * m))%Z.

Definition e_up (x : K) : F6 := elt6 x f0 f0 f0 f0 f0.
Definition e_i : F6 := elt6 f0 f1 f0 f0 f0 f0.
Definition e_z : F6 := elt6 f0 f0 f1 f0 f0 f0.
Definition e_n : F6 := e_up (nz K m).
Definition e_pi (x : F6) : F6 := fpow x q.
Lemma elt6_add : forall u0 u1 u2 u3 u4 u5 v0 v1 v2 v3 v4 v5 : K, fadd (elt6 u0 u1 u2 u3 u4 u5) (elt6 v0 v1 v2 v3 v4 v5) =
  elt6 (fadd u0 v0) (fadd u1 v1) (fadd u2 v2) (fadd u3 v3) (fadd u4 v4) (fadd u5 v5).
Proof. intros. unfold elt6. rewrite (elt3_add (GF32m K)). reflexivity. Qed.
Lemma elt6_sub : forall u0 u1 u2 u3 u4 u5 v0 v1 v2 v3 v4 v5 : K, fsub (elt6 u0 u1 u2 u3 u4 u5) (elt6 v0 v1 v2 v3 v4 v5) =
  elt6 (fsub u0 v0) (fsub u1 v1) (fsub u2 v2) (fsub u3 v3) (fsub u4 v4) (fsub u5 v5).
Proof. intros. unfold elt6. rewrite (elt3_sub (GF32m K)). reflexivity. Qed.
Lemma elt6_opp : forall u0 u1 u2 u3 u4 u5 : K, fopp (elt6 u0 u1 u2 u3 u4 u5) = elt6 (fopp u0) (fopp u1) (fopp u2) (fopp u3) (fopp u4) (fopp u5).
Proof. intros. unfold elt6. rewrite (elt3_opp (GF32m K)). reflexivity. Qed.
Lemma elt6_0 : (f0 : F6) = elt6 f0 f0 f0 f0 f0 f0. Proof. exact (elt3_0 (GF32m K)). Qed.
Let mul6 := elt6_mul K HK m HO Om.
Let one6 := elt6_1 K.
Let frob := frob36 K HK m HO Om N3.
Lemma up_emb : embedding K F6 e_up.
Proof.
  split; unfold e_up.
  - rewrite elt6_0. reflexivity.
  - rewrite one6. reflexivity.
  - intros x y. rewrite elt6_add. f_equal; ring.
  - intros x y. rewrite mul6. f_equal; ring.
Qed.
Lemma e_II : fmul e_i e_i = fopp f1. Proof. unfold e_i. rewrite one6, mul6, elt6_opp. f_equal; ring. Qed.
Lemma e_ZZ : fmul (fmul e_z e_z) e_z = fadd e_z f1. Proof. unfold e_z. rewrite one6, !mul6, elt6_add. f_equal; ring. Qed.
Lemma e_NN : fmul (fmul e_n e_n) e_n = e_n.
Proof. unfold e_n, e_up. rewrite !mul6. f_equal; try ring. transitivity (cub K (nz K m)); [unfold cub; ring | apply (nz_cub K HK C3)]. Qed.
Lemma e_IND : forall x y, fsub e_z (e_up x) <> e_up y.
Proof. intros x y H. unfold e_z, e_up in H. rewrite elt6_sub in H. apply elt6_inj in H. destruct H as (_ & _ & H & _). apply (f_1_neq_0 K HK). rewrite <- H. ring. Qed.
Lemma q1 : (1 <= q)%Z. Proof. assert (0 < q)%Z by (apply Z.pow_pos_nonneg; lia). lia. Qed.
Lemma e_Hpi : embedding F6 F6 e_pi.
Proof.
  split; unfold e_pi.
  - unfold fpow, zpow. apply (npow_0_pos F6 H6). pose proof q1. lia.
  - apply (fpow1 F6 H6).
  - intros. apply (fpow3_add F6 H6 D3).
  - intros. apply (fpow_base F6 H6).
Qed.
Lemma e_PU : forall x, e_pi (e_up x) = e_up x. Proof. intro x. unfold e_pi, e_up. rewrite frob. cbv zeta. f_equal; ring. Qed.
Lemma e_PI : e_pi e_i = fopp e_i. Proof. unfold e_pi, e_i. rewrite frob, elt6_opp. cbv zeta. f_equal; ring. Qed.
Lemma e_PZ : e_pi e_z = fadd e_z e_n. Proof. unfold e_pi, e_z, e_n, e_up. rewrite frob, elt6_add. cbv zeta. fold (nz K m). f_equal; ring. Qed.
Lemma e_PN : e_pi e_n = e_n. Proof. apply e_PU. Qed.
Local Notation e := (eta_M m).
Local Notation tm := (3 ^ ((Z.of_nat m + 1) / 2))%Z.
Lemma third_pos : (0 <= q + 1 - eta_mu m * tm)%Z.
Proof. pose proof (tm_le m Om N3). unfold eta_mu. destruct ((Z.of_nat m mod 12 =? 1)%Z || (Z.of_nat m mod 12 =? 11)%Z); lia. Qed.
Lemma e_pos : (0 <= e)%Z.
Proof. unfold eta_M. pose proof third_pos. pose proof q1. pose proof (q3_pos m N3). unfold eta_t. apply Z.mul_nonneg_nonneg; [apply Z.mul_nonneg_nonneg | ]; lia. Qed.
Lemma e_K3 : forall x : F6, x <> f0 -> e_pi (e_pi (e_pi x)) = x -> fpow x e = f1.
Proof.
  intros x N E. unfold e_pi in E. pose proof q1. rewrite <- !(fpowM F6 H6) in E by nia.
  replace (q * (q * q))%Z with q3 in E by (rewrite <- !Z.pow_add_r by lia; f_equal; lia).
  assert (E1 : fpow x (q3 - 1) = f1). { symmetry. apply (pow_m1 K HK m HO Om N3); auto; [apply Z.pow_pos_nonneg; lia | rewrite E; ring]. }
  unfold eta_M. pose proof third_pos. pose proof (q3_pos m N3). rewrite <- Z.mul_assoc. rewrite (fpowM F6 H6) by (unfold eta_t; try apply Z.mul_nonneg_nonneg; lia). rewrite E1. apply (fpow1 F6 H6).
Qed.
Lemma nine : forall j, exists u : Z, (0 <= u /\ 9 ^ Z.of_nat j = 8 * u + 1)%Z.
Proof. clear. induction j as [ | j (u & U & E)]; [exists 0%Z; split; [lia | reflexivity] | ]. exists (9 * u + 1)%Z. rewrite Nat2Z.inj_succ, Z.pow_succ_r, E by lia. lia. Qed.
Lemma q_4 : exists j, (0 <= j)%Z /\ (q + 1 = 4 * j)%Z.
Proof.
  destruct (proj1 (Nat.odd_spec m) Om) as [j J0]. rewrite J0. exists ((3 * 9 ^ Z.of_nat j + 1) / 4)%Z.
  destruct (nine j) as (u & U & Q). replace (Z.of_nat (2 * j + 1)) with (2 * Z.of_nat j + 1)%Z by lia. rewrite Z.pow_add_r, Z.pow_mul_r by lia. change (3 ^ 2)%Z with 9%Z. rewrite Q.
  replace (3 * (8 * u + 1) + 1)%Z with ((6 * u + 1) * 4)%Z by ring. rewrite Z.div_mul by lia. lia.
Qed.
Lemma e_K4 : forall k : F6, fmul (fmul k k) (fmul k k) = f1 -> fpow k e = f1.
Proof.
  intros k E. destruct q_4 as (j & J & Q). pose proof third_pos. pose proof (q3_pos m N3).
  replace e with (4 * ((q3 - 1) * j * (q + 1 - eta_mu m * eta_t m)))%Z.
  2:{ unfold eta_M. transitivity ((q3 - 1) * (4 * j) * (q + 1 - eta_mu m * eta_t m))%Z; [ring | rewrite <- Q; reflexivity]. }
  rewrite (fpowM F6 H6) by (unfold eta_t; repeat apply Z.mul_nonneg_nonneg; lia). replace (fpow k 4) with (f1 : F6); [apply (fpow1 F6 H6) | ].
  rewrite <- E. change (fpow k 4) with (fmul k (fmul k (fmul k (fmul k f1)))). ring.
Qed.
(** the loop length *)
Definition e_k : nat := (m - 1) / 2.
Definition e_mu : bool := (Z.of_nat m mod 12 =? 1)%Z || (Z.of_nat m mod 12 =? 11)%Z.
Definition e_U : nat := if e_mu then S (3 ^ S e_k) else (3 ^ S e_k - 1)%nat.
Lemma m_k : m = (2 * e_k + 1)%nat.
Proof. destruct (proj1 (Nat.odd_spec m) Om) as [j J0]. unfold e_k. rewrite J0 at 2. replace (2 * j + 1 - 1)%nat with (j * 2)%nat by lia. rewrite Nat.div_mul by lia. exact J0. Qed.
Lemma e_HU : if e_mu then e_U = S (3 ^ S e_k) else (3 ^ S e_k)%nat = S e_U.
Proof. unfold e_U. destruct e_mu; [reflexivity | ]. pose proof (Nat.pow_nonzero 3 (S e_k) ltac:(lia)). lia. Qed.
Lemma t_nat : eta_t m = Z.of_nat (3 ^ S e_k).
Proof.
  unfold eta_t. rewrite Nat2Z.inj_pow. f_equal. rewrite m_k at 1. replace (Z.of_nat (2 * e_k + 1) + 1)%Z with ((Z.of_nat (S e_k)) * 2)%Z by lia. apply Z.div_mul. lia.
Qed.
Lemma mu_Z : eta_mu m = if e_mu then 1%Z else (-1)%Z. Proof. reflexivity. Qed.
Lemma e_FM : forall x : K, fr K m x = x. Proof. intro x. rewrite (fr_fpow K HK C3). exact (fermat3 K HK C3 m HO x). Qed.
Lemma nz_val : nz K m = if (m mod 6 =? 1)%nat then f1 else fopp f1. Proof. exact (n_m K HK m HO Om N3). Qed.
Lemma e_N2 : fmul (nz K m) (nz K m) = f1. Proof. rewrite nz_val. destruct (m mod 6 =? 1)%nat; ring. Qed.
Lemma sg_even : forall j, sg K (2 * j) = f1.
Proof. induction j; [reflexivity | ]. replace (2 * S j)%nat with (S (S (2 * j))) by lia. cbn [sg]. rewrite IHj. ring. Qed.
Lemma e_MU : sg K e_k = if e_mu then nz K m else fopp (nz K m).
Proof.
  rewrite nz_val. unfold e_mu. pose proof (m_mod6 m Om N3) as M6. pose proof m_k as MK. pose proof (Nat.div_mod m 6 ltac:(lia)) as D6. set (a := (m / 6)%nat) in *.
  assert (D2 : exists b, (a = 2 * b \/ a = 2 * b + 1)%nat) by (destruct (Nat.Even_or_Odd a) as [[b E] | [b E]]; exists b; auto).
  assert (MZ : forall b r, m = (12 * b + r)%nat -> (r < 12)%nat -> (Z.of_nat m mod 12 = Z.of_nat r)%Z).
  { intros b r E R. rewrite E. replace (Z.of_nat (12 * b + r)) with (Z.of_nat r + Z.of_nat b * 12)%Z by lia. rewrite Z.mod_add by lia. apply Z.mod_small. lia. }
  destruct D2 as [b [A | A]]; destruct M6 as [M6 | M6]; rewrite M6 in *; cbn [Nat.eqb].
  - replace ((Z.of_nat m mod 12 =? 1)%Z || (Z.of_nat m mod 12 =? 11)%Z) with true by (rewrite (MZ b 1%nat) by lia; reflexivity). cbv iota. replace e_k with (2 * (3 * b))%nat by lia. apply sg_even.
  - replace ((Z.of_nat m mod 12 =? 1)%Z || (Z.of_nat m mod 12 =? 11)%Z) with false by (rewrite (MZ b 5%nat) by lia; reflexivity). cbv iota. replace e_k with (2 * (3 * b + 1))%nat by lia. rewrite sg_even. ring.
  - replace ((Z.of_nat m mod 12 =? 1)%Z || (Z.of_nat m mod 12 =? 11)%Z) with false by (rewrite (MZ b 7%nat) by lia; reflexivity). cbv iota. replace e_k with (S (2 * (3 * b + 1)))%nat by lia. cbn [sg]. rewrite sg_even. ring.
  - replace ((Z.of_nat m mod 12 =? 1)%Z || (Z.of_nat m mod 12 =? 11)%Z) with true by (rewrite (MZ b 11%nat) by lia; reflexivity). cbv iota. replace e_k with (S (2 * (3 * b + 2)))%nat by lia. cbn [sg]. rewrite sg_even. ring.
Qed.
Lemma e_NM : forall x : F6, x <> f0 -> fpow (fpow x e) (eta_N m) = f1. Proof. exact (eta_T_root K HK m HO Om N3). Qed.
Lemma npw_f : forall (x : F6) j, npow (x : mul_monoid F6) j = fpow x (Z.of_nat j).
Proof. intros x j. unfold fpow, zpow. rewrite Nat2Z.id. reflexivity. Qed.
Lemma e_PUN : forall x : F6, x <> f0 -> if e_mu then fmul (fpow (npow (x : mul_monoid F6) e_U) e) (fpow (e_pi x) e) = f1 else fpow (npow (x : mul_monoid F6) e_U) e = fpow (e_pi x) e.
Proof.
  intros x NZ. pose proof (e_NM x NZ) as N. pose proof e_pos as EP. pose proof q1 as Q1. unfold e_pi. rewrite npw_f. unfold eta_N in N. rewrite mu_Z, t_nat in N. pose proof e_HU as HU.
  assert (SW : forall j, (0 <= j)%Z -> fpow (fpow x j) e = fpow (fpow x e) j) by (intros j J; rewrite <- !(fpowM F6 H6) by auto; f_equal; ring).
  rewrite !SW by lia. destruct e_mu.
  - rewrite <- (fpowA F6 H6) by lia. rewrite HU. rewrite <- N. f_equal. lia.
  - rewrite HU in N. pose proof (tm_le m Om N3) as T. fold (eta_t m) in T. rewrite t_nat in T. rewrite HU in T.
    transitivity (fmul (fpow (fpow x e) (q + 1 + -1 * Z.of_nat (S e_U))) (fpow (fpow x e) (Z.of_nat e_U))); [rewrite N; ring | ].
    rewrite <- (fpowA F6 H6) by lia. f_equal. lia.
Qed.
Local Notation onK := (on_curve K (fopp f1) f1).
Lemma e_UV : forall V, onK V -> pmul F6 (fopp f1) e_U (upp K F6 e_up V) = if e_mu then pneg (gam K F6 e_up e_n V) else gam K F6 e_up e_n V.
Proof.
  intros V HV. rewrite (mul_upp K F6 HK H6 C3 D3 e_up up_emb) by auto. rewrite (U_ok K HK C3 m e_k e_mu m_k e_FM e_N2 e_MU e_U e_HU V HV).
  assert (G : upp K F6 e_up (qmul K m V) = gam K F6 e_up e_n V).
  { destruct V as [[x y] | ]; [ | reflexivity]. unfold upp, qmul, gam, amap, e_n. cbv beta iota. rewrite (e_sub K F6 HK H6 e_up up_emb), (e_opp K F6 HK H6 e_up up_emb). do 2 f_equal; ring. }
  destruct e_mu; rewrite <- G; [ | reflexivity]. unfold upp. rewrite <- (am_neg K F6 HK H6 D3 e_up up_emb). reflexivity.
Qed.
(** ** The pairing of two points *)
Definition eta (P Q : point K) : F6 :=
  match P, Q with Some (xp, yp), Some (xq, yq) => eta_T K m xp yp xq yq | _, _ => f1 end.
Definition phi (j : nat) (P : point K) : point K := amap K K (fr K j) f1 f1 f0 P.
Definition smu' (P : point K) : point K := if e_mu then pneg P else P.
Local Notation vl := (val K F6 e_up e_i e_z e e_U).
Lemma em_eq : forall xp yp xq yq j, eta_miller K m xp yp xq yq j =
  em F6 (l0 K F6 e_up e_i e_z xp (eta_yp K m yp) xq yq (e_up (fofz (eta_lambda m)))) (gn K F6 e_up e_i e_z xp (eta_yp K m yp) xq yq) j.
Proof.
  intros xp yp xq yq. set (y' := eta_yp K m yp).
  assert (SG : forall j, fpow (fopp f1 : K) (Z.of_nat j) = sg K j).
  { induction j; [reflexivity | ]. rewrite Nat2Z.inj_succ. unfold Z.succ. rewrite (fpowA K HK) by lia. rewrite IHj. cbn [sg]. change (fpow (fopp f1 : K) 1) with (fmul (fopp f1 : K) f1). ring. }
  assert (TN : forall j, eta_tn K xp xq j = tn K xp xq j). { intro j. unfold eta_tn, eta_x, tn. rewrite <- (fr_fpow K HK C3). reflexivity. }
  assert (UN : forall j, fmul y' (eta_y K yq j) = un K y' yq j). { intro j. unfold eta_y, un. rewrite SG, <- (fr_fpow K HK C3). reflexivity. }
  assert (FN : forall j, eta_factor K m xp yp xq yq j = gn K F6 e_up e_i e_z xp y' xq yq j).
  { intro j. unfold eta_factor, gn. fold y'. rewrite TN, UN. unfold eta_line, e_up, e_i, e_z. set (t := tn K xp xq j). set (u := un K y' yq j).
    rewrite !elt6_sub, !mul6, elt6_sub. f_equal; ring. }
  assert (FI : eta_first K m xp yp xq yq = l0 K F6 e_up e_i e_z xp y' xq yq (e_up (fofz (eta_lambda m)))).
  { unfold eta_first, l0. fold y'. cbv zeta. rewrite TN. set (t := tn K xp xq 0). set (l := fofz (eta_lambda m)).
    replace (eta_y K yq 0) with (fmul (sg K 0) (fr K 1 yq)) by (unfold eta_y; rewrite SG, <- (fr_fpow K HK C3); reflexivity).
    set (u := fmul (sg K 0) (fr K 1 yq)). unfold e_up, e_i, e_z. rewrite !elt6_sub, !mul6, !elt6_sub, !mul6. f_equal; ring. }
  induction j; cbn [eta_miller em]; [rewrite FI, FN; reflexivity | ]. rewrite IHj, FN. f_equal. unfold cub. set (w := em _ _ _ _).
  change (fpow w 3) with (fmul w (fmul w (fmul w f1))). ring.
Qed.
Lemma phi_on : forall j P, onK P -> onK (phi j P).
Proof. intros j P H. apply (am_on K K HK HK C3 C3 (fr K j) (fr_emb K HK C3 j)); auto; ring. Qed.
Lemma smu_on : forall P, onK P -> onK (smu' P). Proof. intros P H. unfold smu'. destruct e_mu; auto. apply (neg_on K HK). auto. Qed.
Theorem eta_val : forall P Q, onK P -> onK Q -> eta P Q = vl (phi e_k (smu' P)) (phi (S e_k) Q).
Proof.
  intros [[xp yp] | ] [[xq yq] | ] HP HQ; cbn [eta].
  - unfold eta_T. rewrite em_eq. fold e_k.
    assert (EV : phi e_k (smu' (Some (xp, yp))) = Vp K e_k xp (eta_yp K m yp)).
    { unfold phi, smu', Vp, eta_yp. rewrite mu_Z. destruct e_mu; cbn [pneg amap]; rewrite ?(fr_opp K HK C3), (fr_mul K HK C3).
      - replace (fr K e_k (fofz (- (1)))) with (fopp f1 : K); [do 2 f_equal; ring | ]. change (fofz (-(1)) : K) with (fopp (fofz 1 : K)). rewrite (fr_opp K HK C3). change (fofz 1 : K) with (f1 : K). rewrite (fr_1 K HK C3). reflexivity.
      - change (fofz (- -1) : K) with (f1 : K). rewrite (fr_1 K HK C3). do 2 f_equal; ring. }
    assert (ES : phi (S e_k) (Some (xq, yq)) = Sp K e_k xq yq). { unfold phi, Sp, amap. do 2 f_equal; ring. }
    assert (OV := phi_on e_k _ (smu_on _ HP)). assert (OS := phi_on (S e_k) _ HQ). rewrite EV, ES in *.
    apply (em_val K F6 HK H6 C3 D3 e_up up_emb e_i e_z e_n e_II e_ZZ e_IND e_pi e_Hpi e_PU e_PZ e_PN e e_K3 e_K4 e_mu e_U e_UV e_PUN m e_k m_k e_FM e_N2 e_MU e_HU); auto.
    rewrite <- (e_mul K F6 e_up up_emb). rewrite <- (e_1 K F6 e_up up_emb). f_equal.
    unfold eta_lambda. destruct ((Z.of_nat m mod 12 =? 7)%Z || (Z.of_nat m mod 12 =? 11)%Z); [change (fofz 1 : K) with (f1 : K) | change (fofz (-1) : K) with (fopp f1 : K)]; ring.
  - symmetry. unfold val. change (psi K F6 e_up e_i e_z (phi (S e_k) None)) with (None : point F6). rewrite (mil_R0 F6 H6). apply (fpow1 F6 H6).
  - symmetry. unfold val. replace (upp K F6 e_up (phi e_k (smu' None))) with (None : point F6) by (unfold smu'; destruct e_mu; reflexivity). rewrite (mil_P0 F6 H6). apply (fpow1 F6 H6).
  - symmetry. unfold val. replace (upp K F6 e_up (phi e_k (smu' None))) with (None : point F6) by (unfold smu'; destruct e_mu; reflexivity). rewrite (mil_P0 F6 H6). apply (fpow1 F6 H6).
Qed.
Local Notation addK := (padd K (fopp f1)).
Lemma addK_on : forall P Q, onK P -> onK Q -> onK (addK P Q). Proof. apply (add_on K HK _ _ (proj1 (t_elliptic K HK C3))). Qed.
Lemma phi_add : forall j P Q, onK P -> onK Q -> phi j (addK P Q) = addK (phi j P) (phi j Q).
Proof. intros. unfold phi. symmetry. apply (am_add K K HK HK C3 C3 (fr K j) (fr_emb K HK C3 j)); auto; ring. Qed.
Lemma smu_add : forall P Q, onK P -> onK Q -> smu' (addK P Q) = addK (smu' P) (smu' Q).
Proof. intros. unfold smu'. destruct e_mu; auto.
  assert (E : forall P, pneg P = amap K K (fun x => x) f1 (fopp f1) f0 P) by (intros [[x y] | ]; cbn; [do 2 f_equal; ring | reflexivity]).
  rewrite !E. symmetry. apply (am_add K K HK HK C3 C3 (fun x => x)); auto; [split; reflexivity | ring | ring].
Qed.
Theorem eta_add_l : forall P P' Q, onK P -> onK P' -> onK Q -> eta (addK P P') Q = fmul (eta P Q) (eta P' Q).
Proof.
  intros P P' Q HP HP' HQ. rewrite !eta_val by auto using addK_on. rewrite smu_add, phi_add by auto using smu_on.
  apply (val_1 K F6 HK H6 C3 D3 e_up up_emb e_i e_z e_n e_II e_ZZ e_IND e_pi e_Hpi e_PU e_PI e_PZ e_PN e e_K3 e_K4 e_mu e_U e_UV e_PUN); auto using phi_on, smu_on.
Qed.
Theorem eta_add_r : forall P Q Q', onK P -> onK Q -> onK Q' -> eta P (addK Q Q') = fmul (eta P Q) (eta P Q').
Proof.
  intros P Q Q' HP HQ HQ'. rewrite !eta_val by auto using addK_on. rewrite phi_add by auto.
  apply (val_2 K F6 HK H6 C3 D3 e_up up_emb e_i e_z e_n e_II e_ZZ e_IND e_pi e_Hpi e_PU e_PI e_PZ e_PN e e_K3 e_K4 e_mu e_U e_UV e_PUN); auto using phi_on, smu_on.
Qed.
(** every point is killed by the number of points *)
Theorem N_kills : forall P, onK P -> pzmul K (fopp f1) (eta_N m) P = None.
Proof.
  intros P HP. pose proof (N_ok K HK C3 m e_k e_mu m_k e_FM e_N2 e_MU e_U e_HU P HP) as N.
  assert (ZN : forall n, pzmul K (fopp f1) (Z.of_nat n) P = pmul K (fopp f1) n P).
  { intros [ | n]; [reflexivity | ]. cbn [Z.of_nat pzmul]. rewrite SuccNat2Pos.id_succ. reflexivity. }
  unfold eta_N. rewrite mu_Z, t_nat. replace q with (Z.of_nat (3 ^ m)) by (rewrite Nat2Z.inj_pow; reflexivity).
  destruct e_mu.
  - rewrite <- N. rewrite <- ZN. f_equal. lia.
  - pose proof (tm_le m Om N3) as T. fold (eta_t m) in T. rewrite t_nat in T. replace q with (Z.of_nat (3 ^ m)) in T by (rewrite Nat2Z.inj_pow; reflexivity).
    set (a := (3 ^ m)%nat) in *. set (t := (3 ^ S e_k)%nat) in *. clearbody a t.
    assert (EN : (Z.of_nat a + 1 + -1 * Z.of_nat t = Z.of_nat (S a - t))%Z) by lia. rewrite EN, ZN.
    assert (Q : addK (pmul K (fopp f1) (S a - t) P) (pmul K (fopp f1) t P) = pmul K (fopp f1) t P).
    { rewrite <- (mul_plus K HK C3) by auto. rewrite <- N. replace (S a - t + t)%nat with (S a) by lia. cbn [pmul]. apply (add_comm K HK). }
    set (A := pmul K (fopp f1) (S a - t) P) in *. set (B := pmul K (fopp f1) t P) in *.
    assert (OA : onK A) by (apply (mul_on K HK C3); auto). assert (OB : onK B) by (apply (mul_on K HK C3); auto).
    rewrite <- (cancel_r K HK _ _ (proj1 (t_elliptic K HK C3)) (proj2 (t_elliptic K HK C3)) A B OA OB), Q. apply (add_neg_r K HK _ (proj1 (t_elliptic K HK C3))).
Qed.
(** ** Scalars *)
Lemma eta_nz : forall P Q, onK P -> onK Q -> eta P Q <> f0.
Proof.
  intros [[xp yp] | ] [[xq yq] | ] HP HQ; cbn [eta]; try apply (f_1_neq_0 F6 H6). unfold eta_T. apply (fpow_nz F6 H6). apply (ml_nz K HK m HO Om N3).
  apply (curve_y_nz K HK m HO N3 xp yp). unfold on_ternary_curve. rewrite (on_eq K HK C3 _ _ HP). ring.
Qed.
Lemma eta_root : forall P Q, onK P -> onK Q -> fpow (eta P Q) (eta_N m) = f1.
Proof.
  intros [[xp yp] | ] [[xq yq] | ] HP HQ; cbn [eta]; try apply (fpow1 F6 H6). unfold eta_T. apply e_NM. apply (ml_nz K HK m HO Om N3).
  apply (curve_y_nz K HK m HO N3 xp yp). unfold on_ternary_curve. rewrite (on_eq K HK C3 _ _ HP). ring.
Qed.
Lemma mK_on : forall n P, onK P -> onK (pmul K (fopp f1) n P). Proof. intros. apply (mul_on K HK C3). auto. Qed.
Lemma neg_onK : forall P, onK P -> onK (pneg P). Proof. apply (neg_on K HK). Qed.
Lemma pz_on : forall n P, onK P -> onK (pzmul K (fopp f1) n P).
Proof. intros [ | p | p] P H; cbn [pzmul]; [exact Logic.I | apply mK_on; auto | apply neg_onK, mK_on; auto]. Qed.
Lemma N_pos : (0 < eta_N m)%Z.
Proof. unfold eta_N, eta_t. pose proof (tm_le m Om N3). pose proof q1. rewrite mu_Z. destruct e_mu; lia. Qed.
Section H.
(** a map into GT that is additive on a subgroup of points, with values of order dividing r *)
Variable f : point K -> F6.
Variable G : point K -> Prop.
Hypothesis G0 : G None.
Hypothesis GA : forall P Q, G P -> G Q -> G (addK P Q).
Hypothesis GN : forall P, G P -> G (pneg P).
Hypothesis f_0 : f None = f1.
Hypothesis fA : forall P Q, G P -> G Q -> f (addK P Q) = fmul (f P) (f Q).
Variable r : Z.
Hypothesis Hr : (0 < r)%Z.
Hypothesis fN : forall P, G P -> f P <> f0.
Hypothesis fR : forall P, G P -> fpow (f P) r = f1.
Lemma hm_G : forall n P, G P -> G (pmul K (fopp f1) n P). Proof. induction n; intros P H; cbn [pmul]; auto. Qed.
Lemma hm_n : forall n P, G P -> f (pmul K (fopp f1) n P) = fpow (f P) (Z.of_nat n).
Proof.
  induction n; intros P H; [exact f_0 | ]. cbn [pmul]. rewrite fA by auto using hm_G. rewrite IHn by auto. rewrite <- !npw_f. reflexivity.
Qed.
Lemma hm_z : forall n P, G P -> f (pzmul K (fopp f1) n P) = fpow (f P) (n mod r).
Proof.
  intros [ | p | p] P H; cbn [pzmul].
  - rewrite Z.mod_0_l by lia. exact f_0.
  - rewrite hm_n by auto. rewrite positive_nat_Z. apply (fpow_mod F6 H6); auto. lia.
  - assert (GP := hm_G (Pos.to_nat p) P H). apply (fpow_neg F6 H6 _ _ r (Zpos p)); auto; [lia | ].
    rewrite <- (positive_nat_Z p), <- hm_n by auto. rewrite <- fA by auto. rewrite (add_comm K HK), (add_neg_r K HK _ (proj1 (t_elliptic K HK C3))). exact f_0.
Qed.
End H.
Theorem eta_bilinear : forall r, (0 < r)%Z -> forall i j P Q, onK P -> onK Q -> fpow (eta P Q) r = f1 ->
  eta (pzmul K (fopp f1) i P) (pzmul K (fopp f1) j Q) = fpow (eta P Q) ((i * j) mod r).
Proof.
  intros r Hr i j P Q HP HQ HR.
  pose (G := fun X => onK X /\ fpow (eta X Q) r = f1).
  assert (e0l : forall X, eta None X = f1) by reflexivity. assert (e0r : forall X, eta X None = f1) by (intros [[x y] | ]; reflexivity).
  assert (NEG : forall X Y, onK X -> onK Y -> fmul (eta (pneg X) Y) (eta X Y) = f1).
  { intros X Y HX HY. rewrite <- eta_add_l by auto using neg_onK. rewrite (add_comm K HK), (add_neg_r K HK _ (proj1 (t_elliptic K HK C3))). reflexivity. }
  assert (NEG' : forall X Y, onK X -> onK Y -> fmul (eta X (pneg Y)) (eta X Y) = f1).
  { intros X Y HX HY. rewrite <- eta_add_r by auto using neg_onK. rewrite (add_comm K HK), (add_neg_r K HK _ (proj1 (t_elliptic K HK C3))). apply e0r. }
  assert (GNP : forall u v : F6, fmul u v = f1 -> fpow v r = f1 -> fpow u r = f1).
  { intros u v E V. transitivity (fmul (fpow u r) (fpow v r)); [rewrite V; ring | ]. rewrite <- (fpow_base F6 H6), E. apply (fpow1 F6 H6). }
  assert (E1 : eta (pzmul K (fopp f1) i P) Q = fpow (eta P Q) (i mod r)).
  { apply (hm_z (fun X => eta X Q) G); auto.
    - split; [exact Logic.I | ]. rewrite e0l. apply (fpow1 F6 H6).
    - intros X Y (HX & RX) (HY & RY). split; [apply addK_on; auto | ]. rewrite eta_add_l by auto. rewrite (fpow_base F6 H6), RX, RY. ring.
    - intros X (HX & RX). split; [apply neg_onK; auto | ]. exact (GNP _ _ (NEG X Q HX HQ) RX).
    - intros X Y (HX & _) (HY & _). apply eta_add_l; auto.
    - intros X (HX & _). apply eta_nz; auto.
    - intros X (_ & RX). exact RX.
    - split; auto. }
  set (P' := pzmul K (fopp f1) i P) in *. assert (HP' : onK P') by (apply pz_on; auto).
  pose proof (Z.mod_pos_bound i r Hr) as Bi.
  assert (RP' : fpow (eta P' Q) r = f1).
  { rewrite E1. rewrite <- (fpowM F6 H6) by lia. rewrite Z.mul_comm, (fpowM F6 H6) by lia. rewrite HR. apply (fpow1 F6 H6). }
  pose (G' := fun X => onK X /\ fpow (eta P' X) r = f1).
  assert (E2 : eta P' (pzmul K (fopp f1) j Q) = fpow (eta P' Q) (j mod r)).
  { apply (hm_z (fun X => eta P' X) G'); auto.
    - split; [exact Logic.I | ]. rewrite e0r. apply (fpow1 F6 H6).
    - intros X Y (HX & RX) (HY & RY). split; [apply addK_on; auto | ]. rewrite eta_add_r by auto. rewrite (fpow_base F6 H6), RX, RY. ring.
    - intros X (HX & RX). split; [apply neg_onK; auto | ]. exact (GNP _ _ (NEG' P' X HP' HX) RX).
    - intros X Y (HX & _) (HY & _). apply eta_add_r; auto.
    - intros X (HX & _). apply eta_nz; auto.
    - intros X (_ & RX). exact RX.
    - split; auto. }
  rewrite E2, E1. pose proof (Z.mod_pos_bound j r Hr) as Bj. rewrite <- (fpowM F6 H6) by lia.
  rewrite (fpow_mod F6 H6 _ r (i mod r * (j mod r))) by (auto; nia). rewrite <- Z.mul_mod by lia. reflexivity.
Qed.
(** order of the value from the order of the first point *)
Theorem eta_order_l : forall r P Q, (0 <= r)%Z -> onK P -> onK Q -> pzmul K (fopp f1) r P = None -> fpow (eta P Q) r = f1.
Proof.
  intros r P Q Hr HP HQ E.
  assert (S : forall n, eta (pmul K (fopp f1) n P) Q = fpow (eta P Q) (Z.of_nat n)).
  { induction n; [reflexivity | ]. cbn [pmul]. rewrite eta_add_l by auto using mK_on. rewrite IHn, <- !npw_f. reflexivity. }
  destruct r as [ | p | p]; [reflexivity | | lia]. cbn [pzmul] in E. rewrite <- (positive_nat_Z p), <- S, E. reflexivity.
Qed.
End I.
