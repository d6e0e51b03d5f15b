(** F_{q^12} over F_{q^2}: the powers q^{2k}, the sextic twist and the final
    exponentiation. *)
From Coq Require Import ZArith List Bool Lia Ring Field Arith Znumtheory.
From Verif.Base Require Import Outcome Array Algebra Slots Gmp.
From Verif.Spec Require Import Quadratic Curve Tate Twist FiniteField PairingValue.
From Verif.Model Require Import Curve Pairing PairingA Miller PairingF.
From Verif.Proofs Require Import PowFacts FieldFacts SlotFacts CurveGroup CurveFacts TateFacts Bilinear BilinearZ Embed Frobenius Twisted Conj SexticFacts TwistedValue.

Section G.
Variables K M L : fld.
Hypothesis HK : fld_laws K.
Hypothesis HM : fld_laws M.
Hypothesis HL : fld_laws L.
Add Field KFst : (fl_field K HK).
Add Field MFst : (fl_field M HM).
Add Field LFst : (fl_field L HL).
Variable lo : K -> M.
Hypothesis Hlo : embedding K M lo.
Variable cv : M -> L.
Hypothesis Hcv : embedding M L cv.
Variable w : L.
Variable N : M.
Local Notation "x + y" := (fadd x y). Local Notation "x * y" := (fmul x y). Local Notation "x / y" := (fdiv x y). Local Notation "- x" := (fopp x).
Hypothesis Hw : w * w * w * (w * w * w) = cv N.
Hypothesis NS : ~ is_square N.
Variable mk : (nat -> M) -> L.
Variable co : L -> nat -> M.
Hypothesis mk_eq : forall f, mk f = cv (f 0%nat) + cv (f 1%nat) * w + cv (f 2%nat) * (w * w) + cv (f 3%nat) * (w * w * w) + cv (f 4%nat) * (w * w * (w * w)) + cv (f 5%nat) * (w * w * (w * w) * w).
Hypothesis mk_co : forall x, mk (co x) = x.
Hypothesis co_w : forall c, co (cv c * w) 1 = c.
Variable Q : nat.
Hypothesis PQ : prime (Z.of_nat Q).
Hypothesis Q3 : (3 < Q)%nat.
Hypothesis OM : has_order M (Z.of_nat (Q * Q)).
Hypothesis OL : has_order L (Z.of_nat (Q ^ 12)).
Lemma N_nz : N <> f0. Proof. intros E. apply NS. exists f0. rewrite E. ring. Qed.
Lemma w_nz : w <> f0.
Proof. intros E. apply (e_nz M L HM HL cv Hcv N N_nz). rewrite <- Hw, E. ring. Qed.
Lemma charL : (fofz (Z.of_nat Q) : L) = f0.
Proof.
  destruct OL as (l & ND & AL & LE). assert (C := char_order L HL l ND AL). rewrite LE in C. apply (char_p L HL) in C. exact C.
Qed.
Definition F (k : nat) (x : L) : L := pw L x (Q ^ (2 * k)).
Lemma npow1 : forall n, npow (f1 : mul_monoid L) n = f1. Proof. intros. apply (npow_one _ (mul_monoid_laws L HL)). Qed.
Lemma Qpos : forall k, (0 < Q ^ k)%nat. Proof. intros. assert (Q ^ k <> 0)%nat by (apply Nat.pow_nonzero; lia). lia. Qed.
Lemma F_emb : forall k, embedding L L (F k).
Proof.
  intros k. split; unfold F, pw.
  - apply (npow_0_pos L HL). apply Qpos.
  - apply npow1.
  - intros. apply (frob_pm L HL Q (2 * k)); auto using charL.
  - intros. apply (npow_mul_base L HL).
Qed.
Lemma cv_pw : forall c k, pw L (cv c) k = cv (pw M c k).
Proof. intros c k. induction k; [symmetry; apply (em_1 _ _ _ Hcv) | ]. rewrite !pow_S, IHk. symmetry. apply (em_mul _ _ _ Hcv). Qed.
Lemma fermatM : forall c : M, pw M c (Q * Q) = c.
Proof.
  intros c. destruct OM as (l & ND & AL & LE). apply Nat2Z.inj in LE. destruct (f_eq_dec M HM c f0) as [-> | NZ]; [apply (npow_0_pos M HM); nia | ].
  pose proof (fermat M HM l ND AL c NZ) as E. rewrite LE in E. replace (Q * Q)%nat with (S (Q * Q - 1)) by nia. unfold pw. cbn [npow]. rewrite E. cbn. ring.
Qed.
Lemma F_S : forall k x, F (S k) x = pw L (F k x) (Q * Q).
Proof.
  intros k x. unfold F, pw. rewrite <- (npow_mul (mul_monoid L) (mul_monoid_laws L HL)). f_equal. replace (2 * S k)%nat with (2 * k + 2)%nat by lia.
  rewrite Nat.pow_add_r. cbn [Nat.pow]. ring.
Qed.
Lemma F_0 : forall x, F 0 x = x. Proof. intros. unfold F, pw. cbn. ring. Qed.
Lemma F_cv : forall k c, F k (cv c) = cv c.
Proof. induction k; intros c; [apply F_0 | ]. rewrite F_S, IHk, cv_pw, fermatM. reflexivity. Qed.
(** (q^2 - 1) / 6 *)
Definition E6 : nat := (Q * Q - 1) / 6.
Lemma E6_eq : (Q * Q = 6 * E6 + 1)%nat.
Proof.
  assert (D : (Q mod 6 = 1 \/ Q mod 6 = 5)%nat).
  { pose proof (Nat.mod_upper_bound Q 6 ltac:(lia)) as U. pose proof (Nat.div_mod Q 6 ltac:(lia)) as DM.
    assert (ND : forall d, (1 < d < 4)%nat -> forall c, (Q = c * d)%nat -> False).
    { intros d Hd c E. destruct (prime_divisors _ PQ (Z.of_nat d)) as [X | [X | [X | X]]]; try lia. exists (Z.of_nat c). lia. }
    assert (H2 := ND 2%nat ltac:(lia)). assert (H3 := ND 3%nat ltac:(lia)). set (m := (Q mod 6)%nat) in *. set (c := (Q / 6)%nat) in *.
    assert (m = 0 \/ m = 1 \/ m = 2 \/ m = 3 \/ m = 4 \/ m = 5)%nat as [X | [X | [X | [X | [X | X]]]]] by lia; auto; exfalso.
    - apply (H2 (3 * c)%nat). lia.
    - apply (H2 (3 * c + 1)%nat). lia.
    - apply (H3 (2 * c + 1)%nat). lia.
    - apply (H2 (3 * c + 2)%nat). lia. }
  pose proof (Nat.div_mod Q 6 ltac:(lia)) as DM. set (c := (Q / 6)%nat) in *. unfold E6.
  assert (X : exists t, (Q * Q = 6 * t + 1)%nat).
  { destruct D as [D | D]; rewrite D in DM; rewrite DM; [exists (6 * c * c + 2 * c)%nat | exists (6 * c * c + 10 * c + 4)%nat]; ring. }
  destruct X as (t & X). rewrite X. replace (6 * t + 1 - 1)%nat with (t * 6)%nat by lia. rewrite Nat.div_mul by lia. reflexivity.
Qed.
Definition rho : M := pw M N E6.
Lemma F_w1 : pw L w (Q * Q) = cv rho * w.
Proof.
  rewrite E6_eq. unfold pw. rewrite (npow_add _ (mul_monoid_laws L HL)), (npow_mul _ (mul_monoid_laws L HL)).
  assert (E : npow (w : mul_monoid L) 6 = cv N) by (rewrite <- Hw; cbn; ring). rewrite E. unfold rho. rewrite <- cv_pw. unfold pw. cbn. ring.
Qed.
Lemma F_w : forall k, F k w = cv (pw M rho k) * w.
Proof.
  induction k.
  - rewrite F_0. change (pw M rho 0) with (f1 : M). rewrite (em_1 _ _ _ Hcv). ring.
  - rewrite F_S, IHk. assert (EM : pw L (cv (pw M rho k) * w) (Q * Q) = pw L (cv (pw M rho k)) (Q * Q) * pw L w (Q * Q)) by apply (npow_mul_base L HL).
    rewrite EM, cv_pw, fermatM, F_w1, pow_S, (em_mul _ _ _ Hcv). ring.
Qed.
Lemma rho3 : pw M rho 3 = - f1.
Proof.
  unfold rho. destruct OM as (l & ND & AL & LE). apply Nat2Z.inj in LE. unfold pw. rewrite <- (npow_mul _ (mul_monoid_laws M HM)).
  pose proof E6_eq as E. assert (H : (Q * Q / 2 = E6 * 3)%nat) by (rewrite E; replace (6 * E6 + 1)%nat with (1 + (E6 * 3) * 2)%nat by lia; rewrite Nat.div_add by lia; reflexivity).
  rewrite <- H, <- LE. apply (nonsquare_power M HM l ND AL); [rewrite LE; lia | apply N_nz | ]. intros y Y. apply NS. exists y. auto.
Qed.
Definition conj (x : L) : L := F 3 x.
Lemma conj_emb : embedding L L conj. Proof. apply F_emb. Qed.
Lemma conj_cv : forall c, conj (cv c) = cv c. Proof. intros. apply F_cv. Qed.
Lemma conj_w : conj w = - w.
Proof. unfold conj. rewrite F_w, rho3, (e_opp M L HM HL cv Hcv), (em_1 _ _ _ Hcv). ring. Qed.
Definition up (x : K) : L := cv (lo x).
Lemma up_emb : embedding K L up.
Proof.
  split; unfold up; intros.
  - rewrite (em_0 _ _ _ Hlo). apply Hcv.
  - rewrite (em_1 _ _ _ Hlo). apply Hcv.
  - rewrite (em_add _ _ _ Hlo). apply Hcv.
  - rewrite (em_mul _ _ _ Hlo). apply Hcv.
Qed.
Lemma conj_up : forall x, conj (up x) = up x. Proof. intros. apply conj_cv. Qed.
(** powers *)
Lemma F_fpow : forall k x, F k x = fpow x (Z.of_nat Q ^ (2 * Z.of_nat k)).
Proof. intros. unfold F, pw, fpow, zpow. f_equal. replace (2 * Z.of_nat k)%Z with (Z.of_nat (2 * k)) by lia. rewrite <- Nat2Z.inj_pow, Nat2Z.id. reflexivity. Qed.
Lemma F_qpower : forall k x, mk (fun i => match i with
    | 0%nat => co x 0%nat
    | 1%nat => co x 1%nat * (pw M rho k)
    | 2%nat => co x 2%nat * (pw M rho k * pw M rho k)
    | 3%nat => co x 3%nat * (pw M rho k * pw M rho k * pw M rho k)
    | 4%nat => co x 4%nat * (pw M rho k * pw M rho k * pw M rho k * pw M rho k)
    | _ => co x 5%nat * (pw M rho k * pw M rho k * pw M rho k * pw M rho k * pw M rho k)
    end) = F k x.
Proof. intros. apply (endo_ok M L HL cv Hcv w mk co mk_eq mk_co (F k) (pw M rho k) (F_emb k) (F_cv k) (F_w k)). Qed.
Lemma co_F : forall k, co (F k w) 1 = pw M rho k. Proof. intros. rewrite F_w. apply co_w. Qed.
(** the curve Y^2 = X^3 + b and its sextic twist *)
Variable b : K.
Hypothesis HE : elliptic K f0 b.
Variable r : Z.
Hypothesis R3 : (2 < r)%Z.
Hypothesis RO : Z.odd r = true.
Local Notation q := (Z.of_nat Q).
Hypothesis RD : (r | q ^ 4 - q ^ 2 + 1)%Z.
Lemma RP : (0 < r)%Z. Proof. lia. Qed.
Definition e12 : Z := ((q ^ 12 - 1) / r)%Z.
Definition tq : Z := ((q ^ 4 - q ^ 2 + 1) / r)%Z.
Lemma rt : (r * tq = q ^ 4 - q ^ 2 + 1)%Z.
Proof. unfold tq. destruct RD as (c & E). rewrite E, Z.div_mul by lia. ring. Qed.
Lemma e12_eq : (e12 = (q ^ 6 - 1) * (q ^ 2 + 1) * tq)%Z.
Proof.
  unfold e12. assert (E : (q ^ 12 - 1 = (q ^ 6 - 1) * (q ^ 2 + 1) * (q ^ 4 - q ^ 2 + 1))%Z) by ring. rewrite E, <- rt.
  replace ((q ^ 6 - 1) * (q ^ 2 + 1) * (r * tq))%Z with ((q ^ 6 - 1) * (q ^ 2 + 1) * tq * r)%Z by ring. apply Z.div_mul. lia.
Qed.
Lemma q_ge : (4 <= q)%Z. Proof. lia. Qed.
Lemma tq_pos : (0 < tq)%Z.
Proof. pose proof rt as E. pose proof q_ge. assert (0 < q ^ 4 - q ^ 2 + 1)%Z; [ | nia]. replace (q ^ 4)%Z with (q ^ 2 * q ^ 2)%Z by ring. assert (16 <= q ^ 2)%Z by (rewrite Z.pow_2_r; nia). nia. Qed.
Lemma q6_pos : (0 < q ^ 6 - 1)%Z.
Proof. pose proof q_ge. assert (1 < q ^ 6)%Z; [ | lia]. apply Z.pow_gt_1; lia. Qed.
Lemma q2_pos : (0 < q ^ 2)%Z. Proof. apply Z.pow_pos_nonneg; pose proof q_ge; lia. Qed.
Lemma e12_nonneg : (0 <= e12)%Z.
Proof. rewrite e12_eq. pose proof tq_pos. pose proof q6_pos. pose proof q2_pos. apply Z.mul_nonneg_nonneg; [apply Z.mul_nonneg_nonneg | ]; lia. Qed.
Lemma fermat12 : forall x : L, x <> f0 -> fpow x (r * e12) = f1.
Proof.
  intros x X. rewrite e12_eq. replace (r * ((q ^ 6 - 1) * (q ^ 2 + 1) * tq))%Z with ((q ^ 6 - 1) * (q ^ 2 + 1) * (r * tq))%Z by ring. rewrite rt.
  replace ((q ^ 6 - 1) * (q ^ 2 + 1) * (q ^ 4 - q ^ 2 + 1))%Z with (q ^ 12 - 1)%Z by ring.
  destruct OL as (l & ND & AL & LE). unfold fpow, zpow. replace (Z.to_nat (q ^ 12 - 1)) with (length l - 1)%nat; [apply (fermat L HL l ND AL); auto | ].
  rewrite Nat2Z.inj_pow in LE. change (Z.of_nat 12) with 12%Z in LE. lia.
Qed.
Local Notation sim := (Conj.sim L conj).
Lemma fixed_killed : forall c : L, c <> f0 -> conj c = c -> fpow c (q ^ 6 - 1) = f1.
Proof.
  intros c C E. unfold conj in E. rewrite F_fpow in E. change (2 * Z.of_nat 3)%Z with 6%Z in E. pose proof q6_pos.
  apply (f_cancel L HL c); auto. transitivity (fpow c (1 + (q ^ 6 - 1))); [ | replace (1 + (q ^ 6 - 1))%Z with (q ^ 6)%Z by ring; rewrite E; ring].
  rewrite (fpowA L HL) by lia. f_equal. unfold fpow, zpow. change (Z.to_nat 1) with 1%nat. cbn. ring.
Qed.
Lemma fin_sim : forall f g, sim f g -> fpow f e12 = fpow g e12.
Proof.
  intros f g (c & (C1 & C2) & ->). rewrite (fpow_mul' L HL). assert (X : fpow c e12 = f1).
  { rewrite e12_eq. pose proof tq_pos. pose proof q6_pos. pose proof q2_pos. rewrite <- Z.mul_assoc, (fpowM L HL) by lia. rewrite fixed_killed by auto. apply (fpow1 L HL). }
  rewrite X. ring.
Qed.
(** y x^{-1} with y = out^{q^8 + q^6}, x = out^{q^2 + 1} *)
Lemma tateexp_ok : forall x : L, x <> f0 -> F 1 x * x <> f0 /\ fpow (F 4 x * F 3 x * finv (F 1 x * x)) tq = fpow x e12.
Proof.
  intros x X. assert (X1 : F 1 x * x <> f0) by (apply (f_mul_nz L HL); auto; apply (npow_nz L HL); auto). split; auto.
  pose proof tq_pos. pose proof q6_pos. pose proof q2_pos. rewrite e12_eq, (fpowM L HL) by (try apply Z.mul_nonneg_nonneg; lia). f_equal.
  apply (f_cancel L HL (F 1 x * x)); auto. transitivity (F 4 x * F 3 x); [field; split; auto; apply (npow_nz L HL); auto | ].
  rewrite !F_fpow. change (2 * Z.of_nat 4)%Z with 8%Z. change (2 * Z.of_nat 3)%Z with 6%Z. change (2 * Z.of_nat 1)%Z with 2%Z.
  assert (P1 : fpow x 1 = x) by (unfold fpow, zpow; change (Z.to_nat 1) with 1%nat; cbn; ring). rewrite <- P1 at 4.
  assert (0 < q ^ 8 /\ 0 < q ^ 6)%Z by (split; apply Z.pow_pos_nonneg; lia).
  rewrite <- !(fpowA L HL) by (try apply Z.mul_nonneg_nonneg; lia). f_equal. ring.
Qed.
(** the twist *)
Definition b' : M := N * lo b.
Definition tw (R : point M) : point L := match R with None => None | Some (x, y) => Some (cv x / (w * w), cv y / (w * w * w)) end.
Local Notation iw := (finv w).
Lemma iw_nz : iw <> f0. Proof. apply (f_inv_nz L HL). apply w_nz. Qed.
Lemma tw_scale : forall R, tw R = scalept L iw (epoint cv R).
Proof. pose proof w_nz. intros [[x y] | ]; cbn; auto. f_equal. f_equal; field; auto. Qed.
Lemma up0 : up f0 = f0. Proof. apply up_emb. Qed.
Lemma HEL' : elliptic L f0 (up b). Proof. rewrite <- up0. apply (e_elliptic K L HK HL up up_emb f0 (proj1 HE) b HE). Qed.
Lemma C2M' : f2 M <> f0.
Proof. rewrite <- (e_f2 K M lo Hlo). apply (e_nz K M HK HM lo Hlo). apply HE. Qed.
Lemma tw_pzmul : forall j R, tw (pzmul M f0 j R) = pzmul L f0 j (tw R).
Proof.
  intros. rewrite !tw_scale, (e_pzmul M L HM HL cv Hcv f0 C2M'). rewrite (em_0 _ _ _ Hcv).
  apply (scale_pzmul L HL iw f0 f0 iw_nz (proj1 HEL')). ring.
Qed.
Lemma tw_padd : forall R R', tw (padd M f0 R R') = padd L f0 (tw R) (tw R').
Proof.
  intros. rewrite !tw_scale, (e_padd M L HM HL cv Hcv f0 C2M'). rewrite (em_0 _ _ _ Hcv).
  apply (scale_padd L HL iw f0 f0 iw_nz (proj1 HEL')). ring.
Qed.
Lemma tw_on : forall R, on_curve M f0 b' R -> on_curve L f0 (up b) (tw R).
Proof.
  intros R O. rewrite tw_scale. apply (e_on M L HM HL cv Hcv f0 b') in O || apply (e_on M L cv Hcv f0 b') in O. rewrite (em_0 _ _ _ Hcv) in O.
  apply (scale_on L HL iw f0 f0 ltac:(ring) (up b) (cv b')); auto. unfold b', up. rewrite (em_mul _ _ _ Hcv), <- Hw. field. apply w_nz.
Qed.
Lemma tw_G2 : forall R, on_curve M f0 b' R -> Conj.G2 K L up conj f0 b (tw R).
Proof.
  intros R O. split; [rewrite up0; apply tw_on; auto | ]. pose proof w_nz as W. destruct R as [[x y] | ]; cbn [tw epoint pneg]; auto.
  assert (W2 : w * w <> f0) by (apply (f_mul_nz L HL); auto). assert (W3 : w * w * w <> f0) by (apply (f_mul_nz L HL); auto).
  rewrite !(e_div L L HL HL conj conj_emb) by auto. rewrite !(em_mul _ _ _ conj_emb), conj_w, !conj_cv. f_equal. assert (W' := f_opp_nz L HL w W). f_equal; field; repeat split; auto.
Qed.
(** the value *)
Definition val (P : point K) (R : point M) : L := tate L f0 r e12 (epoint up P) (tw R).
Local Notation G := (torsion K f0 b r).
Local Notation on2 := (on_curve M f0 b').
Let GA := Conj.G1 K L up f0 b r.
Let GB := Conj.G2 K L up conj f0 b.
Let SA := Conj.sub1 K L HK HL up up_emb f0 b HE r RP RO.
Let SB := Conj.sub2 K L HK HL up up_emb conj conj_emb conj_up f0 b HE.
Let D := Conj.disjoint K L HK HL up up_emb conj conj_up f0 b HE r RP RO.
Let EL := Conj.HEL K L HK HL up up_emb f0 b HE.
Lemma in_GA : forall P, G P -> GA (epoint up P). Proof. intros P (O & T). exists P. auto. Qed.
Lemma in_GB : forall R, on2 R -> GB (tw R). Proof. intros. apply tw_G2. auto. Qed.
Lemma order_up : forall P, G P -> pzmul L (up f0) r (epoint up P) = None.
Proof. intros P (O & T). rewrite <- (e_pzmul K L HK HL up up_emb f0 (proj1 HE)), T. reflexivity. Qed.
Lemma val_up : forall P R, val P R = tate L (up f0) r e12 (epoint up P) (tw R). Proof. intros. rewrite up0. reflexivity. Qed.
Theorem val_r : forall P R, G P -> on2 R -> fpow (val P R) r = f1.
Proof.
  intros P R HP HR. rewrite val_up. exact (tate_r L HL (up f0) (up b) EL GA GB SA SB D r _ RP e12_nonneg fermat12 _ _ (in_GA P HP) (in_GB R HR)).
Qed.
Theorem val_bilinear : forall i j P R, G P -> on2 R -> val (pzmul K f0 i P) (pzmul M f0 j R) = fpow (val P R) ((i * j) mod r).
Proof.
  intros i j P R HP HR.
  assert (T := tate_bilinear_z L HL (up f0) (up b) EL GA GB SA SB D r _ RP e12_nonneg fermat12 i j _ _ (in_GA P HP) (in_GB R HR) (order_up P HP)).
  rewrite <- (e_pzmul K L HK HL up up_emb f0 (proj1 HE)) in T. rewrite !val_up, tw_pzmul. assert (U := up0). replace (pzmul L f0 j (tw R)) with (pzmul L (up f0) j (tw R)) by (rewrite U; reflexivity). exact T.
Qed.
Theorem val_add1 : forall P P' R, G P -> G P' -> on2 R -> val (padd K f0 P P') R = fmul (val P R) (val P' R).
Proof.
  intros P P' R HP HP' HR.
  assert (T := tate_1 L HL (up f0) (up b) EL GA GB SA SB D r _ RP e12_nonneg fermat12 _ _ _ (in_GA P HP) (in_GA P' HP') (in_GB R HR) (order_up P HP) (order_up P' HP')).
  rewrite <- (e_padd K L HK HL up up_emb f0 (proj1 HE)) in T. rewrite !val_up. exact T.
Qed.
Theorem val_add2 : forall P R R', G P -> on2 R -> on2 R' -> val P (padd M f0 R R') = fmul (val P R) (val P R').
Proof.
  intros P R R' HP HR HR'.
  assert (T := tate_2 L HL (up f0) (up b) EL GA GB SA SB D r _ RP e12_nonneg fermat12 _ _ _ (in_GA P HP) (in_GB R HR) (in_GB R' HR') (order_up P HP)).
  rewrite !val_up, tw_padd. assert (U := up0). replace (padd L f0 (tw R) (tw R')) with (padd L (up f0) (tw R) (tw R')) by (rewrite U; reflexivity). exact T.
Qed.
(** the Miller loop *)
Definition gev (v : L) (abc : coeffs K) (Qx Qy : M) : L :=
  let '(a, b, c) := abc in mk (fun i => match i with
    | 0%nat => (co v 3%nat * Qy * lo b + co v 2%nat * Qx * lo a) * N + co v 0%nat * lo c
    | 1%nat => (co v 4%nat * Qy * lo b + co v 3%nat * Qx * lo a) * N + co v 1%nat * lo c
    | 2%nat => (co v 5%nat * Qy * lo b + co v 4%nat * Qx * lo a) * N + co v 2%nat * lo c
    | 3%nat => co v 0%nat * Qy * lo b + co v 5%nat * Qx * N * lo a + co v 3%nat * lo c
    | 4%nat => co v 1%nat * Qy * lo b + co v 0%nat * Qx * lo a + co v 4%nat * lo c
    | _ => co v 2%nat * Qy * lo b + co v 1%nat * Qx * lo a + co v 5%nat * lo c
    end).
Lemma f_tangent_line : forall x y : K, y <> f0 -> Twisted.is_line K f0 (Some (x, y)) (Some (x, y)) (f_tangent K x y).
Proof.
  intros x y Y. unfold is_line, f_tangent, slope. rewrite (feqb_refl K HK), (fofz_3 K HK). cbv zeta.
  assert (E : y + y = f2 K * y) by (unfold f2; ring). assert (N2 : f2 K * y <> f0) by (apply (f_mul_nz K HK); auto; apply HE).
  rewrite E. set (t := f2 K * y) in *. split; [auto | ]. split; field; auto.
Qed.
Lemma f_line_line : forall x1 y1 x2 y2 : K, x1 <> x2 -> Twisted.is_line K f0 (Some (x1, y1)) (Some (x2, y2)) (f_line K x1 y1 x2 y2).
Proof.
  intros x1 y1 x2 y2 X. assert (D12 : fsub x2 x1 <> f0) by (intro E; apply X; symmetry; apply (f_sub_0 K HK); auto).
  unfold is_line, f_line, slope. cbv zeta. rewrite (feqb_false K HK _ _ X). repeat split; auto; field; auto.
Qed.
Theorem gpairing_ok : forall P Qx Qy, G P -> regular K f0 r P -> on2 (Some (Qx, Qy)) ->
  exists f, gbits K L f0 r P (f_tangent K) (f_line K) (fun v abc => gev v abc (Qx * finv N) (Qy * finv N)) (start_bit r) f1 P = Ok f /\ f <> f0 /\ fpow f e12 = val P (Some (Qx, Qy)).
Proof.
  intros P Qx Qy (OP & TP) RG HR. assert (GR := tw_G2 _ HR). cbn [tw] in GR. assert (W := w_nz). assert (NN := N_nz).
  destruct (Conj.gmiller_ok K L HK HL up up_emb conj conj_emb conj_up f0 b HE r RP RO P OP TP _ _ GR R3 RG (f_tangent K) (f_line K)
    (fun v abc => gev v abc (Qx * finv N) (Qy * finv N)) f_tangent_line f_line_line) as (f & EF & F').
  - intros v [[ca cb] cc]. unfold gev. rewrite (sparse_ok M L HL cv Hcv w N Hw mk co mk_eq mk_co). unfold Conj.lineval, up. f_equal.
    assert (IN : cv (finv N) * (w * w * w * (w * w * w)) = f1).
    { rewrite Hw, <- (em_mul _ _ _ Hcv). replace (finv N * N) with (f1 : M) by (field; auto). apply (em_1 _ _ _ Hcv). }
    rewrite !(em_mul _ _ _ Hcv).
    replace (cv Qx / (w * w)) with (cv Qx * cv (finv N) * (w * w * (w * w))); [replace (cv Qy / (w * w * w)) with (cv Qy * cv (finv N) * (w * w * w)); [ring | ] | ].
    + transitivity (cv Qy * (cv (finv N) * (w * w * w * (w * w * w))) / (w * w * w)); [field; auto | rewrite IN; field; auto].
    + transitivity (cv Qx * (cv (finv N) * (w * w * w * (w * w * w))) / (w * w)); [field; auto | rewrite IN; field; auto].
  - exists f. split; [exact EF | ]. assert (MN := Conj.mil_nz' K L HK HL up up_emb conj conj_emb conj_up f0 b HE r RP RO P OP TP _ _ GR (Z.to_nat r)).
    split; [apply (Conj.sim_nz L HL conj f _ F' MN) | ]. rewrite (fin_sim _ _ F'). rewrite val_up. unfold tate. reflexivity.
Qed.
Lemma val_0l : forall R, val None R = f1. Proof. intros. apply (tate_P0 L HL). Qed.
Lemma val_0r : forall P, val P None = f1. Proof. intros. apply (tate_Q0 L HL). Qed.
End G.
