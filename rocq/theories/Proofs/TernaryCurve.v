(** The curve Y^2 = X^3 - X + 1 in characteristic 3: affine maps, Miller steps
    and tripling. *)
From Coq Require Import ZArith List Bool Lia Ring Field.
From Verif.Base Require Import Outcome Algebra Slots.
From Verif.Spec Require Import Curve Tate Twist Ternary.
From Verif.Proofs Require Import PowFacts FieldFacts SlotFacts CurveGroup CurveFacts LineAlgebra TateFacts Bilinear Embed TowerAlgebra.

Section C.
Variable K : fld.
Hypothesis HK : fld_laws K.
Hypothesis C3 : fadd (fadd f1 f1) f1 = (f0 : K).
Let RK : ring_theory (f0 : K) f1 fadd fmul fsub fopp eq := F_R (fl_field K HK).
Add Field KF3tc : (fl_field K HK) (morphism (t_morph K RK C3), constants [t_const]).
Local Notation "0" := f0. Local Notation "1" := f1.
Local Notation "x + y" := (fadd x y). Local Notation "x - y" := (fsub x y). Local Notation "x * y" := (fmul x y). Local Notation "- x" := (fopp x).
Local Notation "x / y" := (fdiv x y).
Local Notation on := (on_curve K (fopp f1) 1).
Local Notation add := (padd K (fopp f1)).
Local Notation mul := (pmul K (fopp f1)).
Lemma f2_m1 : f2 K = fopp f1. Proof. unfold f2. ring. Qed.
Lemma f3_0 : f3 K = 0. Proof. unfold f3. ring. Qed.
Lemma m1_nz : fopp f1 <> (0 : K).
Proof. intro E. apply (f_1_neq_0 K HK). transitivity (- - (1 : K)); [ring | rewrite E; ring]. Qed.
Lemma t_elliptic : elliptic K (fopp f1) 1.
Proof.
  split; rewrite ?f2_m1, ?f3_0; [apply m1_nz | ]. intro E. apply m1_nz. rewrite <- E. ring.
Qed.
Lemma on_eq : forall x y : K, on (Some (x, y)) -> y * y = x * x * x - x + 1.
Proof. intros x y H. cbn in H. unfold rhs in H. rewrite H. ring. Qed.
Lemma eq_on : forall x y : K, y * y = x * x * x - x + 1 -> on (Some (x, y)).
Proof. intros x y H. cbn. unfold rhs. rewrite H. ring. Qed.
Lemma third_eq : forall l x1 y1 x2 : K, third K l x1 y1 x2 = Some (l * l - x1 - x2, l * (x1 - (l * l - x1 - x2)) - y1). Proof. reflexivity. Qed.
Lemma add_diff : forall x1 y1 x2 y2 : K, x1 <> x2 -> add (Some (x1, y1)) (Some (x2, y2)) = third K ((y2 - y1) / (x2 - x1)) x1 y1 x2.
Proof. intros. cbn [padd]. rewrite (feqb_false K HK) by auto. reflexivity. Qed.
Lemma add_same : forall x y : K, y <> 0 -> add (Some (x, y)) (Some (x, y)) = third K (1 / y) x y x.
Proof.
  intros x y N. cbn [padd]. rewrite !(feqb_refl K HK). rewrite (feqb_false K HK y 0) by auto. cbn [negb andb]. f_equal.
  rewrite f2_m1, f3_0. field. split; auto using m1_nz.
Qed.
Lemma add_opp : forall x y : K, add (Some (x, y)) (Some (x, - y)) = None.
Proof. intros. apply (add_neg_r K HK (fopp f1) (proj1 t_elliptic) (Some (x, y))). Qed.

(** 3 (x, y) = (x^9 - 1, -y^9) *)
Definition cub (x : K) : K := x * x * x.
Lemma triple : forall x y : K, on (Some (x, y)) -> mul 3 (Some (x, y)) = Some (cub (cub x) - 1, - cub (cub y)).
Proof.
  intros x y H. pose proof (on_eq _ _ H) as E. cbn [pmul]. rewrite (add_0_r K (fopp f1)).
  destruct (f_eq_dec K HK y 0) as [-> | N].
  - replace (add (Some (x, 0)) (Some (x, 0))) with (None : point K) by (symmetry; replace (0 : K) with (- 0 : K) at 2 by ring; apply add_opp).
    rewrite (add_0_r K (fopp f1)). assert (E' : x * x * x = x - 1) by (transitivity (x * x * x - x + 1 + (x - 1)); [ring | rewrite <- E; ring]).
    unfold cub. do 2 f_equal; [ | ring]. rewrite !E'. transitivity (x * x * x - 1 - 1); [rewrite E'; ring | ring].
  - rewrite add_same by auto. rewrite third_eq. set (u := 1 / y).
    assert (U : u * y = 1) by (unfold u; field; auto).
    assert (NU : u * u <> 0) by (intro F; apply (f_1_neq_0 K HK); transitivity ((u * u) * (y * y)); [transitivity (u * y * (u * y)); [rewrite U; ring | ring] | rewrite F; ring]).
    assert (D : x <> u * u - x - x). { intro F. apply NU. transitivity (u * u - x - x - x); [ring | rewrite <- F; ring]. }
    rewrite add_diff by auto. rewrite third_eq.
    assert (S : (u * (x - (u * u - x - x)) - y - y) / (u * u - x - x - x) = cub y - u).
    { replace (u * (x - (u * u - x - x)) - y - y) with (y - u * u * u) by ring. replace (u * u - x - x - x) with (u * u) by ring.
      unfold u, cub. field. split; [auto | exact (f_1_neq_0 K HK)]. }
    rewrite S. clear S D NU.
    assert (Q : cub y * u = y * y) by (unfold cub; transitivity (y * y * (u * y)); [ring | rewrite U; ring]).
    assert (Y3 : cub y * cub y = cub (y * y)) by (unfold cub; ring).
    assert (XX : cub (cub y - u) * cub y = cub (cub y) * cub y - cub u * cub y) by (unfold cub; ring).
    assert (X : (cub y - u) * (cub y - u) - x - (u * u - x - x) = cub (cub x) - 1).
    { transitivity (cub y * cub y + cub y * u - u * u + u * u + x); [ring | ]. rewrite Q, Y3, E. unfold cub. ring. }
    rewrite X. do 2 f_equal.
    transitivity (cub y * (x - cub (cub x) + 1) - (u * cub (y * y)) * 0 - u * (x - cub (cub x) + 1) - y); [ring | ].
    assert (V : x - cub (cub x) + 1 = - (cub (y * y) + y * y)) by (rewrite E; unfold cub; ring).
    rewrite V. transitivity (- (cub y * cub (y * y)) - cub y * (y * y) + (u * y) * (y * (cub y * y) + y) - y); [unfold cub; ring | ].
    rewrite U. unfold cub. ring.
Qed.
End C.

(** * Maps (x, y) -> (s h(x) + c, w h(y)) *)
Section A.
Variables K M : fld.
Hypothesis HK : fld_laws K.
Hypothesis HM : fld_laws M.
Hypothesis C3 : fadd (fadd f1 f1) f1 = (f0 : K).
Hypothesis D3 : fadd (fadd f1 f1) f1 = (f0 : M).
Let RM : ring_theory (f0 : M) f1 fadd fmul fsub fopp eq := F_R (fl_field M HM).
Add Field MF3a : (fl_field M HM) (morphism (t_morph M RM D3), constants [t_const]).
Add Field KF3a : (fl_field K HK).
Local Notation "x + y" := (fadd x y). Local Notation "x - y" := (fsub x y). Local Notation "x * y" := (fmul x y). Local Notation "- x" := (fopp x).
Local Notation "x / y" := (fdiv x y).
Variable h : K -> M.
Hypothesis Hh : embedding K M h.
Variables s w c : M.
Hypothesis Hs : s * s = f1.
Hypothesis Hw : w * w = s.
Hypothesis Hc : s = c * c * c - c + f1.
Definition amap (P : point K) : point M := match P with None => None | Some (x, y) => Some (s * h x + c, w * h y) end.
Local Notation onK := (on_curve K (fopp f1) f1).
Local Notation onM := (on_curve M (fopp f1) f1).
Local Notation addK := (padd K (fopp f1)).
Local Notation addM := (padd M (fopp f1)).
Local Notation stepK := (miller_step K (fopp f1)).
Local Notation stepM := (miller_step M (fopp f1)).
Let h_add := e_add K M h Hh. Let h_mul := e_mul K M h Hh. Let h_0 := e_0 K M h Hh. Let h_1 := e_1 K M h Hh.
Let h_opp := e_opp K M HK HM h Hh. Let h_sub := e_sub K M HK HM h Hh. Let h_inj := e_inj K M HK HM h Hh.
Let h_div := e_div K M HK HM h Hh. Let h_nz := e_nz K M HK HM h Hh.
Lemma s_nz : s <> f0. Proof. intro E. apply (f_1_neq_0 M HM). rewrite <- Hs, E. ring. Qed.
Lemma w_nz : w <> f0. Proof. intro E. apply s_nz. rewrite <- Hw, E. ring. Qed.
Lemma ax_inj : forall x y, s * h x + c = s * h y + c -> x = y.
Proof.
  intros x y E. apply h_inj. transitivity (s * (s * h x + c - c)); [transitivity (s * s * h x); [rewrite Hs | ]; ring | ]. rewrite E.
  transitivity (s * s * h y); [ring | rewrite Hs; ring].
Qed.
Lemma am_on : forall P, onK P -> onM (amap P).
Proof.
  intros [[x y] | ] H; [ | exact Logic.I]. apply (on_eq K HK C3) in H. cbn [amap]. apply (eq_on M HM D3).
  transitivity (w * w * h (y * y)); [rewrite h_mul; ring | ]. rewrite Hw, H, h_add, h_sub, !h_mul, h_1.
  transitivity (s * s * (s * (h x * h x * h x)) + c * c * c - s * h x - c + f1); [ | ring]. rewrite Hs.
  transitivity (s * (h x * h x * h x) - s * h x + (c * c * c - c + f1)); [rewrite <- Hc; ring | ring].
Qed.
Lemma am_third : forall l x1 y1 x2, amap (third K l x1 y1 x2) = third M (w * s * h l) (s * h x1 + c) (w * h y1) (s * h x2 + c).
Proof.
  intros. rewrite (third_eq K), (third_eq M). cbn [amap].
  assert (E : s * h (l * l - x1 - x2) + c = w * s * h l * (w * s * h l) - (s * h x1 + c) - (s * h x2 + c)).
  { rewrite !h_sub, h_mul. transitivity ((w * w) * (s * s) * (h l * h l) - s * h x1 - s * h x2 + c); [rewrite Hw, Hs; ring | ring]. }
  rewrite <- E. do 2 f_equal. rewrite h_sub, (h_mul l), (h_sub x1).
  transitivity (w * (s * s) * h l * (h x1 - h (l * l - x1 - x2)) - w * h y1); [rewrite Hs; ring | ring].
Qed.
Lemma am_neg : forall P, amap (pneg P) = pneg (amap P).
Proof. intros [[x y] | ]; cbn; auto. rewrite h_opp. do 2 f_equal. ring. Qed.
Lemma am_add : forall P Q, onK P -> onK Q -> addM (amap P) (amap Q) = amap (addK P Q).
Proof.
  intros [[x1 y1] | ] [[x2 y2] | ] HP HQ; try reflexivity. cbn [amap].
  destruct (f_eq_dec K HK x1 x2) as [<- | N].
  - destruct (same_x K HK (fopp f1) f1 x1 y1 y2 HP HQ) as [-> | ->].
    + destruct (f_eq_dec K HK y2 f0) as [-> | N].
      * replace (f0 : K) with (fopp f0 : K) at 4 by ring. rewrite (add_opp K HK C3). cbn [amap]. rewrite h_0.
        replace (w * f0) with (fopp (w * f0)) at 2 by ring. apply (add_opp M HM D3).
      * rewrite (add_same K HK C3), (add_same M HM D3), am_third; auto. 2:{ apply (f_mul_nz M HM); auto using w_nz. }
        f_equal. rewrite h_div, h_1 by auto. rewrite <- Hw. assert (h y2 <> f0) by auto. assert (W := w_nz).
        transitivity ((w * w) * (w * w) / (w * h y2)); [ | field; split; auto; split; auto]. rewrite Hw, Hs. reflexivity.
    + transitivity (None : point M).
      * replace (h y2) with (fopp (h (fopp y2))) by (rewrite <- h_opp; f_equal; ring).
        replace (w * fopp (h (fopp y2))) with (fopp (w * h (fopp y2))) by ring. apply (add_opp M HM D3).
      * replace y2 with (fopp (fopp y2)) at 2 by ring. rewrite (add_opp K HK C3). reflexivity.
  - rewrite (add_diff K HK), (add_diff M HM), am_third; auto. 2:{ intro E. apply N. apply ax_inj. auto. }
    assert (D : x2 - x1 <> f0) by (intro F; apply N; symmetry; apply (f_sub_0 K HK); auto). assert (D' : h (x2 - x1) <> f0) by auto.
    f_equal. rewrite h_div by auto. rewrite !h_sub in *. assert (S := s_nz).
    transitivity (s * s * (w * h y2 - w * h y1) / (s * h x2 + c - (s * h x1 + c))); [rewrite Hs | ]; field; auto.
    all: repeat split; auto; try exact (f_1_neq_0 M HM).
    all: intro F; apply D'; transitivity (s * s * (h x2 - h x1)); [rewrite Hs; ring | ].
    all: transitivity (s * (s * h x2 - s * h x1)); [ring | ].
    all: try (rewrite F; ring).
    all: match type of F with ?l = _ => transitivity (s * l); [ring | rewrite F; ring] end.
Qed.
Lemma am_mul : forall n P, onK P -> pmul M (fopp f1) n (amap P) = amap (pmul K (fopp f1) n P).
Proof.
  induction n; intros P H; cbn [pmul]; auto. rewrite IHn by auto. apply am_add; auto. apply (pmul_on K HK _ f1 (proj1 (t_elliptic K HK C3))); auto.
Qed.
(** Up to a fourth root of unity a Miller step is carried to a Miller step. *)
Lemma am_step : forall A B R, onK A -> onK B -> offx K (addK A B) R ->
  exists k, k * k * (k * k) = f1 /\ stepM (amap A) (amap B) (amap R) = k * h (stepK A B R).
Proof.
  intros A B R HA HB O.
  assert (T : forall k x, k = f1 -> x = f1 -> exists k0, k0 * k0 * (k0 * k0) = f1 /\ k = k0 * h x).
  { intros k x -> ->. exists f1. split; [ring | rewrite h_1; ring]. }
  destruct A as [[x1 y1] | ]; [ | apply T; reflexivity].
  destruct B as [[x2 y2] | ]; [ | apply T; reflexivity].
  destruct R as [[x y] | ]; [ | apply T; reflexivity].
  pose proof (am_add _ _ HA HB) as EA. unfold miller_step. cbn [amap] in EA |- *. rewrite EA.
  destruct (addK (Some (x1, y1)) (Some (x2, y2))) as [[x3 y3] | ] eqn:E3; cbn [amap offx] in *.
  - exists (w * s). split; [transitivity ((w * w) * (w * w) * ((s * s) * (s * s))); [ring | rewrite Hw, Hs; ring] | ].
    pose proof (finite_sum K HK (fopp f1) f1 _ _ _ _ _ HA HB E3) as G.
    assert (DX : x - x3 <> f0) by (intro F; apply O; symmetry; apply (f_sub_0 K HK); auto).
    assert (SL : slope M (fopp f1) (s * h x1 + c) (w * h y1) (s * h x2 + c) (w * h y2) = w * s * h (slope K (fopp f1) x1 y1 x2 y2)).
    { unfold slope. destruct G as [G | (<- & <- & G)].
      - rewrite (feqb_false K HK _ _ G), (feqb_false M HM) by (intro F; apply G; apply ax_inj; auto).
        assert (D : x2 - x1 <> f0) by (intro F; apply G; symmetry; apply (f_sub_0 K HK); auto). assert (D' : h (x2 - x1) <> f0) by auto.
        rewrite h_div by auto. rewrite !h_sub in *. assert (S := s_nz).
        transitivity (s * s * (w * h y2 - w * h y1) / (s * h x2 + c - (s * h x1 + c))); [rewrite Hs | ]; field; auto.
        all: repeat split; auto; try exact (f_1_neq_0 M HM).
        all: intro F; apply D'; transitivity (s * s * (h x2 - h x1)); [rewrite Hs; ring | ].
        all: transitivity (s * (s * h x2 - s * h x1)); [ring | ].
        all: try (rewrite F; ring).
        all: match type of F with ?l = _ => transitivity (s * l); [ring | rewrite F; ring] end.
      - rewrite !(feqb_refl K HK), !(feqb_refl M HM). assert (Y : h y1 <> f0) by auto. assert (W := w_nz).
        rewrite (f2_m1 K HK C3), (f3_0 K HK C3), (f2_m1 M HM D3), (f3_0 M HM D3).
        rewrite h_div by (apply (f_mul_nz K HK); auto; apply (m1_nz K HK C3)). rewrite h_add, !h_mul, !h_opp, h_1, h_0.
        transitivity ((w * w) * (w * w) / (w * h y1)); [rewrite Hw, Hs | rewrite <- Hw]; field; auto.
        all: repeat split; auto; try exact (f_1_neq_0 M HM); try exact (m1_nz M HM D3). }
    rewrite SL. rewrite h_div by auto. rewrite !h_sub, !h_mul, !h_sub.
    assert (DX' : h x - h x3 <> f0) by (rewrite <- h_sub; auto). assert (S := s_nz).
    transitivity (w * (h y - h y1 - h (slope K (fopp f1) x1 y1 x2 y2) * (h x - h x1)) / (s * (h x - h x3))).
    + f_equal.
      * transitivity (w * h y - w * h y1 - w * (s * s) * h (slope K (fopp f1) x1 y1 x2 y2) * (h x - h x1)); [ring | rewrite Hs; ring].
      * ring.
    + set (n := h y - h y1 - h (slope K (fopp f1) x1 y1 x2 y2) * (h x - h x1)).
      transitivity (w * (s * s) * n / (s * (h x - h x3))); [rewrite Hs; f_equal; ring | ]. field. auto.
  - exists s. split; [rewrite Hs; ring | ]. rewrite h_sub. ring.
Qed.
End A.

(** * Frobenius powers and multiples by powers of three *)
Section F.
Variable K : fld.
Hypothesis HK : fld_laws K.
Hypothesis C3 : fadd (fadd f1 f1) f1 = (f0 : K).
Let RK : ring_theory (f0 : K) f1 fadd fmul fsub fopp eq := F_R (fl_field K HK).
Add Field KF3f : (fl_field K HK) (morphism (t_morph K RK C3), constants [t_const]).
Local Notation "x + y" := (fadd x y). Local Notation "x - y" := (fsub x y). Local Notation "x * y" := (fmul x y). Local Notation "- x" := (fopp x).
Local Notation on := (on_curve K (fopp f1) f1).
Local Notation add := (padd K (fopp f1)).
Local Notation mul := (pmul K (fopp f1)).
Let HE := t_elliptic K HK C3.
Let C2 := proj1 HE. Let SM := proj2 HE.
(** x^(3^j) *)
Fixpoint fr (j : nat) (x : K) : K := match j with O => x | S j' => cub K (fr j' x) end.
Definition nz (j : nat) : K := fofz (Z.of_nat j).
Fixpoint sg (j : nat) : K := match j with O => f1 | S j' => fopp (sg j') end.
Lemma fr_fpow : forall j x, fr j x = fpow x (3 ^ Z.of_nat j).
Proof. induction j; intro x; [symmetry; apply (fpow3_0 K HK C3) | ]. rewrite (fpow3_S K HK C3), <- IHj. cbn [fr]. unfold cub. ring. Qed.
Lemma fr_add : forall j x y, fr j (x + y) = fr j x + fr j y. Proof. induction j; intros; cbn [fr]; auto. rewrite IHj. unfold cub. ring. Qed.
Lemma fr_mul : forall j x y, fr j (x * y) = fr j x * fr j y. Proof. induction j; intros; cbn [fr]; auto. rewrite IHj. unfold cub. ring. Qed.
Lemma fr_1 : forall j, fr j f1 = f1. Proof. induction j; cbn [fr]; auto. rewrite IHj. unfold cub. ring. Qed.
Lemma fr_0 : forall j, fr j f0 = f0. Proof. induction j; cbn [fr]; auto. rewrite IHj. unfold cub. ring. Qed.
Lemma fr_opp : forall j x, fr j (- x) = - fr j x. Proof. induction j; intros; cbn [fr]; auto. rewrite IHj. unfold cub. ring. Qed.
Lemma fr_sub : forall j x y, fr j (x - y) = fr j x - fr j y. Proof. induction j; intros; cbn [fr]; auto. rewrite IHj. unfold cub. ring. Qed.
Lemma fr_fr : forall i j x, fr i (fr j x) = fr (i + j)%nat x. Proof. induction i; intros; cbn [fr Nat.add]; auto. rewrite IHi. auto. Qed.
Lemma fr_emb : forall j, embedding K K (fr j). Proof. split; intros; [apply fr_0 | apply fr_1 | apply fr_add | apply fr_mul]. Qed.
Lemma nz_S : forall j, nz (S j) = nz j + f1. Proof. intro. apply (nat_S K HK). Qed.
Lemma nz_0 : nz 0 = f0. Proof. reflexivity. Qed.
Lemma nz_cub : forall j, cub K (nz j) = nz j. Proof. intro. pose proof (nat_cube K HK C3 j) as E. cbv zeta in E. unfold cub, nz in *. rewrite <- E at 4. ring. Qed.
Lemma fr_nz : forall i j, fr i (nz j) = nz j. Proof. induction i; intros; cbn [fr]; auto. rewrite IHi. apply nz_cub. Qed.
Lemma nz_add : forall i j, nz (i + j)%nat = nz i + nz j. Proof. intros. unfold nz. rewrite Nat2Z.inj_add. apply (fofz_add K HK). Qed.
Lemma sg_2 : forall j, sg j * sg j = f1. Proof. induction j; cbn [sg]; [ring | ]. transitivity (sg j * sg j); [ring | auto]. Qed.
Lemma sg_cub : forall j, cub K (sg j) = sg j. Proof. intro. unfold cub. rewrite sg_2. ring. Qed.
Lemma fr_sg : forall i j, fr i (sg j) = sg j. Proof. induction i; intros; cbn [fr]; auto. rewrite IHi. apply sg_cub. Qed.
Lemma sg_add : forall i j, sg (i + j)%nat = sg i * sg j. Proof. induction i; intros; cbn [sg Nat.add]; [ring | rewrite IHi; ring]. Qed.
Lemma mul_mul : forall i j P, on P -> mul (i * j) P = mul i (mul j P).
Proof.
  intros i j P H. pose proof (zmul_mul K HK (fopp f1) f1 C2 SM P (Z.of_nat i) (Z.of_nat j) H (Nat2Z.is_nonneg _) (Nat2Z.is_nonneg _)) as E.
  assert (Q : forall k X, pzmul K (fopp f1) (Z.of_nat k) X = mul k X).
  { intros [ | k] X; [reflexivity | ]. unfold pzmul. cbn [Z.of_nat]. rewrite SuccNat2Pos.id_succ. reflexivity. }
  rewrite <- Nat2Z.inj_mul, !Q in E. exact E.
Qed.
Lemma mul_plus : forall i j P, on P -> mul (i + j) P = add (mul i P) (mul j P).
Proof.
  intros i j P H. pose proof (zmul_add K HK (fopp f1) f1 C2 SM P (Z.of_nat i) (Z.of_nat j) H (Nat2Z.is_nonneg _) (Nat2Z.is_nonneg _)) as E.
  assert (Q : forall k X, pzmul K (fopp f1) (Z.of_nat k) X = mul k X).
  { intros [ | k] X; [reflexivity | ]. unfold pzmul. cbn [Z.of_nat]. rewrite SuccNat2Pos.id_succ. reflexivity. }
  rewrite <- Nat2Z.inj_add, !Q in E. exact E.
Qed.
Lemma mul_on : forall n P, on P -> on (mul n P). Proof. apply (pmul_on K HK _ f1 C2). Qed.
Definition tri (j : nat) (P : point K) : point K :=
  match P with None => None | Some (x, y) => Some (fr (2 * j) x - nz j, sg j * fr (2 * j) y) end.
Lemma tri_ok : forall j P, on P -> mul (3 ^ j) P = tri j P.
Proof.
  induction j; intros P H.
  - cbn [Nat.pow pmul]. rewrite (add_0_r K). destruct P as [[x y] | ]; auto. cbn [tri Nat.mul Nat.add fr sg]. rewrite nz_0. do 2 f_equal; ring.
  - rewrite Nat.pow_succ_r', mul_mul, IHj by auto.
    assert (O : on (tri j P)) by (rewrite <- IHj by auto; apply mul_on; auto). destruct P as [[x y] | ]; [ | reflexivity].
    cbn [tri] in O |- *. rewrite (triple K HK C3 _ _ O). replace (2 * S j)%nat with (S (S (2 * j))) by lia. cbn [fr]. do 2 f_equal.
    + rewrite nz_S. transitivity (cub K (cub K (fr (2 * j) x)) - cub K (cub K (nz j)) - f1); [unfold cub; ring | rewrite !nz_cub; ring].
    + cbn [sg]. transitivity (fopp (cub K (cub K (sg j)) * cub K (cub K (fr (2 * j) y)))); [unfold cub; ring | rewrite !sg_cub; ring].
Qed.
(** q = 3^m, m = 2k + 1: q P = (x - m, -y) and (3^(k+1) + mu) P = -mu q P *)
Variables (m k : nat) (mu : bool).
Hypothesis Hm : m = (2 * k + 1)%nat.
Hypothesis FM : forall x : K, fr m x = x.
Hypothesis N2 : nz m * nz m = f1.
Hypothesis MU : sg k = if mu then nz m else fopp (nz m).
Definition qmul (P : point K) : point K := match P with None => None | Some (x, y) => Some (x - nz m, - y) end.
Lemma nz_m : nz m = f1 - nz k. Proof. rewrite Hm. replace (2 * k + 1)%nat with (k + k + 1)%nat by lia. rewrite !nz_add. change (nz 1) with (f1 : K). ring. Qed.
Lemma qmul_ok : forall P, on P -> mul (3 ^ m) P = qmul P.
Proof.
  intros P H. rewrite tri_ok by auto. destruct P as [[x y] | ]; [ | reflexivity]. cbn [tri qmul]. replace (2 * m)%nat with (m + m)%nat by lia. rewrite <- !fr_fr, !FM.
  do 2 f_equal. assert (S : sg m = fopp f1). { rewrite Hm. replace (2 * k + 1)%nat with (k + k + 1)%nat by lia. rewrite !sg_add, sg_2. cbn. ring. } rewrite S. ring.
Qed.
Lemma nzm_nz : nz m <> f0. Proof. intro E. apply (f_1_neq_0 K HK). rewrite <- N2, E. ring. Qed.
Lemma T_ok : forall x y, on (Some (x, y)) -> mul (3 ^ S k) (Some (x, y)) = Some (cub K x - nz (S k), fopp (sg k) * cub K y).
Proof.
  intros x y H. rewrite tri_ok by auto. cbn [tri]. replace (2 * S k)%nat with (S m) by lia. cbn [fr]. rewrite !FM. reflexivity.
Qed.
Definition smu (P : point K) : point K := if mu then P else pneg P.
(** 3^(k+1) P = -mu P - mu q P *)
Lemma T_sum : forall P, on P -> mul (3 ^ S k) P = add (pneg (smu P)) (pneg (smu (qmul P))).
Proof.
  intros [[x y] | ] H. 2:{ rewrite tri_ok by auto. unfold smu. destruct mu; reflexivity. }
  rewrite (T_ok x y H). pose proof (on_eq K HK C3 _ _ H) as E. assert (NM := nzm_nz).
  set (t := if mu then f1 else fopp f1 : K). assert (TT : t * t = f1) by (unfold t; destruct mu; ring).
  assert (Q : pneg (smu (Some (x, y))) = Some (x, fopp (t * y)) /\ pneg (smu (qmul (Some (x, y)))) = Some (x - nz m, t * y)).
  { unfold smu, t, qmul. destruct mu; cbn [pneg]; split; do 2 f_equal; ring. }
  destruct Q as [-> ->]. assert (ST : sg k = t * nz m) by (rewrite MU; unfold t; destruct mu; ring).
  rewrite (add_diff K HK). 2:{ intro F. apply NM. transitivity (x - (x - nz m)); [ring | rewrite <- F; ring]. }
  assert (SL : fdiv (t * y - fopp (t * y)) (x - nz m - x) = t * nz m * y).
  { replace (x - nz m - x) with (fopp (nz m)) by ring.
    assert (NM' : fopp (nz m) <> f0) by (intro F; apply NM; transitivity (fopp (fopp (nz m))); [ring | rewrite F; ring]).
    transitivity (fdiv (t * y * (nz m * nz m)) (nz m)); [rewrite N2 | ]; field; repeat split; auto; try exact (f_1_neq_0 K HK). }
  rewrite SL, third_eq. clear SL.
  assert (X : t * nz m * y * (t * nz m * y) - x - (x - nz m) = cub K x - nz (S k)).
  { transitivity ((t * t) * (nz m * nz m) * (y * y) + x + nz m); [ring | ]. rewrite TT, N2, E, nz_m, nz_S. unfold cub. ring. }
  rewrite X. do 2 f_equal. rewrite ST.
  transitivity (t * nz m * y * (x - cub K x + nz (S k)) + t * y * (nz m * nz m)); [ | rewrite N2; ring].
  transitivity (t * nz m * y * (x - cub K x + (nz (S k) + nz m))); [ | ring].
  replace (nz (S k) + nz m) with (fopp f1 : K) by (rewrite nz_m, nz_S; ring).
  transitivity (fopp (t * nz m * y) * (y * y)); [unfold cub; ring | rewrite E; unfold cub; ring].
Qed.
Variable U : nat.
Hypothesis HU : if mu then U = S (3 ^ S k) else (3 ^ S k)%nat = S U.
Lemma qmul_on : forall P, on P -> on (qmul P). Proof. intros P H. rewrite <- qmul_ok by auto. apply mul_on; auto. Qed.
Lemma U_ok : forall P, on P -> mul U P = if mu then pneg (qmul P) else qmul P.
Proof.
  intros P H. pose proof (T_sum P H) as T. pose proof (qmul_on P H) as Q. assert (NP : on (pneg P)) by (apply (neg_on K HK); auto). assert (NQ : on (pneg (qmul P))) by (apply (neg_on K HK); auto).
  assert (AS := add_assoc K HK (fopp f1) f1 C2 SM).
  unfold smu in T. destruct mu.
  - rewrite HU. cbn [pmul]. rewrite T, <- AS, (add_neg_r K HK _ C2) by auto. reflexivity.
  - rewrite HU in T. cbn [pmul] in T. rewrite !(neg_neg K HK) in T.
    assert (MO := mul_on U P H). transitivity (add (pneg P) (add P (mul U P))).
    + rewrite <- AS by auto. rewrite (add_comm K HK _ (pneg P)), (add_neg_r K HK _ C2). reflexivity.
    + rewrite T. rewrite <- AS by auto. rewrite (add_comm K HK _ (pneg P)), (add_neg_r K HK _ C2). reflexivity.
Qed.
(** Every point is killed by 3^m + 1 + mu 3^(k+1). *)
Lemma N_ok : forall P, on P -> if mu then mul (3 ^ m + 1 + 3 ^ S k) P = None else add (mul (3 ^ m) P) P = mul (3 ^ S k) P.
Proof.
  intros P H. pose proof (T_sum P H) as T. pose proof (qmul_on P H) as Q. assert (NP : on (pneg P)) by (apply (neg_on K HK); auto). assert (NQ : on (pneg (qmul P))) by (apply (neg_on K HK); auto).
  assert (AS := add_assoc K HK (fopp f1) f1 C2 SM). unfold smu in T. destruct mu.
  - rewrite !mul_plus, qmul_ok, T by auto. cbn [pmul]. rewrite (add_0_r K). rewrite AS by (auto; apply (add_on K HK _ _ C2); auto).
    rewrite <- (AS P) by auto. rewrite (add_neg_r K HK _ C2). cbn [padd]. apply (add_neg_r K HK _ C2).
  - rewrite T, !(neg_neg K HK), qmul_ok by auto. apply (add_comm K HK).
Qed.
End F.
