(** The Miller functions behind the eta_T pairing are additive in both
    arguments after the final exponentiation. *)
From Coq Require Import ZArith List Bool Lia Ring Field.
From Verif.Base Require Import Outcome Algebra Slots.
From Verif.Spec Require Import Curve Tate Twist Ternary.
From Verif.Proofs Require Import PowFacts FieldFacts SlotFacts CurveGroup CurveFacts LineAlgebra TateFacts Bilinear BilinearZ Embed TowerAlgebra TernaryCurve.

Section S.
Variables K L : fld.
Hypothesis HK : fld_laws K.
Hypothesis HL : fld_laws L.
Hypothesis C3 : fadd (fadd f1 f1) f1 = (f0 : K).
Hypothesis D3 : fadd (fadd f1 f1) f1 = (f0 : L).
Let RL : ring_theory (f0 : L) f1 fadd fmul fsub fopp eq := F_R (fl_field L HL).
Let RK : ring_theory (f0 : K) f1 fadd fmul fsub fopp eq := F_R (fl_field K HK).
Add Field KF3b : (fl_field K HK) (morphism (t_morph K RK C3), constants [t_const]).
Add Field LF3b : (fl_field L HL) (morphism (t_morph L RL D3), constants [t_const]).
Local Notation "x + y" := (fadd x y). Local Notation "x - y" := (fsub x y). Local Notation "x * y" := (fmul x y). Local Notation "- x" := (fopp x).
Local Notation "x / y" := (fdiv x y).
Variable up : K -> L.
Hypothesis Hup : embedding K L up.
Variables i z n : L.
Hypothesis II : i * i = - f1.
Hypothesis ZZ : z * z * z = z + f1.
Hypothesis NN : n * n * n = n.
Hypothesis IND : forall x y, z - up x <> up y.
Variable pi : L -> L.
Hypothesis Hpi : embedding L L pi.
Hypothesis PU : forall x, pi (up x) = up x.
Hypothesis PI : pi i = - i.
Hypothesis PZ : pi z = z + n.
Hypothesis PN : pi n = n.
Variable e : Z.
Hypothesis He : (0 <= e)%Z.
Local Notation pw x := (@fpow L x e).
Hypothesis KILL3 : forall x, x <> f0 -> pi (pi (pi x)) = x -> pw x = f1.
Hypothesis KILL4 : forall k : L, k * k * (k * k) = f1 -> pw k = f1.
Let HE := t_elliptic L HL D3.
Let HEK := t_elliptic K HK C3.
Local Notation onK := (on_curve K (fopp f1) f1).
Local Notation on := (on_curve L (fopp f1) f1).
Local Notation addK := (padd K (fopp f1)).
Local Notation add := (padd L (fopp f1)).
Local Notation mul := (pmul L (fopp f1)).
Local Notation mulK := (pmul K (fopp f1)).
Local Notation step := (miller_step L (fopp f1)).
Local Notation mil := (miller L (fopp f1)).
Local Notation offx := (offx L).

Lemma one1 : f1 * f1 = (f1 : L). Proof. ring. Qed.
Lemma mm1 : fopp f1 * fopp f1 = (f1 : L). Proof. ring. Qed.
Lemma c0 : f1 = (f0 * f0 * f0 - f0 + f1 : L). Proof. ring. Qed.
Lemma cn : f1 = (fopp n * fopp n * fopp n - fopp n + f1 : L). Proof. transitivity (fopp (n * n * n) + n + f1); [rewrite NN; ring | ring]. Qed.
Lemma cz : fopp f1 = (z * z * z - z + f1 : L). Proof. rewrite ZZ. ring. Qed.
Lemma Hid : embedding L L (fun x => x). Proof. split; auto. Qed.
Definition upp (P : point K) : point L := amap K L up f1 f1 f0 P.
Definition psi (P : point K) : point L := amap K L up (fopp f1) i z P.
(** the q-power Frobenius followed by (x, y) -> (x - m, -y) *)
Definition gp (P : point L) : point L := amap L L pi f1 (fopp f1) (fopp n) P.
Definition gam (P : point K) : point L := match P with None => None | Some (x, y) => Some (up x - n, - up y) end.
Let upp_add := am_add K L HK HL C3 D3 up Hup f1 f1 f0 one1 one1.
Let upp_on := am_on K L HK HL C3 D3 up Hup f1 f1 f0 one1 one1 c0.
Let upp_neg := am_neg K L HK HL D3 up Hup f1 f1 f0.
Let psi_add := am_add K L HK HL C3 D3 up Hup (fopp f1) i z mm1 II.
Let psi_on := am_on K L HK HL C3 D3 up Hup (fopp f1) i z mm1 II cz.
Let psi_neg := am_neg K L HK HL D3 up Hup (fopp f1) i z.
Definition G1 (P : point L) : Prop := exists P0, onK P0 /\ P = upp P0.
Definition G2 (P : point L) : Prop := exists P0, onK P0 /\ P = psi P0.
Lemma sub1 : subgroup L (fopp f1) f1 G1.
Proof.
  split.
  - intros P (P0 & H & ->). apply upp_on; auto.
  - exists None. split; [exact Logic.I | reflexivity].
  - intros P Q (P0 & H & ->) (Q0 & H' & ->). exists (addK P0 Q0). split; [apply (add_on K HK _ _ (proj1 HEK)); auto | apply upp_add; auto].
  - intros P (P0 & H & ->). exists (pneg P0). split; [apply (neg_on K HK); auto | symmetry; apply upp_neg].
Qed.
Lemma sub2 : subgroup L (fopp f1) f1 G2.
Proof.
  split.
  - intros P (P0 & H & ->). apply psi_on; auto.
  - exists None. split; [exact Logic.I | reflexivity].
  - intros P Q (P0 & H & ->) (Q0 & H' & ->). exists (addK P0 Q0). split; [apply (add_on K HK _ _ (proj1 HEK)); auto | apply psi_add; auto].
  - intros P (P0 & H & ->). exists (pneg P0). split; [apply (neg_on K HK); auto | symmetry; apply psi_neg].
Qed.
Lemma D12 : forall P, G1 P -> G2 P -> P = None.
Proof.
  intros P (P0 & _ & ->) (Q0 & _ & E). destruct P0 as [[x y] | ]; [ | reflexivity]. destruct Q0 as [[x' y'] | ]; [ | exact E]. exfalso.
  cbn in E. injection E as E _. apply (IND x' x). transitivity (f1 * up x + f0); [rewrite E | ]; ring.
Qed.
Let p_add := e_add L L pi Hpi. Let p_mul := e_mul L L pi Hpi. Let p_0 := e_0 L L pi Hpi. Let p_1 := e_1 L L pi Hpi.
Let p_opp := e_opp L L HL HL pi Hpi. Let p_sub := e_sub L L HL HL pi Hpi. Let p_nz := e_nz L L HL HL pi Hpi. Let p_div := e_div L L HL HL pi Hpi.
Lemma gp_up : forall P, gp (upp P) = gam P.
Proof.
  intros [[x y] | ]; [ | reflexivity]. cbn. rewrite p_add, !p_mul, p_1, p_0, !PU. do 2 f_equal; ring.
Qed.
Lemma gp_psi : forall P, gp (psi P) = psi P.
Proof.
  intros [[x y] | ]; [ | reflexivity]. cbn. rewrite p_add, !p_mul, p_opp, p_1, !PU, PZ, PI. do 2 f_equal; ring.
Qed.
Definition x3 (P : point L) : Prop := match P with None => True | Some (x, _) => pi (pi (pi x)) = x end.
Lemma x3_up : forall P, x3 (upp P).
Proof. intros [[x y] | ]; [ | exact Logic.I]. cbn. replace (f1 * up x + f0) with (up x) by ring. rewrite !PU. reflexivity. Qed.
Lemma x3_psi : forall P, x3 (psi P).
Proof.
  intros [[x y] | ]; [ | exact Logic.I]. cbn. replace (fopp f1 * up x + z) with (z - up x) by ring. rewrite !p_sub, !PU, PZ, !p_add, PN, PZ, p_add, !PN, PZ. ring.
Qed.
Lemma x3_neg : forall P, x3 P -> x3 (pneg P). Proof. intros [[x y] | ]; auto. Qed.
Lemma pwM : forall x y : L, pw (x * y) = pw x * pw y. Proof. intros. apply (zpow_mul_base (mul_monoid L)); [apply (mul_monoid_laws L HL) | apply (mul_monoid_comm L HL)]. Qed.
Lemma pw1 : pw f1 = f1. Proof. apply (fpow1 L HL). Qed.
Lemma pwm1 : pw (fopp f1) = f1. Proof. apply KILL4. ring. Qed.
Lemma nzsub : forall x y : L, x <> y -> x - y <> f0. Proof. intros x y N E. apply N. apply (f_sub_0 L HL). auto. Qed.
Lemma norm_kill : forall A B R, on A -> on B -> on R -> x3 A -> x3 B -> x3 R -> x3 (add A B) -> offx A R -> offx B R -> offx (add A B) R ->
  pw (step A B R) * pw (step A B (pneg R)) = f1.
Proof.
  intros A B R HA HB HR XA XB XR XS OA OB OS. rewrite <- pwM.
  destruct A as [[x1 y1] | ]. 2:{ cbn [miller_step]. rewrite one1. apply pw1. }
  destruct B as [[x2 y2] | ]. 2:{ cbn [miller_step]. rewrite one1. apply pw1. }
  destruct R as [[x y] | ]. 2:{ cbn [miller_step pneg]. rewrite one1. apply pw1. }
  destruct (add (Some (x1, y1)) (Some (x2, y2))) as [[x0 y0] | ] eqn:E.
  - cbn [x3 TateFacts.offx] in *. cbn [pneg]. rewrite (step_norm L HL (fopp f1) f1 HE _ _ _ _ _ _ x y HA HB HR E) by auto.
    assert (N1 := nzsub x x1 ltac:(auto)). assert (N2 := nzsub x x2 ltac:(auto)). assert (N0 := nzsub x x0 ltac:(auto)).
    apply KILL3.
    + intro F. apply (f_mul_nz L HL _ _ N1 N2). transitivity (fopp (fopp ((x - x1) * (x - x2) / (x - x0))) * (x - x0)); [field; auto | rewrite F; ring].
    + assert (Q : forall u v, pi (pi (pi u)) = u -> pi (pi (pi v)) = v -> pi (pi (pi (u - v))) = u - v) by (intros u v U V; rewrite !p_sub, U, V; auto).
      assert (Q' : forall u v, pi (pi (pi u)) = u -> pi (pi (pi v)) = v -> pi (pi (pi (u * v))) = u * v) by (intros u v U V; rewrite !p_mul, U, V; auto).
      assert (E0 := Q x x0 XR XS).
      rewrite !p_opp. f_equal. rewrite !p_div by (auto 6). rewrite E0, Q'; auto.
  - cbn [x3 TateFacts.offx] in *. unfold miller_step. cbn [pneg]. rewrite E. assert (N1 := nzsub x x1 ltac:(auto)).
    rewrite pwM. rewrite KILL3; auto; [ring | rewrite !p_sub; congruence].
Qed.
Lemma neg_step : forall A B R, on A -> on B -> offx (add A B) R -> pw (step (pneg A) (pneg B) (pneg R)) = pw (step A B R).
Proof.
  intros A B R HA HB O. destruct (am_step L L HL HL D3 D3 (fun x => x) Hid f1 (fopp f1) f0 one1 mm1 A B R HA HB O) as (k & K4 & E).
  assert (Q : forall P : point L, amap L L (fun x => x) f1 (fopp f1) f0 P = pneg P) by (intros [[x y] | ]; cbn; auto; do 2 f_equal; ring).
  rewrite !Q in E. rewrite E, pwM, (KILL4 k K4). ring.
Qed.
Lemma gp_step : forall A B R, on A -> on B -> offx (add A B) R -> pw (step (gp A) (gp B) (gp R)) = pw (pi (step A B R)).
Proof.
  intros A B R HA HB O. destruct (am_step L L HL HL D3 D3 pi Hpi f1 (fopp f1) (fopp n) one1 mm1 A B R HA HB O) as (k & K4 & E).
  fold (gp A) (gp B) (gp R) in E. rewrite E, pwM, (KILL4 k K4). ring.
Qed.
Lemma gp_neg : forall P, gp (pneg P) = pneg (gp P). Proof. apply (am_neg L L HL HL D3 pi Hpi). Qed.

(** ** The function with loop length U *)
Variable mu : bool.
Variable U : nat.
Hypothesis UV : forall V, onK V -> mul U (upp V) = if mu then pneg (gam V) else gam V.
Hypothesis PU_ : forall x : L, x <> f0 -> if mu then pw (npow (x : mul_monoid L) U) * pw (pi x) = f1 else pw (npow (x : mul_monoid L) U) = pw (pi x).
Let on1 := sg_on _ _ _ _ sub1. Let on2 := sg_on _ _ _ _ sub2.
Let O12 := off12 L HL (fopp f1) f1 G1 G2 sub1 sub2 D12.
Let O21 := off21 L HL (fopp f1) f1 G1 G2 sub1 sub2 D12.
Lemma g1 : forall P, onK P -> G1 (upp P). Proof. intros P H. exists P. auto. Qed.
Lemma g2 : forall P, onK P -> G2 (psi P). Proof. intros P H. exists P. auto. Qed.
Lemma addK_on : forall P Q, onK P -> onK Q -> onK (addK P Q). Proof. apply (add_on K HK _ _ (proj1 HEK)). Qed.
Lemma offx_none : forall P, offx P None. Proof. intros [[x y] | ]; exact Logic.I. Qed.
Lemma inv_unique : forall x y u : L, x * u = f1 -> y * u = f1 -> x = y.
Proof. intros x y u X Y. transitivity (x * (y * u)); [rewrite Y; ring | transitivity ((x * u) * y); [ring | rewrite X; ring]]. Qed.
Lemma gam_is : forall V, gam V = gp (upp V). Proof. intro. rewrite gp_up. auto. Qed.
Lemma key1 : forall A B S, onK A -> onK B -> onK S ->
  pw (step (mul U (upp A)) (mul U (upp B)) (psi S)) = pw (npow (step (upp A) (upp B) (psi S) : mul_monoid L) U).
Proof.
  intros A B S HA HB HS. rewrite !UV by auto.
  assert (NZ : step (upp A) (upp B) (psi S) <> f0) by (apply (step_nz' L HL (fopp f1) f1 HE G1 G2 sub1 sub2 D12); auto using g1, g2).
  assert (OS : offx (add (upp A) (upp B)) (psi S)).
  { destruct S as [[x y] | ]; [ | apply offx_none]. apply O12; [apply sub1; auto using g1 | auto using g2 | discriminate]. }
  assert (GS : pw (step (gam A) (gam B) (psi S)) = pw (pi (step (upp A) (upp B) (psi S)))).
  { rewrite <- (gp_psi S) at 1. rewrite !gam_is. apply gp_step; auto using g1. }
  pose proof (PU_ _ NZ) as P. destruct mu; [ | congruence].
  apply inv_unique with (u := pw (pi (step (upp A) (upp B) (psi S)))); [ | exact P]. rewrite <- GS.
  assert (G : forall V, onK V -> G1 (gam V)).
  { intros V HV. pose proof (UV V HV) as E. assert (Gm : G1 (mul U (upp V))) by (apply (mul_G1 L (fopp f1) f1 G1 sub1); auto using g1).
    rewrite E in Gm. rewrite <- (neg_neg L HL (gam V)). apply sub1. exact Gm. }
  assert (GA := G A HA). assert (GB := G B HB). assert (GAB : G1 (add (gam A) (gam B))) by (apply sub1; auto).
  assert (X : forall V, G1 V -> x3 V) by (intros V (V0 & _ & ->); apply x3_up).
  assert (O : forall V, G1 V -> offx V (psi S)) by (intros V HV; destruct S as [[x y] | ]; [apply O12; auto using g2; discriminate | apply offx_none]).
  rewrite <- (neg_neg L HL (psi S)) at 1. rewrite neg_step; auto.
  - transitivity (pw (step (gam A) (gam B) (psi S)) * pw (step (gam A) (gam B) (pneg (psi S)))); [ring | ].
    apply norm_kill; auto using g2, x3_psi.
  - apply (offx_neg L). auto.
Qed.
Local Notation W Q Q' A := (step (pneg Q) (pneg Q') (pneg A)).
Lemma key2 : forall V S S', onK V -> onK S -> onK S' ->
  pw (W (psi S) (psi S') (mul U (upp V))) = pw (npow (W (psi S) (psi S') (upp V) : mul_monoid L) U).
Proof.
  intros V S S' HV HS HS'.
  assert (NZ : W (psi S) (psi S') (upp V) <> f0) by (apply (W_nz L HL (fopp f1) f1 HE G1 G2 sub1 sub2 D12); auto using g1, g2).
  assert (n2 : forall T, onK T -> G2 (pneg (psi T))) by (intros; apply sub2; auto using g2).
  assert (SS : G2 (add (pneg (psi S)) (pneg (psi S')))) by (apply sub2; auto).
  assert (O : forall A Q, G1 A -> G2 Q -> offx Q A).
  { intros [a | ] Q HA HQ; [ | apply offx_none]. apply O21; auto. discriminate. }
  assert (n1 : forall A, G1 A -> G1 (pneg A)) by (intros; apply sub1; auto).
  assert (GS : pw (W (psi S) (psi S') (gam V)) = pw (pi (W (psi S) (psi S') (upp V)))).
  { rewrite <- (gp_psi S) at 1. rewrite <- (gp_psi S') at 1. rewrite gam_is, <- !gp_neg. apply gp_step; auto using g1. }
  assert (GV : G1 (gam V)).
  { pose proof (UV V HV) as E. assert (Gm : G1 (mul U (upp V))) by (apply (mul_G1 L (fopp f1) f1 G1 sub1); auto using g1).
    rewrite E in Gm. destruct mu; auto. rewrite <- (neg_neg L HL (gam V)). auto. }
  rewrite UV by auto. pose proof (PU_ _ NZ) as P. destruct mu; [ | congruence].
  apply inv_unique with (u := pw (pi (W (psi S) (psi S') (upp V)))); [ | exact P]. rewrite <- GS.
  assert (X1 : forall V, G1 V -> x3 V) by (intros V0 (V1 & _ & ->); apply x3_up).
  assert (X2 : forall V, G2 V -> x3 V) by (intros V0 (V1 & _ & ->); apply x3_psi).
  rewrite (neg_neg L HL). apply norm_kill; auto.
Qed.
Definition val (V S : point K) : L := pw (mil U (upp V) (psi S)).
Lemma cancel : forall x y u : L, u <> f0 -> x * u = y * u -> x = y.
Proof. intros x y u N E. transitivity (x * u / u); [field; auto; split; auto; exact (f_1_neq_0 L HL) | rewrite E; field; auto; split; auto; exact (f_1_neq_0 L HL)]. Qed.
Lemma pw_nz : forall x : L, x <> f0 -> pw x <> f0. Proof. intros. apply (fpow_nz L HL). auto. Qed.
Lemma npow_nz : forall (x : L) k, x <> f0 -> npow (x : mul_monoid L) k <> f0.
Proof. intros x k N. induction k; [apply (f_1_neq_0 L HL) | apply (f_mul_nz L HL); auto]. Qed.
Lemma val_1 : forall V V' S, onK V -> onK V' -> onK S -> val (addK V V') S = val V S * val V' S.
Proof.
  intros V V' S HV HV' HS. unfold val. rewrite <- upp_add by auto.
  assert (NZ : step (upp V) (upp V') (psi S) <> f0) by (apply (step_nz' L HL (fopp f1) f1 HE G1 G2 sub1 sub2 D12); auto using g1, g2).
  apply cancel with (u := pw (npow (step (upp V) (upp V') (psi S) : mul_monoid L) U)); [apply pw_nz; apply npow_nz; auto | ].
  rewrite <- !pwM. fold (upp V) (upp V').
  rewrite (mil_1 L HL (fopp f1) f1 HE G1 G2 sub1 sub2 D12) by auto using g1, g2. rewrite !pwM, key1 by auto. reflexivity.
Qed.
Lemma val_2 : forall V S S', onK V -> onK S -> onK S' -> val V (addK S S') = val V S * val V S'.
Proof.
  intros V S S' HV HS HS'. unfold val. rewrite <- psi_add by auto. fold (psi S) (psi S').
  assert (NZ : W (psi S) (psi S') (upp V) <> f0) by (apply (W_nz L HL (fopp f1) f1 HE G1 G2 sub1 sub2 D12); auto using g1, g2).
  apply cancel with (u := pw (npow (W (psi S) (psi S') (upp V) : mul_monoid L) U)); [apply pw_nz; apply npow_nz; auto | ].
  rewrite <- !pwM.
  rewrite (mil_2 L HL (fopp f1) f1 HE G1 G2 sub1 sub2 D12) by auto using g1, g2. rewrite !pwM, key2 by auto. reflexivity.
Qed.

(** ** The functions computed by the loop *)
Local Notation npw x k := (npow (x : mul_monoid L) k).
Lemma mil_mul : forall a b V R, G1 V -> G2 R -> mil (a * b) V R = npw (mil a V R) b * mil b (mul a V) R.
Proof.
  intros a b V R HV HR. assert (HaV := mul_G1 L (fopp f1) f1 G1 sub1 a V HV).
  assert (MM : forall b, mul (a * b) V = mul b (mul a V)).
  { intro c. rewrite Nat.mul_comm. apply (mul_mul L HL D3). auto. }
  induction b.
  - rewrite Nat.mul_0_r. cbn [miller npow mone mul_monoid]. ring.
  - rewrite Nat.mul_succ_r. rewrite (mil_add L HL (fopp f1) f1 HE G1 G2 sub1 sub2 D12) by auto. rewrite IHb. cbn [miller].
    change (npw (mil a V R) (S b)) with (mil a V R * npw (mil a V R) b). rewrite MM. ring.
Qed.
(** the function with divisor 3(V) + (-3V) - 4(O) *)
Definition h3 (xv yv x y : L) : L := cub L yv * y - (cub L xv - x + f1) * (cub L xv - x + f1).
Lemma h3_step : forall xv yv x y x0 y0, on (Some (xv, yv)) -> on (Some (x, y)) -> mul 3 (Some (xv, yv)) = Some (x0, y0) ->
  x <> x0 -> offx (mul 2 (Some (xv, yv))) (Some (x, y)) ->
  h3 xv yv x y = fopp (mil 3 (Some (xv, yv)) (Some (x, y)) * (x - x0)).
Proof.
  intros xv yv x y x0 y0 HV HR E3 N3 O2. pose proof (on_eq L HL D3 _ _ HV) as EV. pose proof (on_eq L HL D3 _ _ HR) as ER.
  set (d := x - xv). assert (EC : cub L xv - x + f1 = yv * yv - d) by (unfold d; rewrite EV; unfold cub; ring).
  assert (EY : y * y = d * d * d - d + yv * yv) by (rewrite ER, EV; unfold d; ring).
  unfold h3. rewrite EC. cbn [miller pmul]. rewrite (add_0_r L). cbn [miller_step]. fold (miller_step L (fopp f1)).
  assert (NX := nzsub x x0 N3).
  change (match add (Some (xv, yv)) (Some (xv, yv)) with
          | Some (x4, _) => (y - yv - slope L (fopp f1) xv yv xv yv * (x - xv)) / (x - x4)
          | None => x - xv end) with (step (Some (xv, yv)) (Some (xv, yv)) (Some (x, y))).
  destruct (f_eq_dec L HL yv f0) as [-> | NY].
  - assert (E2 : add (Some (xv, f0)) (Some (xv, f0)) = None) by (replace (f0 : L) with (fopp f0 : L) at 2 by ring; apply (add_opp L HL D3)).
    cbn [pmul] in E3. rewrite (add_0_r L), E2, (add_0_r L) in E3. injection E3 as <- <-. rewrite E2. unfold miller_step. rewrite E2. unfold cub, d. ring.
  - assert (E2 := add_same L HL D3 xv yv NY). rewrite third_eq in E2. cbn [pmul] in O2, E3. rewrite (add_0_r L), E2 in O2. rewrite (add_0_r L), E2 in E3. rewrite E2.
    set (u := f1 / yv) in *. assert (UY : u * yv = f1) by (unfold u; field; auto). set (x2 := u * u - xv - xv) in *.
    assert (E2' : u * (xv - x2) - yv = fopp (u * u * u + yv)) by (unfold x2; ring). rewrite E2' in *.
    cbn [TateFacts.offx] in O2. assert (NX2 := nzsub x x2 ltac:(auto)).
    assert (H2 : on (Some (x2, fopp (u * u * u + yv)))).
    { rewrite <- E2. apply (add_on L HL _ _ (proj1 HE)); auto. }
    assert (U0 : u * u <> f0) by (intro F; apply (f_1_neq_0 L HL); transitivity ((u * u) * (yv * yv)); [transitivity ((u * yv) * (u * yv)); [rewrite UY; ring | ring] | rewrite F; ring]).
    assert (X2 : x2 - xv = u * u) by (unfold x2; ring).
    assert (NE : xv <> x2) by (intro F; apply U0; rewrite <- X2, <- F; ring).
    assert (SV : step (Some (xv, yv)) (Some (xv, yv)) (Some (x, y)) = (y - yv - u * d) / (x - x2)).
    { unfold miller_step. rewrite E2. f_equal. unfold slope. rewrite (feqb_refl L HL), (f2_m1 L HL D3), (f3_0 L HL D3). unfold u, d.
      field. repeat split; auto; try exact (m1_nz L HL D3); exact (f_1_neq_0 L HL). }
    assert (SW : step (Some (x2, fopp (u * u * u + yv))) (Some (xv, yv)) (Some (x, y)) = (y - yv - (cub L yv - u) * d) / (x - x0)).
    { rewrite (TateFacts.step_comm L HL (fopp f1) f1 HE) by auto. unfold miller_step. rewrite E3. f_equal. unfold slope. rewrite (feqb_false L HL) by auto.
      rewrite X2. replace (fopp (u * u * u + yv) - yv) with (yv - u * u * u) by ring. f_equal. unfold d. f_equal. unfold u, cub. field. repeat split; auto; exact (f_1_neq_0 L HL). }
    rewrite SV, SW.
    assert (XX : x - x2 = d - u * u) by (unfold d; rewrite <- X2; ring). rewrite XX in *.
    transitivity (fopp ((y - yv - u * d) * (y - yv - (cub L yv - u) * d) / (d - u * u))); [ | field; auto].
    assert (Q : (y - yv - u * d) * (y - yv - (cub L yv - u) * d) = fopp (d - u * u) * (cub L yv * y - (yv * yv - d) * (yv * yv - d))).
    { transitivity (y * y + y * (yv - cub L yv * d) + (yv + u * d) * (yv + (cub L yv - u) * d)); [ring | ]. rewrite EY. unfold u, cub. field. repeat split; auto; exact (f_1_neq_0 L HL). }
    rewrite Q. field. auto.
Qed.
Lemma vert : forall xs x, z - up xs - up x <> f0 /\ pw (z - up xs - up x) = f1.
Proof.
  intros xs x. assert (N : z - up xs - up x <> f0) by (apply nzsub; apply IND). split; [auto | ]. apply KILL3; [auto | ].
  rewrite !p_sub, !PU, PZ, !p_add, PN, PZ, p_add, !PN, PZ. ring.
Qed.
Definition h_at (V S : point K) : L :=
  match V, S with
  | Some (xv, yv), Some (xs, ys) => up (cub K yv * ys) * i - (up (cub K xv + xs + f1) - z) * (up (cub K xv + xs + f1) - z)
  | _, _ => f1
  end.
Lemma up_cub : forall x, up (cub K x) = cub L (up x).
Proof. intro x. unfold cub. rewrite !(e_mul K L up Hup). reflexivity. Qed.
Let u_add := e_add K L up Hup. Let u_mul := e_mul K L up Hup. Let u_1 := e_1 K L up Hup. Let u_0 := e_0 K L up Hup.
Let u_opp := e_opp K L HK HL up Hup. Let u_sub := e_sub K L HK HL up Hup.
Lemma mul_upp : forall j V, onK V -> mul j (upp V) = upp (mulK j V).
Proof. intros. apply (am_mul K L HK HL C3 D3 up Hup f1 f1 f0 one1 one1). auto. Qed.
Lemma mulK_on : forall j V, onK V -> onK (mulK j V). Proof. apply (pmul_on K HK _ f1 (proj1 HEK)). Qed.
Lemma h_at_pw : forall V S, onK V -> onK S -> pw (h_at V S) = pw (mil 3 (upp V) (psi S)).
Proof.
  intros [[xv yv] | ] [[xs ys] | ] HV HS; cbn [h_at].
  - pose proof (triple K HK C3 xv yv HV) as E3. pose proof (mul_upp 3 _ HV) as M3. rewrite E3 in M3. cbn [upp amap] in M3.
    assert (M2 := mul_upp 2 _ HV). set (x0 := cub K (cub K xv) - f1) in *.
    assert (H : h3 (f1 * up xv + f0) (f1 * up yv) (fopp f1 * up xs + z) (i * up ys) = fopp (mil 3 (upp (Some (xv, yv))) (psi (Some (xs, ys))) * (fopp f1 * up xs + z - (f1 * up x0 + f0)))).
    { apply (h3_step _ _ _ _ _ (f1 * up (fopp (cub K (cub K yv))))); auto.
      - apply (upp_on (Some (xv, yv))). auto.
      - apply (psi_on (Some (xs, ys))). auto.
      - intro F. apply (IND xs x0). transitivity (fopp f1 * up xs + z); [ring | rewrite F; ring].
      - change (Some (f1 * up xv + f0, f1 * up yv)) with (upp (Some (xv, yv))). rewrite M2. apply (O12 (upp (mulK 2 (Some (xv, yv)))) (psi (Some (xs, ys)))); auto using g1, g2, mulK_on. discriminate. }
    destruct (vert xs x0) as [_ VK].
    transitivity (pw (h3 (f1 * up xv + f0) (f1 * up yv) (fopp f1 * up xs + z) (i * up ys))).
    + f_equal. unfold h3. rewrite !u_add, u_mul, !up_cub, u_1. unfold cub. ring.
    + rewrite H. replace (fopp f1 * up xs + z - (f1 * up x0 + f0)) with (z - up xs - up x0) by ring.
      transitivity (pw (fopp f1 * (mil 3 (upp (Some (xv, yv))) (psi (Some (xs, ys))) * (z - up xs - up x0)))); [f_equal; ring | ].
      rewrite !pwM, pwm1, VK. ring.
  - rewrite (mil_R0 L HL). reflexivity.
  - rewrite (mil_P0 L HL). reflexivity.
  - rewrite (mil_P0 L HL). reflexivity.
Qed.
Fixpoint pr (f : nat -> L) (j : nat) : L := match j with O => f O | S j' => cub L (pr f j') * f (S j') end.
Lemma chain : forall V S j, onK V -> onK S -> pw (pr (fun l => h_at (mulK (3 ^ l) V) S) j) = pw (mil (3 ^ (Datatypes.S j)) (upp V) (psi S)).
Proof.
  intros V S j HV HS. induction j.
  - cbn [pr Nat.pow]. rewrite h_at_pw by auto using mulK_on. f_equal. change (3 * 1)%nat with 3%nat. f_equal. cbn [pmul]. rewrite (add_0_r K). reflexivity.
  - cbn [pr]. rewrite pwM, h_at_pw by auto using mulK_on. replace (3 ^ Datatypes.S (Datatypes.S j))%nat with (3 ^ Datatypes.S j * 3)%nat by (cbn [Nat.pow]; lia). rewrite mil_mul by auto using g1, g2.
    rewrite mul_upp by auto. rewrite pwM. f_equal. unfold cub. rewrite !pwM, IHj. cbn [npow mmul mone mul_monoid]. rewrite !pwM, pw1. ring.
Qed.
(** the product in the other order *)
Fixpoint bp (f : nat -> L) (j : nat) : L := match j with O => f O | S j' => bp f j' * f (S j') end.
Lemma bp_ext : forall f g j, (forall l, (l <= j)%nat -> f l = g l) -> bp f j = bp g j.
Proof. intros f g j. induction j; intro H; cbn [bp]; [auto | ]. rewrite IHj by auto. rewrite H by lia. auto. Qed.
Lemma bp_cub : forall f j, cub L (bp f j) = bp (fun l => cub L (f l)) j.
Proof. intros f j. induction j; cbn [bp]; auto. rewrite <- IHj. unfold cub. ring. Qed.
Lemma pr_bp : forall f j, pr f j = bp (fun l => fr L (j - l) (f l)) j.
Proof.
  intros f j. induction j; [reflexivity | ]. cbn [pr bp]. rewrite IHj, bp_cub. rewrite Nat.sub_diag. cbn [fr]. f_equal.
  apply bp_ext. intros l Hl. replace (S j - l)%nat with (S (j - l)) by lia. reflexivity.
Qed.
Lemma bp_shift : forall f j, bp f (S j) = f O * bp (fun l => f (S l)) j.
Proof. intros f j. induction j; [reflexivity | ]. cbn [bp] in *. rewrite IHj. ring. Qed.
Lemma bp_rev : forall j f, bp f j = bp (fun l => f (j - l)%nat) j.
Proof.
  induction j; intro f; [reflexivity | ]. rewrite bp_shift. cbn [bp]. rewrite Nat.sub_diag. rewrite (IHj (fun l => f (S l))).
  transitivity (bp (fun l => f (S (j - l))) j * f O); [ring | ]. f_equal. apply bp_ext. intros l Hl. f_equal. lia.
Qed.
Lemma pr_rev : forall f g j, (forall l, (l <= j)%nat -> fr L (j - l) (f l) = fr L l (g (j - l)%nat)) -> pr f j = pr g j.
Proof.
  intros f g j H. rewrite (pr_bp f), (pr_bp g). rewrite (bp_rev j (fun l => fr L (j - l) (g l))). apply bp_ext. intros l Hl. rewrite H by auto. f_equal. lia.
Qed.
Fixpoint em (l0 : L) (f : nat -> L) (j : nat) : L := match j with O => l0 * f O | S j' => cub L (em l0 f j') * f (S j') end.
Lemma em_pr : forall l0 f j, em l0 f j = fr L j l0 * pr f j.
Proof. intros l0 f j. induction j; cbn [em pr fr]; [auto | ]. rewrite IHj. unfold cub. ring. Qed.

(** ** The loop of the eta_T pairing *)
Variables (m k : nat).
Hypothesis Hm : m = (2 * k + 1)%nat.
Hypothesis FM : forall x : K, fr K m x = x.
Hypothesis N2 : fmul (nz K m) (nz K m) = f1.
Hypothesis MU : sg K k = if mu then nz K m else fopp (nz K m).
Hypothesis NZ : n = up (nz K m).
Hypothesis HU : if mu then U = S (3 ^ S k) else (3 ^ S k)%nat = S U.
Lemma fr_up : forall j x, fr L j (up x) = up (fr K j x).
Proof. induction j; intro x; cbn [fr]; auto. rewrite IHj, up_cub. auto. Qed.
Lemma up_nz : forall j, up (nz K j) = nz L j.
Proof. induction j; [exact u_0 | ]. rewrite (nz_S K HK), (nz_S L HL), u_add, IHj, u_1. auto. Qed.
Lemma fr_z : forall j, fr L j z = z + nz L j.
Proof.
  induction j; [cbn [fr]; rewrite (nz_0 L); ring | ]. cbn [fr]. rewrite IHj, (nz_S L HL).
  transitivity (z * z * z + cub L (nz L j)); [unfold cub; ring | ]. rewrite (nz_cub L HL D3), ZZ. ring.
Qed.
Lemma fr_i : forall j, fr L j i = sg L j * i.
Proof.
  induction j; [cbn [fr sg]; ring | ]. cbn [fr sg]. rewrite IHj. transitivity (cub L (sg L j) * (i * i) * i); [unfold cub; ring | ].
  rewrite (sg_cub L HL D3), II. ring.
Qed.
Lemma up_sg : forall j, up (sg K j) = sg L j.
Proof. induction j; [exact u_1 | ]. cbn [sg]. rewrite u_opp, IHj. auto. Qed.
Variables xp yp xq yq : K.
Definition tn (j : nat) : K := xp + f1 + (fr K (2 * j + 1) xq - nz K j).
Definition un (j : nat) : K := yp * (sg K j * fr K (2 * j + 1) yq).
Definition gn (j : nat) : L := up (un j) * i - (up (tn j) - z) * (up (tn j) - z).
Definition Vp : point K := Some (fr K k xp, fr K k yp).
Definition Sp : point K := Some (fr K (S k) xq, fr K (S k) yq).
Lemma term : forall j, (j <= k)%nat -> fr L (k - j) (gn j) = fr L j (h_at (tri K (k - j) Vp) Sp).
Proof.
  intros j Hj. assert (Hl : (j + (k - j) = k)%nat) by lia. set (l := (k - j)%nat) in *.
  set (A := fmul (cub K (sg K l * fr K (2 * l) (fr K k yp))) (fr K (S k) yq)).
  set (B := fadd (fadd (cub K (fr K (2 * l) (fr K k xp) - nz K l)) (fr K (S k) xq)) f1).
  transitivity (up (fr K l (un j)) * (sg L l * i) - (up (fr K l (tn j)) - (z + nz L l)) * (up (fr K l (tn j)) - (z + nz L l))).
  { unfold gn. rewrite !(fr_sub L HL D3), !(fr_mul L HL D3), !(fr_sub L HL D3), !fr_up, fr_z, fr_i. reflexivity. }
  transitivity (up (fr K j A) * (sg L j * i) - (up (fr K j B) - (z + nz L j)) * (up (fr K j B) - (z + nz L j))).
  2:{ unfold h_at, tri, Vp, Sp. fold A B. rewrite !(fr_sub L HL D3), !(fr_mul L HL D3), !(fr_sub L HL D3), !fr_up, fr_z, fr_i. reflexivity. }
  assert (FX : forall x, fr K j (cub K (fr K (2 * l) (fr K k x))) = fr K l x).
  { intro x. change (cub K (fr K (2 * l) (fr K k x))) with (fr K (S (2 * l)) (fr K k x)). rewrite !(fr_fr K).
    replace (j + S (2 * l) + k)%nat with (l + m)%nat by lia. rewrite <- (fr_fr K l m), FM. reflexivity. }
  assert (FQ : forall x, fr K j (fr K (S k) x) = fr K l (fr K (2 * j + 1) x)) by (intro x; rewrite !(fr_fr K); f_equal; lia).
  assert (EA : up (fr K l (un j)) * sg L l = up (fr K j A) * sg L j).
  { rewrite <- !up_sg, <- !u_mul. f_equal. unfold un, A. rewrite !(fr_mul K HK C3), (fr_sg K HK C3).
    replace (cub K (sg K l * fr K (2 * l) (fr K k yp))) with (fmul (cub K (sg K l)) (cub K (fr K (2 * l) (fr K k yp)))) by (unfold cub; ring).
    rewrite (fr_mul K HK C3), FX, FQ, (sg_cub K HK C3), (fr_sg K HK C3). ring. }
  assert (EB : up (fr K l (tn j)) - nz L l = up (fr K j B) - nz L j).
  { rewrite <- !up_nz, <- !u_sub. f_equal. unfold tn, B. rewrite !(fr_add K HK C3), (fr_sub K HK C3), (fr_1 K HK C3).
    replace (cub K (fr K (2 * l) (fr K k xp) - nz K l)) with (fsub (cub K (fr K (2 * l) (fr K k xp))) (cub K (nz K l))) by (unfold cub; ring).
    rewrite (fr_sub K HK C3), FX, FQ, (nz_cub K HK C3), !(fr_nz K HK C3), (fr_1 K HK C3). ring. }
  transitivity (up (fr K l (un j)) * sg L l * i - (up (fr K l (tn j)) - nz L l - z) * (up (fr K l (tn j)) - nz L l - z)); [ring | ].
  rewrite EA, EB. ring.
Qed.
Lemma pr_gn : onK Vp -> pr gn k = pr (fun l => h_at (mulK (3 ^ l) Vp) Sp) k.
Proof. intro H. apply pr_rev. intros l Hl. rewrite term by auto. f_equal. f_equal. symmetry. apply (tri_ok K HK C3). auto. Qed.

(** the line *)
Variable lam : L.
Hypothesis LL : lam * lam = f1.
Definition l0 : L := lam * (up yp * (up (tn 0) - z) - up (sg K 0 * fr K 1 yq) * i).
Let xv := fr K k xp. Let yv := fr K k yp. Let xs := fr K (S k) xq. Let ys := fr K (S k) yq.
Let nu := nz K m.
Lemma fr_l0 : fr L k l0 = lam * (up yv * (up (xv + xs + nu) - z) - sg L k * (up ys * i)).
Proof.
  unfold l0. assert (FL : fr L k lam = lam). { assert (Q : forall j, fr L j lam = lam) by (induction j; cbn [fr]; auto; rewrite IHj; unfold cub; rewrite LL; ring). apply Q. }
  rewrite (fr_mul L HL D3), FL. f_equal. rewrite (fr_sub L HL D3), !(fr_mul L HL D3), (fr_sub L HL D3), !fr_up, fr_z, fr_i.
  assert (E : up (fr K k (tn 0)) = up (xv + xs + nu) + nz L k).
  { rewrite <- up_nz, <- u_add. f_equal. unfold tn. change (2 * 0 + 1)%nat with 1%nat. rewrite !(fr_add K HK C3), (fr_sub K HK C3), (fr_1 K HK C3), (fr_fr K), (fr_nz K HK C3), (nz_0 K).
    replace (k + 1)%nat with (S k) by lia. unfold nu. rewrite (nz_m K HK C3 m k Hm). unfold xv, xs. ring. }
  rewrite E. assert (E' : up (fr K k (sg K 0 * fr K 1 yq)) = up ys).
  { f_equal. rewrite (fr_mul K HK C3), (fr_sg K HK C3), (fr_fr K). replace (k + 1)%nat with (S k) by lia. cbn [sg]. unfold ys. ring. }
  rewrite E'. unfold yv. ring.
Qed.
Hypothesis OV : onK Vp.
Hypothesis OS : onK Sp.
Lemma upp_eq : forall x y, upp (Some (x, y)) = Some (up x, up y). Proof. intros. cbn. do 2 f_equal; ring. Qed.
Lemma psi_eq : forall x y, psi (Some (x, y)) = Some (z - up x, i * up y). Proof. intros. cbn. do 2 f_equal; ring. Qed.
Lemma slope_eq : forall x1 y1 x y s : K, y1 - y = s * (x1 - x) -> (x1 = x -> y1 = y /\ s * y = f1) -> slope L (fopp f1) (up x1) (up y1) (up x) (up y) = up s.
Proof.
  intros x1 y1 x y s E D. unfold slope. destruct (feqb (up x1) (up x)) eqn:e0; [assert (e1 : up x1 = up x) by (apply (fl_eqb L HL); auto) | assert (e1 : up x1 <> up x) by (intro F; apply (fl_eqb L HL) in F; congruence)]; clear e0.
  - pose proof (e_inj K L HK HL up Hup _ _ e1) as ->. destruct (D eq_refl) as [-> SY].
    assert (Y : up y <> f0). { intro F. apply (f_1_neq_0 L HL). rewrite <- u_1, <- SY, u_mul, F. ring. }
    assert (SY' : up s * up y = f1) by (rewrite <- u_mul, SY; exact u_1).
    unfold f2, f3. transitivity ((up s * up y) / up y); [rewrite SY' | ]; field; repeat split; auto; try exact (m1_nz L HL D3); exact (f_1_neq_0 L HL).
  - assert (N := nzsub _ _ e1). assert (N' : up x - up x1 <> f0) by (intro F; apply N; transitivity (fopp (up x - up x1)); [ring | rewrite F; ring]).
    assert (Q : up y - up y1 = up s * (up x - up x1)) by (rewrite <- !u_sub, <- u_mul; f_equal; transitivity (fopp (y1 - y)); [ring | rewrite E; ring]).
    rewrite Q. field; repeat split; auto; try exact (m1_nz L HL D3); exact (f_1_neq_0 L HL).
Qed.
Lemma step_line : forall x1 y1 x y s x3 y3 xr (w : L), y1 - y = s * (x1 - x) -> (x1 = x -> y1 = y /\ s * y = f1) ->
  onK (Some (x1, y1)) -> onK (Some (x, y)) -> addK (Some (x1, y1)) (Some (x, y)) = Some (x3, y3) ->
  pw (step (upp (Some (x1, y1))) (upp (Some (x, y))) (Some (z - up xr, w))) = pw (w - up y - up s * (z - up xr - up x)).
Proof.
  intros x1 y1 x y s x3 y3 xr w E D O1 O2 A.
  assert (A' : add (upp (Some (x1, y1))) (upp (Some (x, y))) = Some (up x3, up y3)) by (rewrite upp_add, A by auto; apply upp_eq).
  rewrite !upp_eq in *. cbn [miller_step]. rewrite A'. rewrite (slope_eq _ _ _ _ s E D).
  destruct (vert xr x3) as [N V]. set (d := z - up xr - up x3) in *. set (M := w - up y - up s * (z - up xr - up x)).
  assert (Q : w - up y1 - up s * (z - up xr - up x1) = M).
  { unfold M. assert (Q : up y1 - up y = up s * (up x1 - up x)) by (rewrite <- !u_sub, <- u_mul; f_equal; exact E).
    transitivity (w - up y - (up y1 - up y) - up s * (z - up xr - up x1)); [ring | rewrite Q; ring]. }
  rewrite Q. transitivity (pw (M / d) * pw d); [rewrite V; ring | ]. rewrite <- pwM. f_equal. field; repeat split; auto; try exact (m1_nz L HL D3); exact (f_1_neq_0 L HL).
Qed.
Lemma pw_unit : forall c x : L, c * c = f1 -> pw (c * x) = pw x.
Proof. intros c x H. rewrite pwM, (KILL4 c). ring. rewrite H. ring. Qed.
Lemma nu_L : up nu * up nu = f1. Proof. rewrite <- u_mul. unfold nu. rewrite N2. exact u_1. Qed.
Lemma line_ok : pw (fr L k l0) * pw (mil (3 ^ S k) (upp Vp) (psi Sp)) = pw (mil U (upp Vp) (psi Sp)).
Proof.
  assert (EV := on_eq K HK C3 _ _ OV). fold xv yv in EV. assert (NN2 : fmul nu nu = f1) by exact N2.
  assert (TOn := mulK_on (3 ^ S k) Vp OV). assert (UOn := mulK_on U Vp OV).
  pose proof (T_ok K HK C3 m k Hm FM _ _ OV) as TO. fold xv yv in TO.
  pose proof (U_ok K HK C3 m k mu Hm FM N2 MU U HU Vp OV) as UO. unfold qmul, Vp in UO. fold xv yv nu in UO.
  assert (NK : nz K (S k) = fopp f1 - nu) by (rewrite (nz_S K HK); unfold nu; rewrite (nz_m K HK C3 m k Hm); ring).
  rewrite NK in TO. rewrite fr_l0. change Vp with (Some (xv, yv)) in *. change Sp with (Some (xs, ys)) in *. rewrite <- up_sg. pose proof nu_L as NL.
  assert (XT : cub K xv - (fopp f1 - nu) = xv + yv * yv + nu) by (unfold cub; rewrite EV; ring).
  rewrite XT in TO. clear XT NK.
  destruct mu.
  - subst U. rewrite MU in *. fold nu in TO |- *. rewrite TO in TOn.
    assert (YT : fopp nu * cub K yv - yv = fopp nu * yv * (xv + yv * yv + nu - xv)) by (unfold cub; transitivity (fopp nu * (yv * yv * yv) - (nu * nu) * yv); [rewrite NN2; ring | ring]).
    assert (DG : xv + yv * yv + nu = xv -> fopp nu * cub K yv = yv /\ fopp nu * yv * yv = f1).
    { intro F. assert (Y2 : yv * yv = fopp nu) by (transitivity (xv + yv * yv + nu - xv - nu); [ring | rewrite F; ring]).
      assert (SY : fopp nu * yv * yv = f1) by (transitivity (fopp nu * (yv * yv)); [ring | rewrite Y2, <- NN2; ring]).
      split; [ | exact SY]. unfold cub. transitivity (fopp nu * yv * yv * yv); [ring | rewrite SY; ring]. }
    cbn [miller]. rewrite mul_upp, TO by auto. rewrite (pwM (mil _ _ _)).
    transitivity (pw (mil (3 ^ S k) (upp (Some (xv, yv))) (psi (Some (xs, ys)))) * pw (lam * (up yv * (up (xv + xs + nu) - z) - up nu * (up ys * i)))); [ring | ]. f_equal.
    rewrite psi_eq. cbn [pmul pneg] in UO.
    rewrite (step_line _ _ _ _ (fopp nu * yv) (xv - nu) (fopp (fopp yv)) xs (i * up ys) YT DG TOn OV).
    2:{ rewrite <- TO, (add_comm K HK). exact UO. }
    set (NUM := i * up ys - up yv - up (fopp nu * yv) * (z - up xs - up xv)).
    assert (Q : lam * (up yv * (up (xv + xs + nu) - z) - up nu * (up ys * i)) = fopp (lam * up nu) * NUM).
    { unfold NUM. rewrite !u_mul, !u_add, u_opp.
      transitivity (lam * ((up nu * up nu) * (up yv * (up xv + up xs - z)) + up nu * up yv - up nu * (up ys * i))); [rewrite NL; ring | ring]. }
    rewrite Q. apply pw_unit. transitivity ((lam * lam) * (up nu * up nu)); [ring | rewrite LL, NL; ring].
  - rewrite MU in *. fold nu in TO |- *. rewrite HU in TO, TOn |- *. rewrite UO in UOn.
    assert (YT : fopp yv - yv = fopp nu * yv * (xv - nu - xv)) by (transitivity ((nu * nu) * yv); [rewrite NN2; ring | ring]).
    assert (DG : xv - nu = xv -> fopp yv = yv /\ fopp nu * yv * yv = f1).
    { intro F. exfalso. apply (f_1_neq_0 K HK). rewrite <- NN2. assert (Z0 : nu = f0) by (transitivity (xv - (xv - nu)); [ring | rewrite F; ring]). rewrite Z0. ring. }
    cbn [miller]. rewrite mul_upp, UO by auto. rewrite (pwM (mil _ _ _)). cbn [pmul] in TO. rewrite UO, (add_comm K HK) in TO.
    set (R := psi (Some (xs, ys))).
    assert (NK2 : pw (step (upp (Some (xv - nu, fopp yv))) (upp (Some (xv, yv))) R) * pw (step (upp (Some (xv - nu, fopp yv))) (upp (Some (xv, yv))) (pneg R)) = f1).
    { assert (OR : forall V, onK V -> offx (upp V) R) by (intros V HV; unfold R; apply O12; auto using g1, g2; discriminate).
      apply norm_kill; try (rewrite upp_add by auto); auto using x3_up, x3_psi, upp_on, psi_on, addK_on; unfold R; auto using x3_psi, psi_on. }
    transitivity (pw (mil U (upp (Some (xv, yv))) R) * (pw (step (upp (Some (xv - nu, fopp yv))) (upp (Some (xv, yv))) R) * pw (lam * (up yv * (up (xv + xs + nu) - z) - up (fopp nu) * (up ys * i))))); [ring | ].
    transitivity (pw (mil U (upp (Some (xv, yv))) R) * f1); [f_equal | ring]. refine (eq_trans _ NK2). f_equal.
    unfold R. rewrite psi_eq. cbn [pneg].
    rewrite (step_line _ _ _ _ (fopp nu * yv) _ _ xs (fopp (i * up ys)) YT DG UOn OV TO).
    set (NUM := fopp (i * up ys) - up yv - up (fopp nu * yv) * (z - up xs - up xv)).
    assert (Q : lam * (up yv * (up (xv + xs + nu) - z) - up (fopp nu) * (up ys * i)) = fopp (lam * up nu) * NUM).
    { unfold NUM. rewrite !u_mul, !u_add, u_opp.
      transitivity (lam * ((up nu * up nu) * (up yv * (up xv + up xs - z)) + up nu * up yv + up nu * (up ys * i))); [rewrite NL; ring | ring]. }
    rewrite Q. apply pw_unit. transitivity ((lam * lam) * (up nu * up nu)); [ring | rewrite LL, NL; ring].
Qed.
(** The loop of the eta_T pairing, reduced, is the reduced Miller function. *)
Theorem em_val : pw (em l0 gn k) = val Vp Sp.
Proof. rewrite em_pr, pwM, pr_gn, chain by auto. apply line_ok. Qed.
End S.
