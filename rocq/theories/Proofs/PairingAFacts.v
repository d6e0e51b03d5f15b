(** The Miller methods of type A compute the reduced Tate pairing. *)
From Coq Require Import ZArith List Bool Lia Ring Field Znumtheory.
From Verif.Base Require Import Outcome Array Algebra Slots Gmp.
From Verif.Spec Require Import Curve Tate Quadratic Twist FiniteField PairingValue.
From Verif.Model Require Import Curve Lucas Pairing PairingA.
From Verif.Proofs Require Import PowFacts FieldFacts SlotFacts QuadFacts CurveGroup CurveFacts LineAlgebra TateFacts Bilinear Embed Frobenius
  Twisted LucasFacts FieldChar ArrayFacts CurveBatch PairingABatch.
Import ListNotations.

(** lines computed by the code *)
Section Lines.
Variable K : fld.
Hypothesis HK : fld_laws K.
Hypothesis C2 : f2 K <> f0.
Add Field KFal : (fl_field K HK).
Local Notation "0" := f0. Local Notation "1" := f1.
Local Notation "x + y" := (fadd x y). Local Notation "x - y" := (fsub x y). Local Notation "x * y" := (fmul x y). Local Notation "- x" := (fopp x).
Local Notation "x / y" := (fdiv x y).
Lemma tangent_line : forall x y, y <> 0 -> is_line K f1 (Some (x, y)) (Some (x, y)) (compute_abc_tangent K x y).
Proof.
  intros x y N. unfold is_line, compute_abc_tangent, slope. rewrite (feqb_refl K HK).
  assert (E : y + y = f2 K * y) by (unfold f2; ring). assert (N2 : f2 K * y <> 0) by (apply (f_mul_nz K HK); auto).
  rewrite E. set (t := f2 K * y) in *. unfold f3. split; [auto | ]. split; field; auto.
Qed.
Lemma proj_line : forall X Y z, z <> 0 -> Y <> 0 ->
  let P := Some (X / (z * z), Y / (z * z * z)) in is_line K f1 P P (compute_abc_tangent_proj K X Y z (z * z)).
Proof.
  intros X Y z Nz N. cbv zeta. unfold is_line, compute_abc_tangent_proj, slope. rewrite (feqb_refl K HK). cbv zeta.
  assert (E : Y + Y = f2 K * Y) by (unfold f2; ring). assert (N2 : f2 K * Y <> 0) by (apply (f_mul_nz K HK); auto).
  rewrite E. assert (E2 : f2 K * (Y / (z * z * z)) = (f2 K * Y) / (z * z * z)) by (field; auto). rewrite E2. set (t := f2 K * Y) in *. unfold f3.
  split; [repeat apply (f_mul_nz K HK); auto | ]. split; field; repeat split; auto.
Qed.
Lemma chord_line : forall x1 y1 x2 y2, x1 <> x2 -> is_line K f1 (Some (x1, y1)) (Some (x2, y2)) (compute_abc_line K x1 y1 x2 y2).
Proof.
  intros x1 y1 x2 y2 N. unfold is_line, compute_abc_line, slope. rewrite (feqb_false K HK) by auto.
  assert (N2 : x2 - x1 <> 0) by (intro E; apply N; symmetry; apply (f_sub_0 K HK); auto).
  split; auto. split; field; auto.
Qed.
(* Jacobian doubling *)
Definition affine (v : jac K) : point K := let '(X, Y, z, _) := v in Some (X / (z * z), Y / (z * z * z)).
Definition jac_ok (v : jac K) : Prop := let '(_, _, z, z2) := v in z <> 0 /\ z2 = z * z.
Lemma proj_double_ok : forall v, jac_ok v -> (let '(_, Y, _, _) := v in Y <> 0) ->
  jac_ok (proj_double K v) /\ affine (proj_double K v) = padd K f1 (affine v) (affine v).
Proof.
  intros [[[X Y] z] z2] (Nz & ->) NY. unfold proj_double. cbv zeta.
  assert (E : Y * z + Y * z = f2 K * Y * z) by (unfold f2; ring). assert (N2 : f2 K * Y * z <> 0) by (repeat apply (f_mul_nz K HK); auto).
  split; [split; [rewrite E; auto | auto] | ].
  unfold affine. cbn [padd]. rewrite !(feqb_refl K HK). cbn [negb andb].
  assert (NY3 : Y / (z * z * z) <> 0).
  { intro F. apply NY. transitivity (Y / (z * z * z) * (z * z * z)); [field; auto | ]. rewrite F. ring. }
  rewrite (feqb_false K HK) by auto. cbn [negb]. unfold third. rewrite E. unfold f3. unfold f2 in *.
  f_equal. f_equal; field; repeat split; auto.
Qed.
End Lines.

Section A.
Variable K : fld.
Hypothesis HK : fld_laws K.
Add Field KFa : (fl_field K HK).
Variable q : Z.
Hypothesis Pq : prime q.
Hypothesis Q4 : (q mod 4 = 3)%Z.
Hypothesis Hq : has_order K q.
Variables r h : Z.
Hypothesis Pr : prime r.
Hypothesis R5 : (5 < r)%Z.
Hypothesis RH : (r * h = q + 1)%Z.
Local Notation "0" := f0. Local Notation "1" := f1.
Local Notation "x + y" := (fadd x y). Local Notation "x - y" := (fsub x y). Local Notation "x * y" := (fmul x y). Local Notation "- x" := (fopp x).
Local Notation "x / y" := (fdiv x y).
Local Notation v := (fopp f1 : K).
Local Notation L := (Quad K v).
Lemma h_pos : (0 < h)%Z. Proof. pose proof (prime_ge_2 q Pq). nia. Qed.
Lemma q_big : (3 < q)%Z. Proof. pose proof h_pos. nia. Qed.
Lemma r_odd : Z.odd r = true.
Proof.
  destruct (Z.odd r) eqn:E; auto. exfalso. rewrite <- Z.negb_even in E. apply negb_false_iff in E. apply Z.even_spec in E. destruct E as [c E].
  destruct (prime_divisors r Pr 2) as [D | [D | [D | D]]]; try lia. exists c. lia.
Qed.
Lemma h_even : Z.even h = true.
Proof.
  assert (E : Z.even (r * h) = true).
  { rewrite RH. rewrite (Z.div_mod q 4) by lia. rewrite Q4. replace (4 * (q / 4) + 3 + 1)%Z with (2 * (2 * (q / 4) + 2))%Z by lia. apply Z.even_spec. exists (2 * (q / 4) + 2)%Z. lia. }
  rewrite Z.even_mul in E. apply orb_prop in E. destruct E as [E | E]; auto. rewrite <- Z.negb_odd, r_odd in E. discriminate.
Qed.
Lemma vns : ~ is_square v. Proof. apply (minus_one_nonsquare K HK q); auto. Qed.
Let HL : fld_laws L := Quad_laws K HK v vns.
Add Field LFa : (fl_field L HL).
Lemma c2 : f2 K <> 0. Proof. pose proof q_big. apply (f2_nz K HK q); auto. lia. Qed.
Lemma ellK : elliptic K f1 f0.
Proof.
  pose proof q_big. split; [apply c2 | ].
  replace (f2 K * f2 K * (f1 * f1 * f1) + f3 K * f3 K * f3 K * (f0 * f0)) with (f2 K * f2 K) by ring. apply (f_mul_nz K HK); apply c2.
Qed.
Definition idh (x : K) : K := x.
Lemma idE : embedding K K idh. Proof. split; reflexivity. Qed.
Local Notation sim := (sim K v).
Local Notation up' := (epoint (up K K idh v)).
Local Notation onK := (on_curve K f1 f0).
Local Notation mul := (pmul K f1).
Local Notation G2 := (G2 K K idh v f1 f0).
Lemma tw1 : (idh f1 * v * v : K) = f1. Proof. unfold idh. ring. Qed.
Lemma tw0 : (idh f0 * v * v * v : K) = f0. Proof. unfold idh. ring. Qed.
Lemma twist_in : forall Q, onK Q -> G2 (twist K v Q).
Proof. intros Q H. apply (twist_G2 K K HK idh v vns f1 f0). rewrite tw1, tw0. auto. Qed.
Lemma r_pos : (0 < r)%Z. Proof. lia. Qed.

Variables (e2 e1 s1 s0 : Z).
Hypothesis E12 : (0 <= e1 < e2)%Z.
Hypothesis S1 : s1 = 1%Z \/ s1 = (-1)%Z.
Hypothesis S0 : s0 = 1%Z \/ s0 = (-1)%Z.
Hypothesis RE : (r = 2 ^ e2 + s1 * 2 ^ e1 + s0)%Z.
Variable j : K.
Local Notation info := {| exp2 := e2; exp1 := e1; sign1 := s1; phikonr := h |}.
Local Notation N1 := (Z.to_nat e1).
Local Notation N2 := (Z.to_nat (e2 - e1)).
Lemma n1_eq : n1 info = N1. Proof. reflexivity. Qed.
Lemma n2_eq : n2 info = N2. Proof. unfold n2. cbn [exp2 exp1]. rewrite Z.max_r by lia. reflexivity. Qed.
Lemma pow2_coprime : forall n, Z.gcd (Z.of_nat (2 ^ n)) r = 1%Z.
Proof.
  intros n. apply Zgcd_1_rel_prime.
  assert (R2 : rel_prime 2 r).
  { apply prime_rel_prime; [exact prime_2 | ]. intros (c & E). pose proof r_odd as O. rewrite E, Z.mul_comm in O. rewrite Z.odd_mul in O. discriminate. }
  induction n; [apply rel_prime_1 | ]. change (2 ^ S n)%nat with (2 * 2 ^ n)%nat. rewrite Nat2Z.inj_mul.
  apply rel_prime_sym. apply rel_prime_mult; apply rel_prime_sym; auto.
Qed.
Lemma e1_pos : (1 <= e1)%Z.
Proof.
  destruct (Z.eq_dec e1 0) as [E | N]; [exfalso | lia]. pose proof r_odd as O. rewrite RE, E in O.
  assert (Ev : Z.even (2 ^ e2) = true) by (rewrite <- (Z.succ_pred e2), Z.pow_succ_r by lia; rewrite Z.even_mul; reflexivity).
  rewrite !Z.odd_add, <- Z.negb_even, Ev in O. destruct S1 as [-> | ->], S0 as [-> | ->]; cbn in O; discriminate.
Qed.
(* the two points on the last line have different abscissae *)
Lemma last_distinct : ~ (r | 2 ^ e2 - s1 * 2 ^ e1)%Z.
Proof.
  pose proof e1_pos as E1. intros (c & D).
  assert (P1 : (2 <= 2 ^ e1)%Z) by (replace 2%Z with (2 ^ 1)%Z at 1 by reflexivity; apply Z.pow_le_mono_r; lia).
  assert (P2 : (2 ^ e2 = 2 ^ e1 * 2 ^ (e2 - e1))%Z) by (rewrite <- Z.pow_add_r by lia; f_equal; lia).
  assert (P3 : (2 <= 2 ^ (e2 - e1))%Z) by (replace 2%Z with (2 ^ 1)%Z at 1 by reflexivity; apply Z.pow_le_mono_r; lia).
  set (A := (2 ^ e1)%Z) in *. set (B := (2 ^ (e2 - e1))%Z) in *. rewrite P2 in *.
  assert (0 < A * B - s1 * A)%Z by (destruct S1 as [-> | ->]; nia).
  assert (1 <= c)%Z by nia.
  destruct S1 as [-> | ->].
  - assert (r <= A * B - A)%Z by nia. destruct S0 as [-> | ->]; nia.
  - (* r = A(B-1) + s0 divides A(B+1) *)
    destruct (Z.eq_dec B 2) as [B2 | NB].
    + rewrite B2 in *. assert (c * r = 3 * r - 3 * s0)%Z by nia.
      assert (D3 : (r | 3)%Z). { destruct S0 as [-> | ->]; [exists (3 - c)%Z | exists (c - 3)%Z]; lia. }
      apply Z.divide_pos_le in D3; lia.
    + assert (B4 : (4 <= B)%Z).
      { unfold B in *. assert (e2 - e1 <> 1)%Z by (intro F; apply NB; rewrite F; reflexivity). replace 4%Z with (2 ^ 2)%Z by reflexivity. apply Z.pow_le_mono_r; lia. }
      assert (HC : (c * r = r + 2 * A - s0)%Z) by nia.
      assert (S0' : (-1 <= s0 <= 1)%Z) by (destruct S0; lia).
      assert (C3 : (2 <= c)%Z). { destruct (Z.eq_dec c 1) as [C1 | C1]; [ | lia]. rewrite C1, Z.mul_1_l in HC. lia. }
      assert (AB4 : (A * 4 <= A * B)%Z) by (apply Z.mul_le_mono_nonneg_l; lia).
      assert (CR : (2 * r <= c * r)%Z) by (apply Z.mul_le_mono_nonneg_r; lia).
      assert (r <= 2 * A - s0)%Z by lia.
      assert (r >= 3 * A + s0)%Z by lia.
      assert (A <= 2)%Z by (destruct S0 as [-> | ->]; lia). assert (A = 2)%Z by lia. destruct S0 as [-> | ->]; lia.
Qed.

Section PQ.
Variable P : point K.
Hypothesis OP : onK P.
Hypothesis NP : P <> None.
Hypothesis TP : pzmul K f1 r P = None.
Lemma pz_nat : forall n, pzmul K f1 (Z.of_nat n) P = mul n P.
Proof. intros [ | n]; [reflexivity | ]. cbn [Z.of_nat pzmul]. rewrite SuccNat2Pos.id_succ. reflexivity. Qed.
Lemma mul_finite : forall k, Z.gcd (Z.of_nat k) r = 1%Z -> mul k P <> None.
Proof. intros k G. rewrite <- pz_nat. apply (coprime_finite K HK f1 f0 ellK r r_pos P OP TP); auto. lia. Qed.
Lemma mul_on' : forall k, onK (mul k P). Proof. intros. apply (pmul_on K HK f1 f0 c2). auto. Qed.
Lemma mul_plus' : forall m n, mul (m + n)%nat P = padd K f1 (mul m P) (mul n P).
Proof. intros. apply (Twisted.mul_plus K K HK HK idh idE v vns f1 f0 ellK r r_pos r_odd P OP TP). Qed.
Lemma r_finite : forall k, (0 < k < r)%Z -> pzmul K f1 k P <> None.
Proof.
  intros k Hk. apply (coprime_finite K HK f1 f0 ellK r r_pos P OP TP); auto; try lia.
  apply Zgcd_1_rel_prime. apply rel_prime_sym. apply prime_rel_prime; auto. intros D. apply Z.divide_pos_le in D; lia.
Qed.
Lemma not_div_finite : forall k, (0 <= k)%Z -> ~ (r | k)%Z -> pzmul K f1 k P <> None.
Proof.
  intros k Hk ND. apply (coprime_finite K HK f1 f0 ellK r r_pos P OP TP); auto; try lia.
  apply Zgcd_1_rel_prime. apply rel_prime_sym. apply prime_rel_prime; auto.
Qed.
(* doubling a power-of-two multiple *)
Lemma double_pow : forall k x y, mul k P = Some (x, y) -> mul (2 * k)%nat P <> None -> y <> 0.
Proof.
  intros k x y E N Y. apply N. replace (2 * k)%nat with (k + k)%nat by lia. rewrite mul_plus', E. rewrite Y. cbn [padd]. rewrite !(feqb_refl K HK). reflexivity.
Qed.

Variables Qx Qy : K.
Hypothesis OQ : onK (Some (Qx, Qy)).
Local Notation X := (Qx / v).
Local Notation Y := (Qy / (v * v)).
Local Notation R := (Some (((X, 0) : L), ((0, Y) : L))).
Lemma GR : G2 R. Proof. apply (twist_in (Some (Qx, Qy)) OQ). Qed.
Local Notation mil n := (miller L (up K K idh v f1) n (up' P) R).
Local Notation ev abc := (a_miller_evalfn K abc Qx Qy).
Lemma ev_line : forall ca cb cc, ev (ca, cb, cc) = lineval K K idh v ca cb cc X Y.
Proof.
  intros. assert (v <> 0) by (apply (f_opp_nz K HK); apply (f_1_neq_0 K HK)). assert (O : (1 : K) <> 0) by (apply (f_1_neq_0 K HK)).
  unfold a_miller_evalfn, lineval, idh. f_equal; field; repeat split; auto.
Qed.
Lemma tan_step : forall f k V abc, sim f (mil k) -> V = mul k P -> is_line K f1 V V abc -> mul (2 * k)%nat P <> None ->
  sim (fmul (fmul f f) (ev abc)) (mil (2 * k)%nat).
Proof.
  intros f k V [[ca cb] cc] F -> IL N. rewrite ev_line. replace (2 * k)%nat with (k + k)%nat in * by lia.
  apply (mil_line K K HK HK idh idE v vns f1 f0 ellK r r_pos r_odd P OP TP X Y GR); auto.
Qed.
Lemma pow2_finite : forall n, mul (2 ^ n)%nat P <> None. Proof. intros. apply mul_finite. apply pow2_coprime. Qed.
Lemma affine_loop_ok : forall n i f V, sim f (mil (2 ^ i)%nat) -> V = mul (2 ^ i)%nat P ->
  exists f', affine_loop K n Qx Qy f V = Ok (f', mul (2 ^ (i + n))%nat P) /\ sim f' (mil (2 ^ (i + n))%nat).
Proof.
  induction n; intros i f V F EV; cbn [affine_loop].
  - exists f. replace (i + 0)%nat with i by lia. subst V. auto.
  - destruct V as [[x y] | ] eqn:E; [ | exfalso; apply (pow2_finite i); auto]. cbn [coords bind].
    assert (N2 : mul (2 * 2 ^ i)%nat P <> None) by (change (2 * 2 ^ i)%nat with (2 ^ S i)%nat; apply pow2_finite).
    assert (NY : y <> 0) by (apply (double_pow (2 ^ i)%nat x y); auto).
    rewrite (double_value_ok K HK f1 c2), (mul_value_ok K HK f1 c2). cbn [bind].
    replace (i + S n)%nat with (S i + n)%nat by lia. apply IHn.
    + change (2 ^ S i)%nat with (2 * 2 ^ i)%nat. apply (tan_step f (2 ^ i)%nat (Some (x, y))); auto. apply tangent_line; auto. apply c2.
    + change (2 ^ S i)%nat with (2 * 2 ^ i)%nat. replace (2 * 2 ^ i)%nat with (2 ^ i + 2 ^ i)%nat by lia. rewrite mul_plus', <- EV. reflexivity.
Qed.
Lemma proj_loop_ok : forall n i f w, jac_ok K w -> sim f (mil (2 ^ i)%nat) -> affine K w = mul (2 ^ i)%nat P ->
  exists f' w', proj_loop K n Qx Qy f w = (f', w') /\ jac_ok K w' /\ affine K w' = mul (2 ^ (i + n))%nat P /\ sim f' (mil (2 ^ (i + n))%nat).
Proof.
  induction n; intros i f w J F EV; cbn [proj_loop].
  - exists f, w. replace (i + 0)%nat with i by lia. auto.
  - assert (N2 : mul (2 * 2 ^ i)%nat P <> None) by (change (2 * 2 ^ i)%nat with (2 ^ S i)%nat; apply pow2_finite).
    destruct w as [[[x y] z] z2] eqn:W. assert (J' := J). destruct J' as (Nz & Ez).
    assert (NY : y <> 0).
    { intro Z. apply (double_pow (2 ^ i)%nat (x / (z * z)) (y / (z * z * z))); auto. rewrite Z. field. auto. }
    destruct (proj_double_ok K HK c2 (x, y, z, z2) J NY) as (J2 & A2).
    replace (i + S n)%nat with (S i + n)%nat by lia. apply IHn; auto.
    + change (2 ^ S i)%nat with (2 * 2 ^ i)%nat. apply (tan_step f (2 ^ i)%nat (affine K (x, y, z, z2))); auto. rewrite Ez. apply (proj_line K HK c2 x y z); auto.
    + rewrite A2, EV. change (2 ^ S i)%nat with (2 * 2 ^ i)%nat. replace (2 * 2 ^ i)%nat with (2 ^ i + 2 ^ i)%nat by lia. rewrite mul_plus'. reflexivity.
Qed.
Lemma to_affine : forall w, jac_ok K w -> exists x y, point_to_affine K w = Ok (x, y, 1, 1) /\ affine K w = Some (x, y) /\ affine K (x, y, 1, 1) = Some (x, y).
Proof.
  intros [[[x y] z] z2] (Nz & ->). unfold point_to_affine. rewrite (finvert_ok K HK) by auto. cbn [bind].
  eexists. eexists. split; [reflexivity | ]. split; cbn [affine]; f_equal; f_equal; field; auto. all: split; auto; apply (f_1_neq_0 K HK).
Qed.
Lemma jac1 : forall x y : K, jac_ok K (x, y, 1, 1).
Proof. intros. split; [apply (f_1_neq_0 K HK) | ring]. Qed.

Local Notation A := (Z.to_nat e1).
Local Notation B := (Z.to_nat e2).
Local Notation V := (mul (2 ^ B)%nat P).
Local Notation W := (mul (2 ^ A)%nat P).
Lemma AB : (A + N2 = B)%nat. Proof. lia. Qed.
Lemma zA : Z.of_nat (2 ^ A) = (2 ^ e1)%Z. Proof. rewrite Nat2Z.inj_pow, Z2Nat.id by lia. reflexivity. Qed.
Lemma zB : Z.of_nat (2 ^ B) = (2 ^ e2)%Z. Proof. rewrite Nat2Z.inj_pow, Z2Nat.id by lia. reflexivity. Qed.
(* the exponent reached after the last line *)
Definition last : nat := Z.to_nat (r - s0).
Lemma A_lt_B : (2 ^ A < 2 ^ B)%nat. Proof. apply Nat.pow_lt_mono_r; lia. Qed.
Lemma last_pos : (0 < last)%nat. Proof. unfold last. destruct S0 as [-> | ->]; lia. Qed.
Lemma last_finite : mul last P <> None.
Proof.
  rewrite <- pz_nat. apply not_div_finite; [lia | ]. unfold last. rewrite Z2Nat.id by (destruct S0 as [-> | ->]; lia).
  intros (c & D). assert (DD : (r | s0)%Z) by (exists (1 - c)%Z; lia). apply Zdivide_bounds in DD; [ | destruct S0; lia]. destruct S0 as [-> | ->]; cbn in DD; lia.
Qed.
Lemma distinct_x : forall x1 y1 x2 y2, V = Some (x1, y1) -> W = Some (x2, y2) -> x1 <> x2.
Proof.
  intros x1 y1 x2 y2 EV EW E. assert (ON1 := mul_on' (2 ^ B)%nat). assert (ON2 := mul_on' (2 ^ A)%nat). rewrite EV in ON1. rewrite EW in ON2.
  subst x2. pose proof A_lt_B as LT. pose proof zA as ZA. pose proof zB as ZB.
  assert (SUM : padd K f1 V W = mul (2 ^ B + 2 ^ A)%nat P) by (rewrite <- mul_plus'; reflexivity).
  assert (DIF : padd K f1 (mul (2 ^ B - 2 ^ A)%nat P) W = V) by (rewrite <- mul_plus'; f_equal; lia).
  assert (NS : mul (2 ^ B + 2 ^ A)%nat P <> None).
  { rewrite <- pz_nat. rewrite Nat2Z.inj_add, ZA, ZB. destruct S1 as [E1 | E1].
    - replace (2 ^ e2 + 2 ^ e1)%Z with (Z.of_nat last) by (unfold last; rewrite Z2Nat.id by (destruct S0; lia); rewrite RE, E1; lia). rewrite pz_nat. apply last_finite.
    - apply not_div_finite; [nia | ]. intros D. apply last_distinct. rewrite E1. replace (2 ^ e2 - -1 * 2 ^ e1)%Z with (2 ^ e2 + 2 ^ e1)%Z by lia. auto. }
  assert (ND : mul (2 ^ B - 2 ^ A)%nat P <> None).
  { rewrite <- pz_nat. rewrite Nat2Z.inj_sub, ZA, ZB by lia. destruct S1 as [E1 | E1].
    - apply not_div_finite; [lia | ]. intros D. apply last_distinct. rewrite E1, Z.mul_1_l. auto.
    - replace (2 ^ e2 - 2 ^ e1)%Z with (Z.of_nat last) by (unfold last; rewrite Z2Nat.id by (destruct S0; lia); rewrite RE, E1; lia). rewrite pz_nat. apply last_finite. }
  destruct (same_x K HK f1 f0 x1 y1 y2 ON1 ON2) as [EY | EY].
  - (* equal points *)
    subst y2. apply ND. rewrite EV, EW in DIF.
    assert (CR : padd K f1 (padd K f1 (mul (2 ^ B - 2 ^ A)%nat P) (Some (x1, y1))) (pneg (Some (x1, y1))) = mul (2 ^ B - 2 ^ A)%nat P).
    { rewrite (add_assoc K HK f1 f0 c2 (proj2 ellK)), (add_neg_r K HK f1 c2), (add_0_r K f1); auto using mul_on'.
      apply (neg_on K HK f1 f0). auto. }
    rewrite <- CR, DIF. apply (add_neg_r K HK f1 c2).
  - apply NS. rewrite <- SUM, EV, EW, EY. apply (add_neg_r K HK f1 c2 (Some (x1, y1))) || (change (Some (x1, fopp y2)) with (pneg (Some (x1, y2))); rewrite (add_comm K HK f1); apply (add_neg_r K HK f1 c2)).
Qed.

Lemma line_last : forall f g x1 y1 x2 y2, sim f (mil (2 ^ B)%nat) -> sim g (mil (2 ^ A)%nat) ->
  V = Some (x1, y1) -> W = Some (x2, y2) ->
  exists g', invert_or_same K info g = Ok g' /\
  sim (fmul (fmul f g') (let '(x2, y2) := (if (s1 <? 0)%Z then (x2, fopp y2) else (x2, y2)) in ev (compute_abc_line K x1 y1 x2 y2))) (mil last).
Proof.
  intros f g x1 y1 x2 y2 F G EV EW. pose proof (distinct_x _ _ _ _ EV EW) as DX. pose proof zA as ZA. pose proof zB as ZB. pose proof A_lt_B as LT.
  unfold invert_or_same. cbn [sign1]. destruct S1 as [E1 | E1]; rewrite E1; cbn [Z.ltb Z.compare].
  - exists g. split; auto. destruct (compute_abc_line K x1 y1 x2 y2) as [[ca cb] cc] eqn:C. rewrite ev_line.
    assert (EL : last = (2 ^ B + 2 ^ A)%nat) by (unfold last; rewrite RE, E1; lia).
    pose proof last_finite as LF. rewrite EL in *. apply (mil_line K K HK HK idh idE v vns f1 f0 ellK r r_pos r_odd P OP TP X Y GR); auto.
    rewrite EV, EW, <- C. apply chord_line; auto.
  - assert (NG : g <> 0) by (apply (sim_nz K HK v vns _ _ G); apply (mil_nz' K K HK HK idh idE v vns f1 f0 ellK r r_pos r_odd P OP TP X Y GR)).
    rewrite (finvert_ok L HL) by auto. exists (finv g). split; auto.
    destruct (compute_abc_line K x1 y1 x2 (fopp y2)) as [[ca cb] cc] eqn:C. rewrite ev_line.
    assert (EL : (2 ^ B = last + 2 ^ A)%nat) by (unfold last; rewrite RE, E1; lia).
    apply (mil_minus K K HK HK idh idE v vns f1 f0 ellK r r_pos r_odd P OP TP X Y GR f g last (2 ^ A)%nat); auto.
    + rewrite <- EL. auto.
    + apply last_finite.
    + apply pow2_finite.
    + rewrite <- EL, EV, EW, <- C. apply chord_line; auto.
Qed.
Lemma last_r : sim (mil last) (mil (Z.to_nat r)).
Proof.
  destruct S0 as [E | E].
  - apply (sim_sym K HK v vns). replace (mil last) with (fmul (mil last) (f1 : L)) by ring.
    assert (ER : Z.to_nat r = (last + 1)%nat) by (unfold last; rewrite E; lia). rewrite ER.
    apply (sim_sym K HK v vns). apply (mil_vertical K K HK HK idh idE v vns f1 f0 ellK r r_pos r_odd P OP TP X Y GR).
    + apply (sim_refl K HK v vns).
    + apply (mil_one K K HK idh v vns f1 P X Y).
    + rewrite <- ER. rewrite <- pz_nat, Z2Nat.id by lia. auto.
  - assert (EL : last = S (Z.to_nat r)) by (unfold last; rewrite E; lia). rewrite EL.
    assert (EM : mil (S (Z.to_nat r)) = mil (Z.to_nat r)) by (apply (mil_r1 K K HK HK idh idE v vns f1 f0 ellK r r_pos r_odd P TP X Y)). rewrite EM. apply (sim_refl K HK v vns).
Qed.
Lemma exp_eq : ((q * q - 1) / r = (q - 1) * h)%Z.
Proof. replace (q * q - 1)%Z with ((q - 1) * h * r)%Z by nia. apply Z.div_mul. lia. Qed.
Lemma tateexp_value : forall f, sim f (mil last) -> tateexp K (Ok j) info f = Ok (type_a_value K q r P (Some (Qx, Qy))).
Proof.
  intros f F. pose proof q_big as QB. assert (F' := sim_trans K HK v vns _ _ _ F last_r).
  assert (NF : f <> (f0 : L)) by (apply (sim_nz K HK v vns _ _ F'); apply (mil_nz' K K HK HK idh idE v vns f1 f0 ellK r r_pos r_odd P OP TP X Y GR)).
  unfold tateexp. cbn [phikonr]. assert (Hq1 : has_order K (q ^ 1)) by (rewrite Z.pow_1_r; auto).
  rewrite (tateexp_correct K HK q 1 Pq ltac:(lia) ltac:(lia) Hq1 v vns f j h c2 NF h_pos h_even). f_equal.
  destruct F' as (c & NC & ->). pose proof h_pos. rewrite (low_killed K HK q 1 Pq ltac:(lia) ltac:(lia) Hq1 v vns) by (auto; lia).
  unfold type_a_value, tate. rewrite exp_eq, Z.pow_1_r. reflexivity.
Qed.
Lemma start : sim 1 (mil (2 ^ 0)%nat). Proof. apply (mil_one K K HK idh v vns f1 P X Y). Qed.
Lemma startP : P = mul (2 ^ 0)%nat P. Proof. cbn [Nat.pow pmul]. rewrite (add_0_r K f1). reflexivity. Qed.

Theorem affine_correct : a_pairing_affine K (Ok j) info P (Some (Qx, Qy)) = Ok (type_a_value K q r P (Some (Qx, Qy))).
Proof.
  unfold a_pairing_affine. change (@f1 (Fq2 K)) with (@f1 L). cbn [coords bind]. rewrite n1_eq, n2_eq.
  destruct (affine_loop_ok N1 0 1 P start startP) as (g & -> & G). cbn [bind]. change (0 + A)%nat with A in *.
  destruct W as [[x2 y2] | ] eqn:EW; [ | destruct (pow2_finite A EW)].
  destruct (affine_loop_ok N2 A g W G eq_refl) as (f & LF & F). rewrite EW, AB in LF. rewrite AB in F.
  destruct V as [[x1 y1] | ] eqn:EV; [ | destruct (pow2_finite B EV)].
  destruct (line_last f g x1 y1 x2 y2 F G EV EW) as (g' & -> & FL). cbn [bind]. rewrite LF. cbn [bind].
  unfold do_line, minus_or_same. cbn [sign1 coords bind].
  destruct (s1 <? 0)%Z; cbn [pneg coords bind]; apply tateexp_value; exact FL.
Qed.
Theorem proj_correct : a_pairing_proj K (Ok j) info P (Some (Qx, Qy)) = Ok (type_a_value K q r P (Some (Qx, Qy))).
Proof.
  unfold a_pairing_proj. change (@f1 (Fq2 K)) with (@f1 L). cbn [coords bind]. rewrite n1_eq, n2_eq. pose proof startP as SP. assert (EP : exists px py, P = Some (px, py)) by (destruct P as [[px py] | ]; [eauto | congruence]). destruct EP as (px & py & EP). rewrite EP at 1. cbn [coords bind].
  assert (AF : affine K (px, py, 1, 1) = mul (2 ^ 0)%nat P) by (rewrite <- SP, EP; cbn [affine]; f_equal; f_equal; field; apply (f_1_neq_0 K HK)).
  destruct (proj_loop_ok N1 0 1 (px, py, 1, 1) (jac1 px py) start AF) as (g & w & -> & JW & EW & G). change (0 + A)%nat with A in *.
  destruct (to_affine w JW) as (x2 & y2 & -> & E2 & E2'). cbn [bind].
  rewrite E2 in EW. symmetry in EW.
  destruct (proj_loop_ok N2 A g (x2, y2, 1, 1) (jac1 x2 y2) G ltac:(rewrite E2', EW; reflexivity)) as (f & w' & LF & JW' & EV & F). rewrite AB in *.
  destruct (to_affine w' JW') as (x1 & y1 & TA & E1 & E1'). rewrite E1 in EV. symmetry in EV.
  destruct (line_last f g x1 y1 x2 y2 F G EV EW) as (g' & -> & FL). cbn [bind]. rewrite LF, TA. cbn [bind jac_point].
  unfold do_line, minus_or_same. cbn [sign1 coords bind].
  destruct (s1 <? 0)%Z; cbn [pneg coords bind]; apply tateexp_value; exact FL.
Qed.
End PQ.
(** preprocessing *)
Theorem pp_correct : forall P, onK P -> P <> None -> pzmul K f1 r P = None ->
  exists t, a_pairing_pp_init K info P = Ok t /\ length t = Z.to_nat (e2 + 1) /\
    forall Qx Qy, onK (Some (Qx, Qy)) -> a_pairing_pp_apply K (Ok j) info t (Some (Qx, Qy)) = Ok (type_a_value K q r P (Some (Qx, Qy))).
Proof.
  intros P OP NP TP. assert (EP : exists px py, P = Some (px, py)) by (destruct P as [[px py] | ]; [eauto | congruence]). destruct EP as (px & py & EP).
  assert (OP' : onK (Some (px, py))) by (rewrite <- EP; auto).
  unfold a_pairing_pp_init. rewrite n1_eq, n2_eq. cbn [exp2].
  destruct (affine_loop_ok P OP NP TP px py OP' N1 0 f1 P (start P px py) (startP P)) as (g & LG & G). change (0 + N1)%nat with N1 in *.
  destruct (pp_loop_agree K N1 0 (repeat None (Z.to_nat (e2 + 1))) P _ _ _ _ _ LG) as (c1 & -> & L1 & _ & H1); [rewrite repeat_length; lia | ]. cbn [bind].
  rewrite repeat_length in L1.
  destruct (affine_loop_ok P OP NP TP px py OP' N2 N1 g (mul (2 ^ N1)%nat P) G eq_refl) as (f & LF & F).
  destruct (pp_loop_agree K N2 N1 c1 (mul (2 ^ N1)%nat P) _ _ _ _ _ LF) as (c2' & -> & L2 & D2 & H2); [rewrite L1; lia | ]. cbn [bind].
  assert (EB : (N1 + N2 = Z.to_nat e2)%nat) by lia. rewrite EB in *.
  destruct (mul (2 ^ N1)%nat P) as [[x2 y2] | ] eqn:EW; [ | destruct (pow2_finite P OP NP TP N1 EW)].
  destruct (mul (2 ^ Z.to_nat e2)%nat P) as [[x1 y1] | ] eqn:EV; [ | destruct (pow2_finite P OP NP TP (Z.to_nat e2) EV)].
  cbn [bind coords]. unfold minus_or_same. cbn [sign1].
  set (V1 := if (s1 <? 0)%Z then pneg (Some (x2, y2)) else Some (x2, y2)).
  assert (E1 : exists a b, V1 = Some (a, b) /\ (a, b) = (if (s1 <? 0)%Z then (x2, fopp y2) else (x2, y2))).
  { unfold V1. destruct (s1 <? 0)%Z; cbn [pneg]; eauto. }
  destruct E1 as (x3 & y3 & -> & E3). cbn [coords bind].
  destruct (put_ok c2' (Z.to_nat e2) (Some (compute_abc_line K x1 y1 x3 y3)) ltac:(lia)) as (t & -> & LT & T1 & T2).
  exists t. split; [auto | ]. split; [lia | ]. intros Qx Qy OQ. unfold a_pairing_pp_apply. cbn [coords bind]. rewrite n1_eq, n2_eq, EB. change (@f1 (Fq2 K)) with (@f1 L).
  destruct (affine_loop_ok P OP NP TP Qx Qy OQ N1 0 f1 P (start P Qx Qy) (startP P)) as (g' & LG' & G'). change (0 + N1)%nat with N1 in *.
  rewrite (H1 t) in LG' by (intros k Hk; rewrite T2, D2 by lia; auto).
  destruct (pp_eval K N1 0 t Qx Qy f1) as [g'' | | | ] eqn:PE; change (@f1 (Fq2 K)) with (@f1 L) in PE; rewrite PE in LG'; cbn [bind] in LG'; try discriminate. injection LG' as -> EW'. change (@f1 L) with (@f1 (Fq2 K)) in PE |- *. rewrite PE. cbn [bind].
  destruct (affine_loop_ok P OP NP TP Qx Qy OQ N2 N1 g' (mul (2 ^ N1)%nat P) G' eq_refl) as (f' & LF' & F'). rewrite EW, EB in LF'. rewrite EB in F'.
  rewrite (H2 t) in LF' by (intros k Hk; rewrite T2 by lia; auto).
  destruct (line_last P OP NP TP Qx Qy OQ f' g' x1 y1 x2 y2 F' G' EV EW) as (gi & -> & FL). cbn [bind].
  match type of LF' with bind ?m _ = _ => destruct m as [f'' | | | ] eqn:PE2 end; cbn [bind] in LF'; try discriminate. injection LF' as -> _. rewrite ?PE2. cbn [bind].
  unfold get_coeff, get. rewrite T1. cbn [bind]. rewrite <- E3 in FL. apply (tateexp_value P OP TP Qx Qy OQ). exact FL.
Qed.

(** products *)
Lemma L_mul_1 : forall x : L, fmul x f1 = x. Proof. intros. ring. Qed.
Lemma L_shuffle : forall b1 b2 g a e0 e : L, fmul (fmul (fmul b1 b2) (fmul g a)) (fmul e0 e) = fmul (fmul (fmul b1 g) e0) (fmul (fmul b2 a) e). Proof. intros. ring. Qed.
Lemma fpow_prod : forall (x y : L) k, fpow (fmul x y) k = fmul (fpow x k) (fpow y k).
Proof. intros. exact (zpow_mul_base _ (mul_monoid_laws L HL) (mul_monoid_comm L HL) x y k). Qed.
Lemma L_mul_3 : forall x y z : L, fmul (fmul x y) z = fmul x (fmul y z). Proof. intros. ring. Qed.
Definition good (pq : point K * (K * K)) : Prop := onK (fst pq) /\ fst pq <> None /\ pzmul K f1 r (fst pq) = None /\ onK (Some (snd pq)).
Definition mil1 (k : nat) (pq : point K * (K * K)) : L := miller L (up K K idh v f1) k (up' (fst pq)) (twist K v (Some (snd pq))).
Fixpoint PM (k : nat) (l : list (point K * (K * K))) : L := match l with [] => f1 | pq :: l' => fmul (mil1 k pq) (PM k l') end.
Definition ios (g : L) : L := if (s1 <? 0)%Z then finv g else g.
Lemma ios_ok : forall g, g <> f0 -> invert_or_same K info g = Ok (ios g).
Proof. intros g N. unfold invert_or_same, ios. cbn [sign1]. destruct (s1 <? 0)%Z; auto. apply (finvert_ok L HL). auto. Qed.
Lemma ios_mul : forall g g', g <> f0 -> g' <> f0 -> ios (fmul g g') = fmul (ios g) (ios g').
Proof. intros. unfold ios. destruct (s1 <? 0)%Z; auto. field. auto. Qed.
Lemma ios_sim : forall g g', sim g g' -> g' <> f0 -> sim (ios g) (ios g').
Proof. intros g g' S N. unfold ios. destruct (s1 <? 0)%Z; auto. apply (sim_inv K HK v vns); auto. Qed.
Lemma mil1_nz : forall k pq, good pq -> mil1 k pq <> f0.
Proof.
  intros k [P [Qx Qy]] (OP & NP & TP & OQ). cbn [fst snd] in *.
  apply (mil_nz' K K HK HK idh idE v vns f1 f0 ellK r r_pos r_odd P OP TP (Qx / v) (Qy / (v * v)) (GR Qx Qy OQ)).
Qed.
Lemma PM_nz : forall k l, Forall good l -> PM k l <> f0.
Proof. intros k l H. induction H; cbn [PM]; [apply (f_1_neq_0 L HL) | apply (f_mul_nz L HL); auto using mil1_nz]. Qed.
Local Notation Ps k l := (map (fun pq => mul k (fst pq)) l).
Local Notation Qs l := (map (fun pq : point K * (K * K) => Some (snd pq) : point K) l).
Lemma do_tangents_ok : forall i l rest, Forall good l ->
  exists g', (forall g, do_tangents K (Ps (2 ^ i)%nat l) (Qs l ++ rest) g = Ok (fmul g g')) /\
  sim (fmul (fmul (PM (2 ^ i)%nat l) (PM (2 ^ i)%nat l)) g') (PM (2 ^ S i)%nat l).
Proof.
  intros i l rest H. induction H as [ | [P [Qx Qy]] l (OP & NP & TP & OQ) H IH]; cbn [map do_tangents app PM].
  - exists f1. split; [intros g; f_equal; exact (eq_sym (L_mul_1 g)) | ]. assert (E1 : fmul (fmul f1 f1) f1 = (f1 : L)) by ring. assert (E2 := sim_refl K HK v vns f1). rewrite <- E1 in E2 at 1. exact E2.
  - destruct IH as (g1 & IH1 & IH2). cbn [fst snd] in *. destruct (mul (2 ^ i)%nat P) as [[x y] | ] eqn:E; [ | destruct (pow2_finite P OP NP TP i E)].
    assert (N2 : mul (2 * 2 ^ i)%nat P <> None) by (change (2 * 2 ^ i)%nat with (2 ^ S i)%nat; apply (pow2_finite P OP NP TP)).
    assert (NY : y <> 0) by (apply (double_pow P OP TP (2 ^ i)%nat x y); auto).
    cbn [coords bind]. set (e := a_miller_evalfn K (compute_abc_tangent K x y) Qx Qy). exists (fmul (e : L) g1). split.
    + intros g. rewrite IH1. f_equal. exact (L_mul_3 g e g1).
    + assert (T := tan_step P OP TP Qx Qy OQ _ (2 ^ i)%nat (Some (x, y)) (compute_abc_tangent K x y) (sim_refl K HK v vns _) (eq_sym E) (tangent_line K HK c2 x y NY) N2).
      change (2 * 2 ^ i)%nat with (2 ^ S i)%nat in T. set (m1 := mil1 (2 ^ i)%nat (P, (Qx, Qy))) in *. set (m2 := PM (2 ^ i)%nat l) in *.
      replace (fmul (fmul (fmul m1 m2) (fmul m1 m2)) (fmul (e : L) g1)) with (fmul (fmul (fmul m1 m1) (e : L)) (fmul (fmul m2 m2) g1)) by ring.
      apply (sim_mul K HK v vns); auto.
Qed.
Lemma mdv : forall i l, Forall good l -> l <> [] -> multi_double_values K (Ps (2 ^ i)%nat l) = Ok (Ps (2 ^ S i)%nat l).
Proof.
  intros i l H NE. rewrite (multi_double_values_ok K HK c2).
  - f_equal. rewrite map_map. apply map_ext_in. intros pq I. apply (proj1 (Forall_forall _ _) H) in I. destruct I as (OP & NP & TP & OQ).
    rewrite <- (mul_plus' (fst pq) OP TP). f_equal. cbn [Nat.pow]. lia.
  - destruct l; [congruence | discriminate].
  - intros V I. apply in_map_iff in I. destruct I as (pq & <- & I). apply (proj1 (Forall_forall _ _) H) in I. destruct I as (OP & NP & TP & OQ).
    destruct (mul (2 ^ i)%nat (fst pq)) as [[x y] | ] eqn:E; [ | destruct (pow2_finite _ OP NP TP i E)]. exists x, y. split; auto.
    apply (double_pow (fst pq) OP TP (2 ^ i)%nat x y); auto. change (2 * 2 ^ i)%nat with (2 ^ S i)%nat; apply (pow2_finite _ OP NP TP).
Qed.
Lemma prod_loop_ok : forall n i l rest f, Forall good l -> l <> [] -> sim f (PM (2 ^ i)%nat l) ->
  exists f', prod_loop K n (Qs l ++ rest) f (Ps (2 ^ i)%nat l) = Ok (f', Ps (2 ^ (i + n))%nat l) /\ sim f' (PM (2 ^ (i + n))%nat l).
Proof.
  induction n; intros i l rest f G NE F; cbn [prod_loop].
  - exists f. replace (i + 0)%nat with i by lia. auto.
  - destruct (do_tangents_ok i l rest G) as (g & T1 & T2). rewrite T1. cbn [bind]. rewrite mdv by auto. cbn [bind].
    replace (i + S n)%nat with (S i + n)%nat by lia. apply IHn; auto. eapply (sim_trans K HK v vns); [ | exact T2].
    apply (sim_mul K HK v vns); [apply (sim_mul K HK v vns); auto | apply (sim_refl K HK v vns)].
Qed.
Lemma do_lines_ok : forall l rest, Forall good l ->
  exists e, (forall f, do_lines K (Ps (2 ^ Z.to_nat e2)%nat l) (map (minus_or_same K info) (Ps (2 ^ N1)%nat l)) (Qs l ++ rest) f = Ok (fmul f e)) /\
  sim (fmul (fmul (PM (2 ^ Z.to_nat e2)%nat l) (ios (PM (2 ^ N1)%nat l))) e) (PM last l).
Proof.
  intros l rest H. induction H as [ | [P [Qx Qy]] l (OP & NP & TP & OQ) H IH].
  - cbn [map do_lines PM]. exists f1. split; [intros f; f_equal; exact (eq_sym (L_mul_1 f)) | ].
    assert (E1 : fmul (fmul f1 (ios f1)) f1 = (f1 : L)) by (unfold ios; destruct (s1 <? 0)%Z; [field; apply (f_1_neq_0 L HL) | ring]). assert (E2 := sim_refl K HK v vns f1). rewrite <- E1 in E2 at 1. exact E2.
  - destruct IH as (e & D & IH). cbn [map do_lines app fst snd].
    destruct (mul (2 ^ N1)%nat P) as [[x2 y2] | ] eqn:EW; [ | destruct (pow2_finite P OP NP TP N1 EW)].
    destruct (mul (2 ^ Z.to_nat e2)%nat P) as [[x1 y1] | ] eqn:EV; [ | destruct (pow2_finite P OP NP TP (Z.to_nat e2) EV)].
    assert (GD : good (P, (Qx, Qy))) by (repeat split; auto).
    destruct (line_last P OP NP TP Qx Qy OQ _ _ x1 y1 x2 y2 (sim_refl K HK v vns _) (sim_refl K HK v vns _) EV EW) as (g' & IG & FL).
    change (invert_or_same K info (mil1 (2 ^ N1)%nat (P, (Qx, Qy))) = Ok g') in IG. rewrite ios_ok in IG by (apply mil1_nz; auto). injection IG as IG.
    cbn [coords bind]. unfold do_line. cbn [coords bind].
    set (e0 := let '(x3, y3) := (if (s1 <? 0)%Z then (x2, fopp y2) else (x2, y2)) in a_miller_evalfn K (compute_abc_line K x1 y1 x3 y3) Qx Qy) in *.
    exists (fmul (e0 : L) e). split.
    + intros f. unfold minus_or_same at 1. cbn [sign1].
      assert (EF : (' (V1x, V1y) <- coords K (if (s1 <? 0)%Z then pneg (Some (x2, y2)) else Some (x2, y2)) ;; Ok (fmul f (a_miller_evalfn K (compute_abc_line K x1 y1 V1x V1y) Qx Qy))) = Ok (fmul f e0)).
      { unfold e0. destruct (s1 <? 0)%Z; reflexivity. }
      rewrite EF. cbn [bind]. rewrite D. f_equal. exact (L_mul_3 f e0 e).
    + cbn [PM]. rewrite ios_mul by auto using mil1_nz, PM_nz. rewrite IG.
      set (b1 := mil1 (2 ^ Z.to_nat e2)%nat (P, (Qx, Qy))) in *. set (b2 := PM (2 ^ Z.to_nat e2)%nat l) in *. set (a2 := ios (PM (2 ^ N1)%nat l)) in *.
      assert (GO := sim_mul K HK v vns _ _ _ _ FL IH). assert (E5 := L_shuffle b1 b2 g' a2 e0 e).  exact (eq_ind _ (fun z : L => sim z _) GO _ (eq_sym E5)).
Qed.
Definition prod_value (l : list (point K * (K * K))) : L := fold_right (fun pq acc => fmul (type_a_value K q r (fst pq) (Some (snd pq)) : L) acc) f1 l.
Lemma PM_last : forall l, Forall good l -> sim (PM last l) (PM (Z.to_nat r) l).
Proof.
  intros l H. induction H as [ | [P [Qx Qy]] l (OP & NP & TP & OQ) H IH]; cbn [PM]; [apply (sim_refl K HK v vns) | ].
  apply (sim_mul K HK v vns); auto. apply (last_r P OP TP Qx Qy OQ).
Qed.
Lemma tateexp_prod : forall l f, Forall good l -> sim f (PM last l) -> tateexp K (Ok j) info f = Ok (prod_value l).
Proof.
  intros l f GD F. pose proof q_big as QB. assert (F' := sim_trans K HK v vns _ _ _ F (PM_last l GD)).
  assert (NF : f <> (f0 : L)) by (apply (sim_nz K HK v vns _ _ F'); apply PM_nz; auto).
  unfold tateexp. cbn [phikonr]. assert (Hq1 : has_order K (q ^ 1)) by (rewrite Z.pow_1_r; auto).
  rewrite (tateexp_correct K HK q 1 Pq ltac:(lia) ltac:(lia) Hq1 v vns f j h c2 NF h_pos h_even). f_equal.
  destruct F' as (c & NC & ->). pose proof h_pos. rewrite (low_killed K HK q 1 Pq ltac:(lia) ltac:(lia) Hq1 v vns) by (auto; lia).
  clear c NC NF F. rewrite Z.pow_1_r. unfold prod_value. induction l as [ | pq l IH]; cbn [PM fold_right].
  - apply (zpow_one _ (mul_monoid_laws L HL)).
  - inversion GD; subst. rewrite <- IH by auto.
    rewrite fpow_prod.
    unfold type_a_value, tate. rewrite exp_eq. reflexivity.
Qed.
Theorem prod_correct : forall l rest1 rest2, Forall good l -> l <> [] ->
  a_pairings_affine K (Ok j) info (map fst l ++ rest1) (Qs l ++ rest2) (length l) = Ok (prod_value l).
Proof.
  intros l rest1 rest2 GD NE. unfold a_pairings_affine. assert (SL := slice_app _ [] (map fst l) rest1 0 (length l) eq_refl (map_length _ _)). cbn [app] in SL. rewrite SL. cbn [bind].
  rewrite n1_eq, n2_eq. change (@f1 (Fq2 K)) with (@f1 L).
  assert (S : sim f1 (PM (2 ^ 0)%nat l)).
  { clear NE SL. induction GD as [ | [P [Qx Qy]] l (OP & NP & TP & OQ) H IH]; cbn [PM]; [apply (sim_refl K HK v vns) | ].
    assert (GO := sim_mul K HK v vns _ _ _ _ (start P Qx Qy) IH). rewrite L_mul_1 in GO. exact GO. }
  replace (map fst l) with (Ps (2 ^ 0)%nat l) by (apply map_ext; intros pq; rewrite <- startP; reflexivity).
  destruct (prod_loop_ok N1 0 l rest2 f1 GD NE S) as (g & -> & G). cbn [bind]. change (0 + N1)%nat with N1 in *.
  assert (NG : g <> f0) by (apply (sim_nz K HK v vns _ _ G); apply PM_nz; auto).
  rewrite ios_ok by auto. cbn [bind].
  destruct (prod_loop_ok N2 N1 l rest2 g GD NE G) as (f & -> & F). cbn [bind]. replace (N1 + N2)%nat with (Z.to_nat e2) in * by lia.
  destruct (do_lines_ok l rest2 GD) as (e & -> & D). cbn [bind]. apply tateexp_prod; auto.
  eapply (sim_trans K HK v vns); [ | exact D]. apply (sim_mul K HK v vns); [ | apply (sim_refl K HK v vns)]. apply (sim_mul K HK v vns); auto.
  apply ios_sim; auto. apply PM_nz; auto.
Qed.
End A.
