(** The loops of the eta_T pairing compute the product of Spec/EtaT.v. *)
From Coq Require Import ZArith List Bool Lia Arith Ring Field Znumtheory.
From Verif.Base Require Import Outcome Algebra Slots.
From Verif.Spec Require Import FiniteField Polynomials Quadratic Extension Ternary TernaryTower EtaT.
From Verif.Model Require Import GF3m GF3Tower EtaT3.
From Verif.Proofs Require Import PowFacts FieldFacts SlotFacts RootFacts QuadFacts ExtFacts GTFacts BilinearZ TowerAlgebra TowerFields TowerFacts EtaFinal.
Import ListNotations.
Open Scope nat_scope.

Section M.
Variables (F : gfops) (K : fld) (rep : car F -> K -> Prop).
Hypothesis HK : fld_laws K.
Variable m : nat.
Hypothesis HO : has_order K (3 ^ Z.of_nat m).
Hypothesis Om : Nat.odd m = true.
Hypothesis N3 : m mod 3 <> 0.
Hypothesis I : implements F K rep.
Hypothesis IN : implements_neg F K rep.
Hypothesis IV : implements_inv F K rep.
Let C3 : fadd (fadd f1 f1) f1 = (f0 : K) := order_char3 K m HK HO.
Let RK : ring_theory (f0 : K) f1 fadd fmul fsub fopp eq := F_R (fl_field K HK).
Add Ring KR3l : RK (morphism (t_morph K RK C3), constants [t_const]).
Local Notation "x + y" := (@fadd K x y). Local Notation "x * y" := (@fmul K x y). Local Notation "x - y" := (@fsub K x y). Local Notation "- x" := (@fopp K x).
Local Notation F2 := (GF32m K). Local Notation F6 := (GF36m K).
Let H6 : fld_laws F6 := laws36 K HK m HO Om N3.
Let RK6 : ring_theory (f0 : F6) f1 fadd fmul fsub fopp eq := F_R (fl_field F6 H6).
Add Ring KR6l : RK6.
Local Notation rep6 := (rep6 F K rep).
Let I6 : implements (gf36m_ops F) F6 rep6 :=
  impl3 (gf32m_ops F) F2 (rep2 F K rep) (laws32 K HK m HO Om) (char32 K HK m HO Om) (impl2 F K rep HK C3 I IN).
Lemma h_mul : forall a b (x y : F6), rep6 a x -> rep6 b y -> stores rep6 (@o_mul (gf36m_ops F) a b) (fmul x y). Proof. exact (i_mul _ _ _ I6). Qed.
Lemma h_cub : forall a (x : F6), rep6 a x -> stores rep6 (@o_cubic (gf36m_ops F) a) (fmul x (fmul x x)). Proof. exact (i_cubic _ _ _ I6). Qed.

(** The lines. *)
Lemma line_cube : forall t u : K, fmul (eta_line K t u) (fmul (eta_line K t u) (eta_line K t u)) =
  elt6 (- (t * t * t * (t * t * t)) - t * t * t - f1) (- (u * u * u)) (f1 - t * t * t) f0 (- f1) f0.
Proof. intros. unfold eta_line. rewrite !(elt6_mul K HK m HO Om). f_equal; ring. Qed.
Lemma line_nz : forall t u : K, eta_line K t u <> f0.
Proof.
  intros t u E. assert (Z : (f0 : F6) = elt6 f0 f0 f0 f0 f0 f0) by exact (elt3_0 F2). rewrite Z in E. unfold eta_line in E. apply (elt6_inj K) in E.
  destruct E as (_ & _ & _ & _ & E & _). apply (f_1_neq_0 K HK). transitivity (- - (f1 : K)); [ring | rewrite E; ring].
Qed.
Lemma algorithm4a_ok : forall a b t u, rep a t -> rep b u -> stores rep6 (algorithm4a F a b) (fmul (eta_line K t u) (fmul (eta_line K t u) (eta_line K t u))).
Proof.
  intros a b t u A B. unfold algorithm4a. repeat step I IN. apply stores_ok. rewrite line_cube. eapply rep_eq; [apply mk6_rep; eassumption | ]. f_equal; ring.
Qed.
Lemma tangent_ok : forall e a b t u, rep e f1 -> rep a t -> rep b u -> stores rep6 (tangent F e a b) (eta_line K t u).
Proof. intros e a b t u E A B. unfold tangent. repeat step I IN. apply stores_ok. eapply rep_eq; [apply mk6_rep; eassumption | ]. unfold eta_line. f_equal; ring. Qed.

Section P.
Variables xp yp xq yq : K.
Local Notation ex := (eta_x K xq). Local Notation ey := (eta_y K yq).
Lemma p3 : forall (x : K) n, fpow x (3 ^ Z.of_nat (2 * S n + 1)) =
  (let c := fpow x (3 ^ Z.of_nat (2 * n + 1)) in let d := c * (c * c) in d * (d * d)).
Proof. intros. replace (2 * S n + 1)%nat with (S (S (2 * n + 1))) by lia. rewrite !(fpow3_S K HK C3). cbv zeta. reflexivity. Qed.
Lemma ex_S : forall n, ex (S n) = (let d := ex n * (ex n * ex n) in d * (d * d)) - f1.
Proof.
  intro n. unfold eta_x. rewrite p3. cbv zeta. rewrite (nat_S K HK). set (c := fpow xq _). set (k := (fofz (Z.of_nat n) : K)).
  assert (E : k * (k * k) = k) by exact (nat_cube K HK C3 n).
  assert (D : (c - k) * ((c - k) * (c - k)) = c * (c * c) - k) by (rewrite <- E at 4; ring).
  rewrite D. set (d := c * (c * c)). assert (D' : (d - k) * ((d - k) * (d - k)) = d * (d * d) - k) by (rewrite <- E at 4; ring). rewrite D'. ring.
Qed.
Lemma ey_S : forall n, ey (S n) = - (let d := ey n * (ey n * ey n) in d * (d * d)).
Proof.
  intro n. unfold eta_y. rewrite p3. cbv zeta. set (c := fpow yq _). rewrite Nat2Z.inj_succ. unfold Z.succ. rewrite (fpowA K HK) by lia.
  set (s := fpow (- f1) (Z.of_nat n)). assert (S1 : s * s = f1).
  { unfold s. rewrite <- (fpow_base K HK). replace (- f1 * - f1) with (f1 : K) by ring. apply (fpow1 K HK). }
  change (fpow (- f1) 1) with (- f1 * f1). set (d := c * (c * c)).
  transitivity (- (s * (s * s) * (s * s) * (s * s) * (s * s) * (d * (d * d)))); [rewrite S1; ring | unfold d; ring].
Qed.
Lemma ex_0 : ex 0 = xq * (xq * xq). Proof. unfold eta_x. change (3 ^ Z.of_nat (2 * 0 + 1))%Z with 3%Z. rewrite (pow3 K HK C3). change (fofz (Z.of_nat 0)) with (f0 : K). ring. Qed.
Lemma ey_0 : ey 0 = yq * (yq * yq). Proof. unfold eta_y. change (3 ^ Z.of_nat (2 * 0 + 1))%Z with 3%Z. rewrite (pow3 K HK C3). change (fpow (- f1) (Z.of_nat 0)) with (f1 : K). ring. Qed.

Local Notation ml := (eta_miller K m xp yp xq yq). Local Notation y' := (eta_yp K m yp).
Lemma next_x_ok : forall e a n, rep e f1 -> rep a (ex n) -> stores rep (next_x F e a) (ex (S n)).
Proof.
  intros e a n E A. unfold next_x. do 2 step I IN. rewrite ex_S. cbv zeta. apply (i_sub _ _ _ I); assumption.
Qed.
Lemma ml_S : forall n, ml (S n) = fmul (fmul (ml n) (fmul (ml n) (ml n))) (eta_line K (xp + f1 + ex (S n)) (y' * ey (S n))).
Proof.
  intro n. cbn [eta_miller]. unfold eta_factor, eta_tn. f_equal. change (fpow (ml n) 3) with (fmul (ml n) (fmul (ml n) (fmul (ml n) f1))). ring.
Qed.
Lemma loop4_ok : forall k n e a b c d R, rep e f1 -> rep a (xp + f1) -> rep b y' -> rep c (ex n) -> rep d (ey n) -> rep6 R (ml n) ->
  stores rep6 (loop4 F k e a b c d R) (ml (n + k)%nat).
Proof.
  induction k; intros n e a b c d R E A B C D Rn.
  - cbn [loop4]. apply stores_ok. rewrite Nat.add_0_r. exact Rn.
  - cbn [loop4]. eapply stores_bind; [apply h_cub; eassumption | intros R1 Q1].
    eapply stores_bind; [apply next_x_ok; eassumption | intros c1 C1]. do 3 step I IN.
    match goal with H : rep ?v (- _) |- _ => assert (Y : rep v (ey (S n))) by (eapply rep_eq; [exact H | rewrite ey_S; reflexivity]) end.
    do 2 step I IN.
    eapply stores_bind; [apply tangent_ok; eassumption | intros S0 QS].
    eapply stores_bind; [apply h_mul; eassumption | intros RR QQ].
    replace (n + S k)%nat with (S n + k)%nat by lia. eapply IHk; try eassumption. rewrite ml_S. exact QQ.
Qed.
(** algorithm5 carries yq^9 without the sign: after an even number of steps it is y_n. *)
Lemma loop5_ok : forall k n e a b c d R, rep e f1 -> rep a (xp + f1) -> rep b y' -> rep c (ex n) -> rep d (ey n) -> rep6 R (ml n) ->
  stores rep6 (loop5 F k e a b c d R) (ml (n + 2 * k)%nat).
Proof.
  induction k; intros n e a b c d R E A B C D Rn.
  - cbn [loop5]. apply stores_ok. replace (n + 2 * 0)%nat with n by lia. exact Rn.
  - cbn [loop5]. eapply stores_bind; [apply h_cub; eassumption | intros R1 Q1]. eapply stores_bind; [apply h_cub; eassumption | intros R1' Q1'].
    eapply stores_bind; [apply next_x_ok; eassumption | intros c1 C1]. step I IN. eapply stores_bind; [eapply (i_cubic _ _ _ I); eassumption | intros d1 D1].
    assert (Y : rep d1 (- ey (S n))) by (eapply rep_eq; [exact D1 | rewrite ey_S; cbv zeta; ring]).
    step I IN. eapply stores_bind; [eapply (i_mul _ _ _ I); [exact B | exact Y] | intros u1 V1]. eapply stores_bind; [eapply IN; exact V1 | intros nu NV].
    assert (NV' : rep nu (y' * ey (S n))) by (eapply rep_eq; [exact NV | ring]).
    eapply stores_bind; [eapply algorithm4a_ok; eassumption | intros S1 QS1].
    eapply stores_bind; [apply next_x_ok; eassumption | intros c5 C5].
    eapply stores_bind; [eapply (i_cubic _ _ _ I); exact Y | intros d2 D2]. eapply stores_bind; [eapply (i_cubic _ _ _ I); exact D2 | intros d3 D3].
    assert (Y2 : rep d3 (ey (S (S n)))) by (eapply rep_eq; [exact D3 | rewrite (ey_S (S n)); cbv zeta; ring]).
    eapply stores_bind; [eapply (i_add _ _ _ I); [exact A | exact C5] | intros t2 T2]. eapply stores_bind; [eapply (i_mul _ _ _ I); [exact B | exact Y2] | intros u2 V2].
    eapply stores_bind; [eapply tangent_ok; eassumption | intros S2 QS2].
    eapply stores_bind; [eapply h_mul; [exact QS1 | exact QS2] | intros S3 QS3].
    eapply stores_bind; [eapply h_mul; [exact Q1' | exact QS3] | intros RR QQ].
    replace (n + 2 * S k)%nat with (S (S n) + 2 * k)%nat by lia. eapply IHk; try eassumption.
    eapply rep_eq; [exact QQ | ]. rewrite (ml_S (S n)), (ml_S n). ring.
Qed.

Lemma m12 : (Z.of_nat m mod 12 = 1 \/ Z.of_nat m mod 12 = 5 \/ Z.of_nat m mod 12 = 7 \/ Z.of_nat m mod 12 = 11)%Z.
Proof.
  pose proof (m_mod6 m Om N3) as H. pose proof (Nat.div_mod m 6 ltac:(lia)) as D. pose proof (Z.mod_pos_bound (Z.of_nat m) 12 ltac:(lia)).
  pose proof (Z.div_mod (Z.of_nat m) 12 ltac:(lia)). lia.
Qed.
(** The state with which both loops start. *)
Lemma begin_ok : forall a b c d, rep a xp -> rep b yp -> rep c xq -> rep d yq ->
  exists st, begin F (Z.of_nat m) a b c d = Ok st /\ rep (s_xp F st) (xp + f1) /\ rep (s_yp F st) y' /\ rep (s_xq F st) (ex 0) /\ rep (s_yq F st) (ey 0) /\ rep6 (s_R F st) (ml 0).
Proof.
  intros a b c d A B C D.
  enough (G : stores (fun st (_ : unit) => rep (s_xp F st) (xp + f1) /\ rep (s_yp F st) y' /\ rep (s_xq F st) (ex 0) /\ rep (s_yq F st) (ey 0) /\ rep6 (s_R F st) (ml 0)) (begin F (Z.of_nat m) a b c d) tt) by exact G.
  unfold begin. do 2 step I IN. set (re := (Z.of_nat m mod 12)%Z).
  eapply (stores_bind _ _ _ _ rep _ _ _ y').
  { unfold eta_yp, eta_mu. fold re. destruct ((re =? 1)%Z || (re =? 11)%Z).
    - destruct (IN true b yp B) as (v & V1 & V2). exists v. split; [exact V1 | ]. eapply rep_eq; [exact V2 | ]. change (fofz (- (1))) with (- f1). ring.
    - exists b. split; [reflexivity | ]. eapply rep_eq; [exact B | ]. change (fofz (- (-1))) with (f1 : K). ring. }
  intros b' B'. do 7 step I IN. 
  set (t := xp + f1 + xq * (xq * xq)) in *.
  assert (T : eta_tn K xp xq 0 = t) by (unfold eta_tn; rewrite ex_0; reflexivity).
  step I IN.
  eapply (stores_bind _ _ _ _ rep6 _ _ _ (eta_first K m xp yp xq yq)).
  { unfold eta_first. cbv zeta. rewrite T, ey_0. unfold eta_lambda. fold re. destruct ((re =? 7)%Z || (re =? 11)%Z).
    - repeat step I IN. apply stores_ok. eapply rep_eq; [apply mk6_rep; eassumption | ]. change (fofz 1) with (f1 : K). f_equal; ring.
    - repeat step I IN. apply stores_ok. eapply rep_eq; [apply mk6_rep; eassumption | ]. change (fofz (-1)) with (- f1). f_equal; ring. }
  intros a1 A1. step I IN.
  eapply (stores_bind _ _ _ _ rep6 _ _ _ (ml 0)).
  { cbn [eta_miller]. apply h_mul; [exact A1 | ]. eapply rep_eq; [apply mk6_rep; eassumption | ]. unfold eta_factor, eta_line. rewrite T, ey_0. f_equal; ring. }
  intros Rf QR. apply stores_ok. cbn [s_xp s_yp s_xq s_yq s_R]. rewrite ex_0, ey_0. auto 10.
Qed.
Lemma curve_y_nz : on_ternary_curve K xp yp -> yp <> f0.
Proof.
  intros E Z. unfold on_ternary_curve in E. rewrite Z in E. apply (no_shift K HK C3 m HO N3 (- f1) (or_intror eq_refl) xp).
  transitivity (xp * (xp * xp) - xp + f1 + (xp - f1)); [ring | rewrite <- E; ring].
Qed.
Lemma first_nz : yp <> f0 -> eta_first K m xp yp xq yq <> f0.
Proof.
  intros Y E. assert (Z : (f0 : F6) = elt6 f0 f0 f0 f0 f0 f0) by exact (elt3_0 F2). rewrite Z in E. unfold eta_first in E. cbv zeta in E. apply (elt6_inj K) in E.
  destruct E as (_ & _ & E & _). unfold eta_yp, eta_lambda, eta_mu in E. apply Y.
  destruct ((Z.of_nat m mod 12 =? 7)%Z || _), ((Z.of_nat m mod 12 =? 1)%Z || _);
    change (fofz (- (1))) with (- f1 : K) in E; change (fofz (- (-1))) with (f1 : K) in E; change (fofz 1) with (f1 : K) in E; change (fofz (-1)) with (- f1 : K) in E;
    first [transitivity (- (f1 * (- f1 * yp))); [ring | rewrite E; ring] | transitivity (- - (f1 * (f1 * yp))); [ring | rewrite E; ring]
          | transitivity (- - (- f1 * (- f1 * yp))); [ring | rewrite E; ring] | transitivity (- (- f1 * (f1 * yp))); [ring | rewrite E; ring]].
Qed.
Lemma ml_nz : yp <> f0 -> forall n, ml n <> f0.
Proof.
  intros Y. induction n.
  - cbn [eta_miller]. apply (f_mul_nz F6 H6); [apply first_nz; auto | apply line_nz].
  - cbn [eta_miller]. apply (f_mul_nz F6 H6); [apply (fpow_nz F6 H6); auto | apply line_nz].
Qed.
Theorem pairing_ok : forall a b c d, rep a xp -> rep b yp -> rep c xq -> rep d yq -> yp <> f0 ->
  stores rep6 (eta_T_pairing F (Z.of_nat m) (Some (a, b)) (Some (c, d))) (eta_T K m xp yp xq yq).
Proof.
  intros a b c d A B C D Y. unfold eta_T_pairing. destruct (begin_ok a b c d A B C D) as (st & E & Q1 & Q2 & Q3 & Q4 & Q5).
  destruct (i_1 _ _ _ I) as (e1 & E1 & R1). destruct (proj1 (Nat.odd_spec m) Om) as [j J0].
  assert (H2 : ((m - 1) / 2 = j)%nat) by (rewrite J0; replace (2 * j + 1 - 1)%nat with (j * 2)%nat by lia; apply Nat.div_mul; lia).
  assert (Hj : Z.quot (Z.of_nat m - 1) 2 = Z.of_nat j) by (rewrite J0; replace (Z.of_nat (2 * j + 1) - 1)%Z with (Z.of_nat j * 2)%Z by lia; apply Z.quot_mul; lia).
  eapply (stores_bind _ _ _ _ rep6 _ _ _ (ml j)).
  - rewrite Hj. rewrite Z.rem_mod_nonneg by lia. destruct (Z.eqb_spec (Z.of_nat j mod 2) 0) as [Ev | Od].
    + unfold algorithm5. rewrite E. cbn [bind]. rewrite E1. cbn [bind].
      assert (Hk : exists k, (j = 2 * k)%nat) by (exists (j / 2)%nat; pose proof (Nat.div_mod j 2 ltac:(lia)); assert (j mod 2 = 0)%nat by (apply Nat2Z.inj; rewrite Nat2Z.inj_mod; exact Ev); lia).
      destruct Hk as [k Hk]. replace (Z.to_nat (Z.quot (Z.of_nat m - 1) 4)) with k.
      * rewrite Hk. apply (loop5_ok k 0); assumption.
      * rewrite J0, Hk. replace (Z.of_nat (2 * (2 * k) + 1) - 1)%Z with (Z.of_nat k * 4)%Z by lia. rewrite Z.quot_mul by lia. lia.
    + unfold algorithm4. rewrite E. cbn [bind]. rewrite E1. cbn [bind]. rewrite Hj, Nat2Z.id. apply (loop4_ok j 0); assumption.
  - intros u Ru. unfold eta_T. rewrite H2. unfold eta_M. apply (algorithm8_ok F K rep HK m HO Om N3 I IN IV); [exact Ru | apply ml_nz; auto].
Qed.
End P.
(** The value is a root of unity of order dividing the number of points. *)
Theorem eta_T_root : forall x : F6, x <> f0 -> fpow (fpow x (eta_M m)) (eta_N m) = f1.
Proof.
  intros x NZ. pose proof (tm_le m Om N3) as T. pose proof (q3_pos m N3) as P3. pose proof (q_pos m N3) as P1. 
  assert (S3 : (3 ^ Z.of_nat (3 * m) = 3 ^ Z.of_nat m * 3 ^ Z.of_nat m * 3 ^ Z.of_nat m)%Z) by (rewrite <- !Z.pow_add_r by lia; f_equal; lia).
  assert (TT : (eta_t m * eta_t m = 3 * 3 ^ Z.of_nat m)%Z).
  { unfold eta_t. rewrite <- Z.pow_add_r by (apply Z.div_pos; lia). rewrite <- Z.pow_succ_r by lia. f_equal. destruct (proj1 (Nat.odd_spec m) Om) as [j J0].
    rewrite J0. replace (Z.of_nat (2 * j + 1) + 1)%Z with ((Z.of_nat j + 1) * 2)%Z by lia. rewrite Z.div_mul by lia. lia. }
  assert (MU : (eta_mu m * eta_mu m = 1)%Z) by (unfold eta_mu; destruct ((Z.of_nat m mod 12 =? 1)%Z || (Z.of_nat m mod 12 =? 11)%Z); reflexivity).
  assert (MB : (eta_mu m = 1 \/ eta_mu m = -1)%Z) by (unfold eta_mu; destruct ((Z.of_nat m mod 12 =? 1)%Z || (Z.of_nat m mod 12 =? 11)%Z); auto).
  change (3 ^ ((Z.of_nat m + 1) / 2))%Z with (eta_t m) in T.
  rewrite <- (fpowM F6 H6).
  - replace (eta_M m * eta_N m)%Z with (3 ^ Z.of_nat (6 * m) - 1)%Z.
    + apply (six K HK m HO Om N3). exact NZ.
    + rewrite <- (order_e m N3). unfold eta_M, eta_N. set (t := eta_t m) in *. set (u := eta_mu m) in *. set (q := (3 ^ Z.of_nat m)%Z) in *. rewrite S3.
      transitivity ((q * q * q - 1) * (q + 1) * ((q + 1) * (q + 1) - (u * u) * (t * t)))%Z; [rewrite MU, TT; ring | ring].
  - unfold eta_M. apply Z.mul_nonneg_nonneg; [apply Z.mul_nonneg_nonneg; lia | destruct MB as [-> | ->]; lia].
  - unfold eta_N. destruct MB as [-> | ->]; lia.
Qed.
End M.
