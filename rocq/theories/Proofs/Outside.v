(** Miller's functions of the points of a subgroup, at points outside it. *)
From Coq Require Import ZArith List Bool Lia Ring Field.
From Verif.Base Require Import Outcome Algebra Slots.
From Verif.Spec Require Import Curve Tate.
From Verif.Proofs Require Import PowFacts FieldFacts SlotFacts CurveGroup CurveFacts LineAlgebra TateFacts Bilinear BilinearZ.

Section S.
Variable K : fld.
Hypothesis HK : fld_laws K.
Add Field KFout : (fl_field K HK).
Local Notation "0" := f0. Local Notation "1" := f1.
Local Notation "x + y" := (fadd x y). Local Notation "x - y" := (fsub x y). Local Notation "x * y" := (fmul x y). Local Notation "- x" := (fopp x).
Local Notation "x / y" := (fdiv x y).
Variables (a b : K).
Local Notation on := (on_curve K a b).
Local Notation add := (padd K a).
Local Notation mul := (pmul K a).
Local Notation step := (miller_step K a).
Local Notation mil := (miller K a).
Local Notation offx := (offx K).
Hypothesis HE : elliptic K a b.
Let C2 : f2 K <> 0 := proj1 HE.
Let assoc := assoc K HK a b HE.
Let comm := comm K HK a.
Let onadd := onadd K HK a b HE.
Let onneg : forall P, on P -> on (pneg P) := neg_on K HK a b.
Variable G : point K -> Prop.
Hypothesis SG : subgroup K a b G.
Definition out (X : point K) : Prop := on X /\ ~ G X.
Let gon := sg_on K a b G SG.
Let g0 := sg_0 K a b G SG.
Let gadd := sg_add K a b G SG.
Let gneg := sg_neg K a b G SG.
Let mulG := mul_G1 K a b G SG.
Hint Resolve gon g0 gadd gneg mulG onadd onneg : sg.
Let neg_sol := neg_sol K HK a b HE.
Let nn : forall P : point K, pneg (pneg P) = P := neg_neg K HK.
Let pneg_add := pneg_add K HK a b HE.
Let neg_fin := neg_fin K.

Lemma out_on : forall X, out X -> on X. Proof. intros X []; auto. Qed.
Lemma out_fin : forall X, out X -> X <> None. Proof. intros X [_ H] ->. auto. Qed.
Lemma out_neg : forall X, out X -> out (pneg X).
Proof. intros X [O H]. split; auto. intro E. apply H. rewrite <- nn. auto. Qed.
Lemma out_add : forall A X, G A -> out X -> out (add A X).
Proof. intros A X HA [O H]. split; auto with sg. intro E. apply H. rewrite (neg_sol A X (add A X)) by auto with sg. auto with sg. Qed.
Hint Resolve out_on out_neg out_add : sg.
Lemma out_off : forall A X, G A -> out X -> offx A X.
Proof.
  intros A X HA HX. apply (offx_of K HK a b); auto with sg.
  - intros ->. apply HX; auto.
  - intros ->. destruct HX as [O H]. apply H. rewrite <- nn. auto.
Qed.
Lemma out_off' : forall A X, G A -> out X -> offx X A.
Proof. intros. apply offx_sym. apply out_off; auto. Qed.

Lemma o_cocycle : forall A B C Q, G A -> G B -> G C -> out Q -> step A B Q * step (add A B) C Q = step B C Q * step A (add B C) Q.
Proof. intros. apply (step_cocycle K HK a b HE); auto with sg; apply out_off; auto with sg. Qed.
Lemma o_comm : forall A B R, G A -> G B -> step A B R = step B A R.
Proof. intros. apply (step_comm K HK a b HE); auto with sg. Qed.
Lemma o_step_nz : forall A B Q, G A -> G B -> out Q -> step A B Q <> 0.
Proof.
  intros A B [[x y] | ] HA HB HQ; [ | rewrite step_R0; apply (f_1_neq_0 K HK)].
  apply (step_nz K HK a b HE); auto with sg; apply out_off; auto with sg.
Qed.
Lemma o_four : forall A B C D Q, G A -> G B -> G C -> G D -> out Q ->
  step A B Q * step C D Q * step (add A B) (add C D) Q = step A C Q * step B D Q * step (add A C) (add B D) Q.
Proof.
  intros A B C D Q HA HB HC HD HQ.
  transitivity (step A B Q * (step (add A B) C Q * step (add (add A B) C) D Q)).
  { rewrite (o_cocycle (add A B) C D Q) by auto with sg. ring. }
  transitivity (step A C Q * (step (add A C) B Q * step (add (add A C) B) D Q)).
  2:{ rewrite (o_cocycle (add A C) B D Q) by auto with sg. ring. }
  replace (add (add A C) B) with (add (add A B) C) by (rewrite !assoc by auto with sg; rewrite (comm B C); auto).
  transitivity ((step A B Q * step (add A B) C Q) * step (add (add A B) C) D Q); [ring | ].
  transitivity ((step A C Q * step (add A C) B Q) * step (add (add A B) C) D Q); [ | ring].
  rewrite !o_cocycle by auto. rewrite (o_comm C B) by auto. rewrite (comm C B). reflexivity.
Qed.
Lemma o_mil_nz : forall n P Q, G P -> out Q -> mil n P Q <> 0.
Proof.
  induction n; intros P Q HP HQ; cbn [miller]; [apply (f_1_neq_0 K HK) | ]. apply (f_mul_nz K HK); auto. apply o_step_nz; auto with sg.
Qed.
Let mul_add := mul_add K HK a b HE G SG.
Let mul_dist := mul_dist K HK a b HE G SG.
Let mul_succ := mul_succ K HK a.
Lemma o_mil_add : forall n m P Q, G P -> out Q -> mil (m + n)%nat P Q = mil m P Q * mil n P Q * step (mul m P) (mul n P) Q.
Proof.
  induction n; intros m P Q HP HQ.
  - rewrite Nat.add_0_r. cbn [miller pmul]. rewrite step_B0. ring.
  - rewrite Nat.add_succ_r. cbn [miller]. rewrite IHn by auto.
    transitivity (mil m P Q * mil n P Q * (step (mul m P) (mul n P) Q * step (add (mul m P) (mul n P)) P Q)); [rewrite mul_add by auto; ring | ].
    rewrite o_cocycle by auto with sg. rewrite mul_succ. ring.
Qed.
Lemma o_mil_1 : forall n P P' Q, G P -> G P' -> out Q ->
  mil n (add P P') Q * npow (step P P' Q : mul_monoid K) n = mil n P Q * mil n P' Q * step (mul n P) (mul n P') Q.
Proof.
  induction n; intros P P' Q HP HP' HQ.
  - cbn [miller pmul npow mone mul_monoid]. rewrite step_A0. ring.
  - cbn [miller]. change (npow (step P P' Q : mul_monoid K) (S n)) with (step P P' Q * npow (step P P' Q : mul_monoid K) n).
    transitivity ((mil n (add P P') Q * npow (step P P' Q : mul_monoid K) n) * (step (mul n (add P P')) (add P P') Q * step P P' Q)); [ring | ].
    rewrite IHn by auto. rewrite mul_dist by auto.
    transitivity (mil n P Q * mil n P' Q * (step (mul n P) (mul n P') Q * step P P' Q * step (add (mul n P) (mul n P')) (add P P') Q)); [ring | ].
    rewrite o_four by auto with sg. rewrite !mul_succ. ring.
Qed.

(** ** The second argument *)
Local Notation W Q Q' A := (step (pneg Q) (pneg Q') (pneg A)).
Let turn := turn K HK a b HE.
(** points in general position with respect to the subgroup *)
Definition indep (Q Q' : point K) : Prop := out Q /\ out Q' /\ out (add Q Q') /\ out (add Q (pneg Q')).
Lemma indep_off : forall B Q Q', G B -> indep Q Q' -> offx (add B (pneg Q')) Q.
Proof.
  intros B Q Q' HB (O1 & O2 & O3 & O4). apply (offx_of K HK a b); auto with sg.
  - intros E. apply O3. rewrite <- E at 1. rewrite assoc, (comm (pneg Q')), (add_neg_r K HK a C2), (add_0_r K a) by auto with sg. auto.
  - intros E. apply O4. rewrite <- (nn Q). rewrite <- E. rewrite (pneg_add B) by auto with sg. rewrite nn, assoc, (add_neg_r K HK a C2), (add_0_r K a) by auto with sg. auto.
Qed.
Lemma o_star : forall A B Q Q', G A -> G B -> indep Q Q' ->
  step A B (add Q Q') * (W Q Q' A * W Q Q' B) = step A B Q * step A B Q' * W Q Q' (add A B).
Proof.
  intros A B Q Q' HA HB IN. pose proof (fun X H => indep_off X Q Q' H IN) as IO. destruct IN as (HQ & HQ' & HT & HU).
  destruct A as [[xa ya] | ]. 2:{ rewrite !step_A0, (add_0_l K a). unfold pneg at 3. rewrite step_R0. ring. }
  destruct B as [[xb yb] | ]. 2:{ rewrite !step_B0, (add_0_r K a). unfold pneg at 6. rewrite step_R0. ring. }
  assert (NQ := out_fin _ HQ). assert (NQ' := out_fin _ HQ'). assert (NT := out_fin _ HT).
  destruct Q as [[x1 y1] | ]; [ | congruence]. destruct Q' as [[x2 y2] | ]; [ | congruence].
  set (A := Some (xa, ya)) in *. set (B := Some (xb, yb)) in *. set (Q := Some (x1, y1)) in *. set (Q' := Some (x2, y2)) in *.
  assert (NA : A <> None) by discriminate. assert (NB : B <> None) by discriminate.
  destruct (add Q Q') as [[xt yt] | ] eqn:ET; [ | congruence].
  destruct (add A B) as [[xs ys] | ] eqn:ES.
  - assert (HS : G (Some (xs, ys))) by (rewrite <- ES; auto with sg).
      set (Sm := Some (xs, ys)) in *. set (T := Some (xt, yt)) in *.
      assert (NS : Sm <> None) by discriminate.
      assert (ET' : add (pneg Q) (pneg Q') = pneg T) by (rewrite <- pneg_add by auto with sg; rewrite ET; auto).
      assert (Hq := out_neg _ HQ). assert (Hq' := out_neg _ HQ'). assert (Ht := out_neg _ HT). assert (Hma := gneg _ HA).
      assert (Nq := neg_fin _ NQ). assert (Nq' := neg_fin _ NQ'). assert (Nt := neg_fin _ NT).
      assert (Eq : pneg (pneg Q) = Q) by apply nn. assert (Eq' : pneg (pneg Q') = Q') by apply nn. assert (Et : pneg (pneg T) = T) by apply nn.
      set (q := pneg Q) in *. set (q' := pneg Q') in *. set (t := pneg T) in *.
      assert (Mx : forall X p, G X -> out p -> add X p <> None) by (intros; apply out_fin; auto with sg).
      assert (N1 : add B q' <> None) by (apply Mx; auto).
      assert (EB : add (add q q') B = add q (add q' B)) by (apply assoc; auto with sg).
      (* cocycle at -A of (q, q', B) *)
      assert (Z1 : step q q' (pneg A) * step t B (pneg A) = step q' B (pneg A) * step q (add q' B) (pneg A)).
      { rewrite <- ET'. apply (step_cocycle K HK a b HE); auto with sg.
        - rewrite ET'. apply offx_neg. apply out_off'; auto.
        - rewrite comm. apply offx_neg. apply out_off'; auto with sg.
        - rewrite <- EB, ET', comm. apply offx_neg. apply out_off'; auto with sg. }
      (* cocycle at Q of (A, B, q') *)
      assert (EA : add A (add B q') = add Sm q') by (rewrite <- assoc by auto with sg; rewrite ES; auto).
      assert (Z2 : step A B Q * step Sm q' Q = step B q' Q * step A (add B q') Q).
      { rewrite <- ES. apply (step_cocycle K HK a b HE); auto with sg.
        - rewrite ES. apply out_off; auto.
        - rewrite EA. auto. }
      (* symmetries *)
      assert (Y1 : step t B (pneg A) = step A B T).
      { rewrite <- Et. rewrite (step_comm K HK a b HE t B), (step_comm K HK a b HE A B) by auto with sg.
        symmetry. apply turn; auto with sg; try (rewrite (comm B A), ES); auto; [apply out_off; auto | apply out_off'; auto with sg]. }
      assert (Y2 : step q' B (pneg A) = step A B Q').
      { rewrite <- Eq'. rewrite (step_comm K HK a b HE q' B), (step_comm K HK a b HE A B) by auto with sg.
        symmetry. apply turn; auto with sg; try (rewrite (comm B A), ES); auto; [apply out_off; auto | apply out_off'; auto with sg]. }
      assert (IO' : forall X, G X -> offx (add X q') q) by (intros X HX; apply (offx_neg _ _ Q); auto).
      assert (Y3 : step q (add q' B) (pneg A) = step A (add B q') Q).
      { rewrite <- Eq at 1. rewrite (comm q' B). rewrite (step_comm K HK a b HE q), (step_comm K HK a b HE A) by auto with sg.
        assert (H9 : add (add B q') A = add Sm q') by (rewrite comm; auto).
        assert (H8 : add (add B q') q = add B t) by (rewrite assoc by auto with sg; rewrite (comm q' q), ET'; auto).
        rewrite Eq. rewrite <- Eq. symmetry. apply turn; auto with sg.
        - rewrite H9. auto.
        - rewrite H8. auto.
        - rewrite H9. auto.
        - rewrite H8. apply out_off'; auto with sg. }
      assert (Y4 : step Sm q' Q = step q q' (pneg Sm)).
      { rewrite <- Eq. rewrite (step_comm K HK a b HE Sm), (step_comm K HK a b HE q) by auto with sg.
        assert (H7 : add q' q = t) by (rewrite comm; auto).
        apply turn; auto with sg; try rewrite H7; auto; try (rewrite (comm q' Sm)); auto.
        apply out_off'; auto. }
      assert (Y5 : step B q' Q = step q q' (pneg B)).
      { rewrite <- Eq. rewrite (step_comm K HK a b HE B), (step_comm K HK a b HE q) by auto with sg.
        assert (H7 : add q' q = t) by (rewrite comm; auto).
        apply turn; auto with sg; try rewrite H7; auto; try (rewrite (comm q' B)); auto.
        apply out_off'; auto. }
      rewrite Y1, Y2, Y3 in Z1. rewrite Y4, Y5 in Z2.
      transitivity ((step q q' (pneg A) * step A B T) * step q q' (pneg B)); [ring | ]. rewrite Z1.
      transitivity (step A B Q' * (step q q' (pneg B) * step A (add B q') Q)); [ring | ]. rewrite <- Z2. ring.
  - (* A + B = O *)
    destruct (infinite_sum K HK a b xa ya xb yb (gon _ HA) (gon _ HB) ES) as [-> ->].
    assert (SV : forall x y, step A B (Some (x, y)) = x - xa).
    { intros x y. unfold miller_step, A, B. unfold A, B in ES. rewrite ES. reflexivity. }
    unfold pneg at 9. rewrite step_R0. rewrite SV. unfold Q at 3, Q' at 3. rewrite !SV. change B with (pneg A). rewrite nn.
      transitivity ((xt - xa) * (W Q Q' A * step (pneg Q) (pneg Q') (pneg (pneg A)))); [rewrite nn; ring | ].
      rewrite (norm2 K HK a b HE (pneg Q) (pneg Q') (pneg A)) with (xa := x1) (ya := - y1) (xb := x2) (yb := - y2) (xs := xt) (ys := - yt) (x := xa) (y := - ya); auto with sg; try discriminate.
      * ring.
      * rewrite <- pneg_add by auto with sg. rewrite ET. discriminate.
      * rewrite <- pneg_add by auto with sg. rewrite ET. apply offx_neg. apply out_off'; auto with sg.
      * rewrite <- pneg_add by auto with sg. rewrite ET. reflexivity.
Qed.
Lemma o_mil_2 : forall n P Q Q', G P -> indep Q Q' ->
  mil n P (add Q Q') * npow (W Q Q' P : mul_monoid K) n = mil n P Q * mil n P Q' * W Q Q' (mul n P).
Proof.
  induction n; intros P Q Q' HP HQ.
  - cbn [miller pmul npow mone mul_monoid]. unfold pneg at 3. rewrite step_R0. ring.
  - cbn [miller]. change (npow (W Q Q' P : mul_monoid K) (S n)) with (W Q Q' P * npow (W Q Q' P : mul_monoid K) n).
    transitivity ((mil n P (add Q Q') * npow (W Q Q' P : mul_monoid K) n) * (step (mul n P) P (add Q Q') * W Q Q' P)); [ring | ].
    rewrite IHn by auto.
    transitivity (mil n P Q * mil n P Q' * (step (mul n P) P (add Q Q') * (W Q Q' (mul n P) * W Q Q' P))); [ring | ].
    rewrite o_star by auto with sg. rewrite mul_succ. ring.
Qed.
Lemma o_W_nz : forall A Q Q', G A -> indep Q Q' -> W Q Q' A <> 0.
Proof.
  intros A Q Q' HA (H1 & H2 & H3 & _). destruct A as [[x y] | ]; [ | unfold pneg at 3; rewrite step_R0; apply (f_1_neq_0 K HK)].
  cbn [pneg]. assert (HM : G (Some (x, - y))) by (apply (gneg (Some (x, y))); auto).
  apply (step_nz K HK a b HE); auto with sg; try (apply out_off'; auto with sg).
  rewrite <- pneg_add by auto with sg. auto with sg.
Qed.

(** ** Up to r-th powers *)
Variables r e : Z.
Hypothesis Hr : (0 < r)%Z.
Hypothesis He : (0 <= e)%Z.
Hypothesis FERMAT : forall x : K, x <> 0 -> fpow x (r * e) = 1.
Local Notation ord P := (pzmul K a r P = None).
Local Notation f P X := (fpow (mil (Z.to_nat r) P X) e).
Let omul := order_mul K a r e Hr FERMAT.
Let pm := fpow_mul' K HK e.
Lemma o_f1 : forall P P' X, G P -> G P' -> out X -> ord P -> ord P' -> f (add P P') X = f P X * f P' X.
Proof.
  intros P P' X HP HP' HX O O'. rewrite <- pm. apply (kill K HK r e Hr He FERMAT) with (z := step P P' X); [apply o_step_nz; auto | ].
  rewrite o_mil_1 by auto. rewrite (omul P O), step_A0. ring.
Qed.
Lemma o_f2 : forall P X Y, G P -> indep X Y -> ord P -> f P (add X Y) = f P X * f P Y.
Proof.
  intros P X Y HP HX O. rewrite <- pm. apply (kill K HK r e Hr He FERMAT) with (z := W X Y P); [apply o_W_nz; auto | ].
  rewrite o_mil_2 by auto. rewrite (omul P O). unfold pneg at 3. rewrite step_R0. ring.
Qed.
Lemma o_f_nz : forall P X, G P -> out X -> f P X <> 0.
Proof. intros. apply (fpow_nz K HK). apply o_mil_nz; auto. Qed.
Lemma o_sum : forall P X X' T, G P -> ord P -> indep X T -> indep X' (pneg T) -> indep (add X T) (add X' (pneg T)) ->
  f P X * f P X' * (f P T * f P (pneg T)) = f P (add X X').
Proof.
  intros P X X' T HP O I1 I2 I3.
  transitivity ((f P X * f P T) * (f P X' * f P (pneg T))); [ring | ].
  rewrite <- !o_f2 by auto. f_equal. f_equal. destruct I1 as (H1 & H2 & _). destruct I2 as (H3 & _).
  rewrite (comm X' (pneg T)). rewrite assoc by auto with sg. f_equal. rewrite <- assoc by auto with sg.
  rewrite (add_neg_r K HK a C2). apply add_0_l.
Qed.
(** The value depends only on the divisor class *)
Variable R : point K.
Hypothesis OR : forall k, (0 < k < 5)%nat -> out (mul k R).
Let on_R : on R. Proof. replace R with (mul 1 R) by (cbn [pmul]; apply (add_0_r K a)). apply OR. lia. Qed.
Let onm k : on (mul k R). Proof. apply (pmul_on K HK a b C2). auto. Qed.
Hint Resolve on_R onm : sg.
Lemma mR : forall m n, add (mul m R) (mul n R) = mul (m + n) R.
Proof.
  induction m; intros n; cbn [pmul Nat.add]; [apply (add_0_l K a) | ]. rewrite assoc by auto with sg. rewrite IHm. auto.
Qed.
Lemma mR1 : mul 1 R = R. Proof. cbn [pmul]. apply (add_0_r K a). Qed.
Lemma mR2 : forall m n, add (mul (m + n) R) (pneg (mul n R)) = mul m R.
Proof. intros. rewrite <- mR, assoc, (add_neg_r K HK a C2), (add_0_r K a) by auto with sg. auto. Qed.
Lemma sR1 : forall A, G A -> add (add A R) (mul 2 R) = add A (mul 3 R).
Proof. intros. rewrite assoc by auto with sg. f_equal. Qed.
Lemma sR2 : forall A, G A -> add (add A R) (pneg (mul 2 R)) = add A (pneg R).
Proof.
  intros. rewrite assoc by auto with sg. f_equal. cbn [pmul]. rewrite (add_0_r K a), pneg_add, <- assoc by auto with sg. rewrite (add_neg_r K HK a C2). apply add_0_l.
Qed.
Lemma out_R : out R. Proof. rewrite <- mR1. apply OR. lia. Qed.
Hint Resolve out_R : sg.
Lemma ind1 : forall A, G A -> indep (add A R) (mul 2 R).
Proof.
  intros A HA. unfold indep. rewrite sR1, sR2 by auto. refine (conj _ (conj _ (conj _ _))).
  - apply out_add; [auto | apply out_R].
  - apply OR. lia.
  - apply out_add; [auto | apply OR; lia].
  - apply out_add; [auto | apply out_neg; apply out_R].
Qed.
Lemma ind2 : forall A, G A -> indep (add A R) (pneg (mul 2 R)).
Proof.
  intros A HA. destruct (ind1 A HA) as (H1 & H2 & H3 & H4). unfold indep. rewrite nn. auto with sg.
Qed.
Lemma ind3 : forall A A', G A -> G A' -> indep (add (add A R) (mul 2 R)) (add (add A' R) (pneg (mul 2 R))).
Proof.
  intros A A' HA HA'. destruct (ind1 A HA) as (_ & _ & H3 & _). destruct (ind1 A' HA') as (_ & _ & _ & H4).
  rewrite sR1 in * by auto. rewrite sR2 in * by auto. refine (conj _ (conj _ (conj _ _))); auto.
  - replace (add (add A (mul 3 R)) (add A' (pneg R))) with (add (add A A') (mul 2 R)); [apply out_add; auto with sg; apply OR; lia | ].
    assert (E : mul 2 R = add (mul 3 R) (pneg R)) by (rewrite <- mR1 at 3; symmetry; apply (mR2 2 1)).
    rewrite E, !assoc by auto with sg. f_equal. rewrite <- !assoc by auto with sg. f_equal. apply comm.
  - replace (add (add A (mul 3 R)) (pneg (add A' (pneg R)))) with (add (add A (pneg A')) (mul 4 R)); [apply out_add; auto with sg; apply OR; lia | ].
    assert (E : mul 4 R = add (mul 3 R) R) by (rewrite <- mR1 at 3; symmetry; apply (mR 3 1)).
    rewrite E, pneg_add, nn, !assoc by auto with sg. f_equal. rewrite <- !assoc by auto with sg. f_equal. apply comm.
Qed.
Lemma o_class : forall P A B, G P -> ord P -> G A -> G B -> f P (add A R) * f P (add B R) = f P (add (add A B) R) * f P R.
Proof.
  intros P A B HP O HA HB. assert (H2 : out (mul 2 R)) by (apply OR; lia).
  pose proof (o_sum P (add A R) (add B R) (mul 2 R) HP O (ind1 A HA) (ind2 B HB) (ind3 A B HA HB)) as E1.
  pose proof (o_sum P (add (add A B) R) (add None R) (mul 2 R) HP O (ind1 _ (gadd _ _ HA HB)) (ind2 None g0) (ind3 _ _ (gadd _ _ HA HB) g0)) as E2.
  rewrite (add_0_l K a) in E2.
  replace (add (add (add A B) R) R) with (add (add A R) (add B R)) in E2.
  2:{ rewrite !assoc by auto with sg. f_equal. rewrite <- !assoc by auto with sg. rewrite (comm R B). reflexivity. }
  rewrite <- E1 in E2.
  assert (N : f P (mul 2 R) * f P (pneg (mul 2 R)) <> 0) by (apply (f_mul_nz K HK); apply o_f_nz; auto with sg).
  symmetry. revert E2 N. generalize (f P (mul 2 R) * f P (pneg (mul 2 R))). intros z E2 N.
  set (x := f P (add (add A B) R) * f P R) in *. set (y := f P (add A R) * f P (add B R)) in *.
  transitivity ((x * z) / z); [field; auto | ]. rewrite E2. field. auto.
Qed.
End S.
