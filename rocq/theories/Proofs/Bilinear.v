(** Bilinearity of the Tate pairing on two subgroups meeting only in infinity. *)
From Coq Require Import ZArith List Bool Lia Ring Field.
From Verif.Base Require Import Outcome Algebra Slots.
From Verif.Spec Require Import Curve Tate.
From Verif.Proofs Require Import PowFacts FieldFacts SlotFacts CurveGroup LineAlgebra TateFacts.

Section S.
Variable K : fld.
Hypothesis HK : fld_laws K.
Add Field KFbl : (fl_field K HK).
Local Notation "0" := f0. Local Notation "1" := f1.
Local Notation "x + y" := (fadd x y). Local Notation "x - y" := (fsub x y). Local Notation "x * y" := (fmul x y). Local Notation "- x" := (fopp x).
Local Notation "x / y" := (fdiv x y).
Variables (a b : K).
Local Notation on := (on_curve K a b).
Local Notation add := (padd K a).
Local Notation mul := (pmul K a).
Local Notation step := (miller_step K a).
Local Notation mil := (miller K a).
Local Notation offx := (offx K).
Hypothesis HE : elliptic K a b.
Let C2 : f2 K <> 0 := proj1 HE.
Let SM := proj2 HE.
Let assoc := assoc K HK a b HE.
Let comm := comm K HK a.
Let onadd := onadd K HK a b HE.
Let onneg : forall P, on P -> on (pneg P) := neg_on K HK a b.

Variables G1 G2 : point K -> Prop.
Record subgroup (G : point K -> Prop) : Prop := {
  sg_on : forall P, G P -> on P;
  sg_0 : G None;
  sg_add : forall P Q, G P -> G Q -> G (add P Q);
  sg_neg : forall P, G P -> G (pneg P) }.
Hypothesis S1 : subgroup G1.
Hypothesis S2 : subgroup G2.
Hypothesis D12 : forall P, G1 P -> G2 P -> P = None.
Hint Resolve (sg_on G1 S1) (sg_on G2 S2) (sg_0 G1 S1) (sg_0 G2 S2) (sg_add G1 S1) (sg_add G2 S2) (sg_neg G1 S1) (sg_neg G2 S2) : sg.
Hint Resolve onadd onneg : sg.

Lemma mul_G1 : forall n P, G1 P -> G1 (mul n P). Proof. induction n; cbn; auto with sg. Qed.
Hint Resolve mul_G1 : sg.
Lemma neg_sol : forall A B C, on A -> on B -> add A B = C -> B = add C (pneg A).
Proof.
  intros A B C HA HB <-. rewrite (comm A B), assoc by auto with sg. rewrite (add_neg_r K HK a C2). symmetry. apply add_0_r.
Qed.
Lemma neg_neg' : forall P : point K, pneg (pneg P) = P. Proof. apply (neg_neg K HK). Qed.
Lemma mixed : forall A A' Q, G1 A -> G1 A' -> G2 Q -> Q <> None -> add A Q <> A'.
Proof.
  intros A A' Q HA HA' HQ N E. apply N. apply D12; auto. rewrite (neg_sol A Q A') by auto with sg. auto with sg.
Qed.
Lemma off12 : forall A Q, G1 A -> G2 Q -> Q <> None -> offx A Q.
Proof.
  intros A Q HA HQ N. apply (offx_of K HK a b); auto with sg.
  - intros ->. auto.
  - intros E. apply N. apply D12; auto. rewrite <- (neg_neg' Q), <- E. auto with sg.
Qed.
Lemma offx_sym : forall P Q, offx P Q -> offx Q P.
Proof. intros [[x y] | ] [[x' y'] | ]; cbn; auto. Qed.
Lemma offx_neg : forall P Q, offx P Q -> offx P (pneg Q).
Proof. intros [[x y] | ] [[x' y'] | ]; cbn; auto. Qed.
Lemma off21 : forall A Q, G1 A -> G2 Q -> A <> None -> offx Q A.
Proof.
  intros A Q HA HQ N. apply (offx_of K HK a b); auto with sg.
  - intros ->. auto.
  - intros E. apply N. apply D12; auto. rewrite <- (neg_neg' A), <- E. auto with sg.
Qed.
(** x(A + Q) differs from x(A') and from x(Q') *)
Lemma off_mix1 : forall A Q A', G1 A -> G2 Q -> G1 A' -> Q <> None -> offx (add A Q) A'.
Proof. intros A Q A' HA HQ HA' N. apply (offx_of K HK a b); auto with sg; apply mixed; auto with sg. Qed.
Lemma mixed2 : forall A Q Q', G1 A -> G2 Q -> G2 Q' -> A <> None -> add A Q <> Q'.
Proof.
  intros A Q Q' HA HQ HQ' N E. apply N. apply D12; auto. rewrite comm in E. rewrite (neg_sol Q A Q') by auto with sg. auto with sg.
Qed.
Lemma off_mix2 : forall A Q Q', G1 A -> G2 Q -> G2 Q' -> A <> None -> offx (add A Q) Q'.
Proof. intros A Q Q' HA HQ HQ' N. apply (offx_of K HK a b); auto with sg; apply mixed2; auto with sg. Qed.

Lemma step_R0 : forall A B, step A B None = 1.
Proof. intros [[? ?] | ] [[? ?] | ]; reflexivity. Qed.
Lemma step_B0 : forall A R, step A None R = 1.
Proof. intros [[? ?] | ] R; reflexivity. Qed.
Lemma step_A0 : forall A R, step None A R = 1.
Proof. reflexivity. Qed.
Lemma neg_fin : forall P : point K, P <> None -> pneg P <> None.
Proof. intros [[? ?] | ] H; cbn; congruence. Qed.

Lemma cocycle : forall A B C Q, G1 A -> G1 B -> G1 C -> G2 Q ->
  step A B Q * step (add A B) C Q = step B C Q * step A (add B C) Q.
Proof.
  intros A B C Q HA HB HC HQ. destruct Q as [q | ]; [ | rewrite !step_R0; ring].
  apply (step_cocycle K HK a b HE); auto with sg; apply off12; auto with sg; discriminate.
Qed.
Lemma scomm : forall A B R, G1 A -> G1 B -> step A B R = step B A R.
Proof. intros. apply (step_comm K HK a b HE); auto with sg. Qed.
Lemma step_nz' : forall A B Q, G1 A -> G1 B -> G2 Q -> step A B Q <> 0.
Proof.
  intros A B [[x y] | ] HA HB HQ; [ | rewrite step_R0; apply (f_1_neq_0 K HK)].
  apply (step_nz K HK a b HE); auto with sg; apply off12; auto with sg; discriminate.
Qed.
Lemma four : forall A B C D Q, G1 A -> G1 B -> G1 C -> G1 D -> G2 Q ->
  step A B Q * step C D Q * step (add A B) (add C D) Q = step A C Q * step B D Q * step (add A C) (add B D) Q.
Proof.
  intros A B C D Q HA HB HC HD HQ.
  transitivity (step A B Q * (step (add A B) C Q * step (add (add A B) C) D Q)).
  { rewrite (cocycle (add A B) C D Q) by auto with sg. ring. }
  transitivity (step A C Q * (step (add A C) B Q * step (add (add A C) B) D Q)).
  2:{ rewrite (cocycle (add A C) B D Q) by auto with sg. ring. }
  replace (add (add A C) B) with (add (add A B) C) by (rewrite !assoc by auto with sg; rewrite (comm B C); auto).
  transitivity ((step A B Q * step (add A B) C Q) * step (add (add A B) C) D Q); [ring | ].
  transitivity ((step A C Q * step (add A C) B Q) * step (add (add A B) C) D Q); [ | ring].
  rewrite !cocycle by auto. rewrite (scomm C B) by auto. rewrite (comm C B). reflexivity.
Qed.

Lemma mul_succ : forall n P, add (mul n P) P = mul (S n) P. Proof. intros. cbn [pmul]. apply comm. Qed.
Lemma mul_dist : forall n P P', G1 P -> G1 P' -> mul n (add P P') = add (mul n P) (mul n P').
Proof.
  induction n; intros P P' H H'; [reflexivity | ]. cbn [pmul]. rewrite IHn by auto.
  assert (H1 := mul_G1 n P H). assert (H2 := mul_G1 n P' H').
  rewrite !assoc by auto with sg. f_equal. rewrite <- !assoc by auto with sg. rewrite (comm P'). reflexivity.
Qed.
Lemma mul_add : forall m n P, G1 P -> mul (m + n)%nat P = add (mul m P) (mul n P).
Proof.
  induction m; intros n P H; cbn [pmul Nat.add]; [rewrite (add_0_l K a); auto | ]. rewrite IHm by auto.
  assert (H1 := mul_G1 m P H). assert (H2 := mul_G1 n P H). rewrite assoc by auto with sg. reflexivity.
Qed.
Lemma mil_nz : forall n P Q, G1 P -> G2 Q -> mil n P Q <> 0.
Proof.
  induction n; intros P Q HP HQ; cbn [miller]; [apply (f_1_neq_0 K HK) | ]. apply (f_mul_nz K HK); auto. apply step_nz'; auto with sg.
Qed.
Lemma mil_R0 : forall n P, mil n P None = 1.
Proof. induction n; intros P; cbn [miller]; auto. rewrite IHn, step_R0. ring. Qed.
Lemma mil_P0 : forall n Q, mil n None Q = 1.
Proof. induction n; intros Q; cbn [miller]; auto. rewrite IHn, step_B0. ring. Qed.
(** f_{m+n} = f_m f_n l_{mP,nP} *)
Lemma mil_add : forall n m P Q, G1 P -> G2 Q -> mil (m + n)%nat P Q = mil m P Q * mil n P Q * step (mul m P) (mul n P) Q.
Proof.
  induction n; intros m P Q HP HQ.
  - rewrite Nat.add_0_r. cbn [miller pmul]. rewrite step_B0. ring.
  - rewrite Nat.add_succ_r. cbn [miller]. rewrite IHn by auto.
    assert (H1 := mul_G1 m P HP). assert (H2 := mul_G1 n P HP).
    transitivity (mil m P Q * mil n P Q * (step (mul m P) (mul n P) Q * step (add (mul m P) (mul n P)) P Q)); [rewrite mul_add by auto; ring | ].
    rewrite cocycle by auto. rewrite mul_succ. ring.
Qed.

(** ** First argument *)
Lemma mil_1 : forall n P P' Q, G1 P -> G1 P' -> G2 Q ->
  mil n (add P P') Q * npow (step P P' Q : mul_monoid K) n = mil n P Q * mil n P' Q * step (mul n P) (mul n P') Q.
Proof.
  induction n; intros P P' Q HP HP' HQ.
  - cbn [miller pmul npow mone mul_monoid]. rewrite step_A0. ring.
  - cbn [miller]. change (npow (step P P' Q : mul_monoid K) (S n)) with (step P P' Q * npow (step P P' Q : mul_monoid K) n).
    assert (H1 := mul_G1 n P HP). assert (H2 := mul_G1 n P' HP').
    transitivity ((mil n (add P P') Q * npow (step P P' Q : mul_monoid K) n) * (step (mul n (add P P')) (add P P') Q * step P P' Q)); [ring | ].
    rewrite IHn by auto. rewrite mul_dist by auto.
    transitivity (mil n P Q * mil n P' Q * (step (mul n P) (mul n P') Q * step P P' Q * step (add (mul n P) (mul n P')) (add P P') Q)); [ring | ].
    rewrite four by auto. rewrite !mul_succ. ring.
Qed.

(** ** Second argument *)
Local Notation W Q Q' A := (step (pneg Q) (pneg Q') (pneg A)).
Lemma turn : forall A B C, on A -> on B -> on C -> A <> None -> B <> None -> C <> None -> add A B <> None -> add A C <> None ->
  offx (add A B) C -> offx (add A C) B -> step A B (pneg C) = step A C (pneg B).
Proof. apply (step_turn K HK a b HE). Qed.
Lemma pneg_add : forall A B, on A -> on B -> pneg (add A B) = add (pneg A) (pneg B).
Proof.
  intros A B HA HB.
  assert (E : add (add A B) (add (pneg A) (pneg B)) = None).
  { rewrite assoc by auto with sg. rewrite <- (assoc B), (comm B), (assoc (pneg A)) by auto with sg.
    rewrite (add_neg_r K HK a C2), (add_0_r K a). apply (add_neg_r K HK a C2). }
  pose proof (neg_sol (add A B) (add (pneg A) (pneg B)) None ltac:(auto with sg) ltac:(auto with sg) E) as Q. rewrite (add_0_l K a) in Q. auto.
Qed.

Lemma norm2 : forall A B R, on A -> on B -> on R -> A <> None -> B <> None -> R <> None -> add A B <> None -> offx (add A B) R ->
  forall xa ya xb yb xs ys x y, A = Some (xa, ya) -> B = Some (xb, yb) -> add A B = Some (xs, ys) -> R = Some (x, y) ->
  (xs - x) * (step A B R * step A B (pneg R)) = (xa - x) * (xb - x).
Proof.
  intros A B R HA HB HR _ _ _ _ O xa ya xb yb xs ys x y -> -> E ->. rewrite E in O. cbn [offx pneg] in *.
  rewrite (step_norm K HK a b HE xa ya xb yb xs ys x y) by auto.
  assert (D : x - xs <> 0) by (intro F; apply O; symmetry; apply (f_sub_0 K HK); auto). field. auto.
Qed.

Lemma star : forall A B Q Q', G1 A -> G1 B -> G2 Q -> G2 Q' ->
  step A B (add Q Q') * (W Q Q' A * W Q Q' B) = step A B Q * step A B Q' * W Q Q' (add A B).
Proof.
  intros A B Q Q' HA HB HQ HQ'.
  destruct A as [[xa ya] | ]. 2:{ rewrite !step_A0, (add_0_l K a). unfold pneg at 3. rewrite step_R0. ring. }
  destruct B as [[xb yb] | ]. 2:{ rewrite !step_B0, (add_0_r K a). unfold pneg at 6. rewrite step_R0. ring. }
  destruct Q as [[x1 y1] | ]. 2:{ rewrite (add_0_l K a), step_R0. unfold pneg at 1 4 7. rewrite !step_A0. ring. }
  destruct Q' as [[x2 y2] | ]. 2:{ rewrite (add_0_r K a), step_R0. unfold pneg at 2 5 8. rewrite !step_B0. ring. }
  set (A := Some (xa, ya)) in *. set (B := Some (xb, yb)) in *. set (Q := Some (x1, y1)) in *. set (Q' := Some (x2, y2)) in *.
  assert (NA : A <> None) by discriminate. assert (NB : B <> None) by discriminate. assert (NQ : Q <> None) by discriminate. assert (NQ' : Q' <> None) by discriminate.
  destruct (add A B) as [[xs ys] | ] eqn:ES.
  - assert (HS : G1 (Some (xs, ys))) by (rewrite <- ES; auto with sg).
    destruct (add Q Q') as [[xt yt] | ] eqn:ET.
    + (* both finite *)
      assert (HT : G2 (Some (xt, yt))) by (rewrite <- ET; auto with sg).
      set (Sm := Some (xs, ys)) in *. set (T := Some (xt, yt)) in *.
      assert (NS : Sm <> None) by discriminate. assert (NT : T <> None) by discriminate.
      assert (ET' : add (pneg Q) (pneg Q') = pneg T) by (rewrite <- pneg_add by auto with sg; rewrite ET; auto).
      assert (Hq := sg_neg _ S2 _ HQ). assert (Hq' := sg_neg _ S2 _ HQ'). assert (Ht := sg_neg _ S2 _ HT). assert (Hma := sg_neg _ S1 _ HA).
      assert (Nq := neg_fin _ NQ). assert (Nq' := neg_fin _ NQ'). assert (Nt := neg_fin _ NT).
      assert (Eq : pneg (pneg Q) = Q) by apply neg_neg'. assert (Eq' : pneg (pneg Q') = Q') by apply neg_neg'. assert (Et : pneg (pneg T) = T) by apply neg_neg'.
      set (q := pneg Q) in *. set (q' := pneg Q') in *. set (t := pneg T) in *.
      assert (Mx : forall X p, G1 X -> G2 p -> p <> None -> add X p <> None) by (intros; apply (mixed X None p); auto with sg).
      assert (N1 : add B q' <> None) by (apply Mx; auto).
      assert (EB : add (add q q') B = add q (add q' B)) by (apply assoc; auto with sg).
      (* cocycle at -A of (q, q', B) *)
      assert (Z1 : step q q' (pneg A) * step t B (pneg A) = step q' B (pneg A) * step q (add q' B) (pneg A)).
      { rewrite <- ET'. apply (step_cocycle K HK a b HE); auto with sg.
        - rewrite ET'. apply offx_neg. apply off21; auto.
        - rewrite comm. apply offx_neg. apply off_mix1; auto.
        - rewrite <- EB, ET', comm. apply offx_neg. apply off_mix1; auto. }
      (* cocycle at Q of (A, B, q') *)
      assert (EA : add A (add B q') = add Sm q') by (rewrite <- assoc by auto with sg; rewrite ES; auto).
      assert (Z2 : step A B Q * step Sm q' Q = step B q' Q * step A (add B q') Q).
      { rewrite <- ES. apply (step_cocycle K HK a b HE); auto with sg.
        - rewrite ES. apply off12; auto.
        - apply off_mix2; auto.
        - rewrite EA. apply off_mix2; auto. }
      (* symmetries *)
      assert (Y1 : step t B (pneg A) = step A B T).
      { rewrite <- Et. rewrite (step_comm K HK a b HE t B), (step_comm K HK a b HE A B) by auto with sg.
        symmetry. apply turn; auto with sg; try (rewrite (comm B A), ES); auto; [apply off12; auto | apply off_mix1; auto]. }
      assert (Y2 : step q' B (pneg A) = step A B Q').
      { rewrite <- Eq'. rewrite (step_comm K HK a b HE q' B), (step_comm K HK a b HE A B) by auto with sg.
        symmetry. apply turn; auto with sg; try (rewrite (comm B A), ES); auto; [apply off12; auto | apply off_mix1; auto]. }
      assert (Y3 : step q (add q' B) (pneg A) = step A (add B q') Q).
      { rewrite <- Eq at 1. rewrite (comm q' B). rewrite (step_comm K HK a b HE q), (step_comm K HK a b HE A) by auto with sg.
        assert (H9 : add (add B q') A = add Sm q') by (rewrite comm; auto).
        assert (H8 : add (add B q') q = add B t) by (rewrite assoc by auto with sg; rewrite (comm q' q), ET'; auto).
        rewrite Eq. rewrite <- Eq. symmetry. apply turn; auto with sg.
        - rewrite H9. auto.
        - rewrite H8. auto.
        - rewrite H9. apply off_mix2; auto.
        - rewrite H8. apply off_mix1; auto. }
      assert (Y4 : step Sm q' Q = step q q' (pneg Sm)).
      { rewrite <- Eq. rewrite (step_comm K HK a b HE Sm), (step_comm K HK a b HE q) by auto with sg.
        assert (H7 : add q' q = t) by (rewrite comm; auto).
        apply turn; auto with sg; try rewrite H7; auto; try (rewrite (comm q' Sm)).
        - apply Mx; auto.
        - apply off_mix2; auto.
        - apply off21; auto. }
      assert (Y5 : step B q' Q = step q q' (pneg B)).
      { rewrite <- Eq. rewrite (step_comm K HK a b HE B), (step_comm K HK a b HE q) by auto with sg.
        assert (H7 : add q' q = t) by (rewrite comm; auto).
        apply turn; auto with sg; try rewrite H7; auto; try (rewrite (comm q' B)); auto.
        - apply off_mix2; auto.
        - apply off21; auto. }
      rewrite Y1, Y2, Y3 in Z1. rewrite Y4, Y5 in Z2.
      transitivity ((step q q' (pneg A) * step A B T) * step q q' (pneg B)); [ring | ]. rewrite Z1.
      transitivity (step A B Q' * (step q q' (pneg B) * step A (add B q') Q)); [ring | ]. rewrite <- Z2. ring.
    + (* Q + Q' = O *)
      destruct (infinite_sum K HK a b x1 y1 x2 y2 (sg_on _ S2 _ HQ) (sg_on _ S2 _ HQ') ET) as [-> ->].
      assert (ET' : add (pneg Q) (pneg Q') = None) by (rewrite <- pneg_add by auto with sg; rewrite ET; auto).
      rewrite step_R0.
      assert (WV : forall x y, W Q Q' (Some (x, y)) = x - x1).
      { intros x y. unfold miller_step, pneg, Q, Q'. unfold pneg, Q, Q' in ET'. rewrite ET'. reflexivity. }
      unfold A at 1, B at 1. rewrite !WV. change Q' with (pneg Q).
      transitivity ((xs - x1) * (step A B Q * step A B (pneg Q))); [ | ring].
      rewrite (norm2 A B Q) with (xa := xa) (ya := ya) (xb := xb) (yb := yb) (xs := xs) (ys := ys) (x := x1) (y := y1); auto with sg.
      * ring.
      * congruence.
      * rewrite ES. apply off12; auto.
  - (* A + B = O *)
    destruct (infinite_sum K HK a b xa ya xb yb (sg_on _ S1 _ HA) (sg_on _ S1 _ HB) ES) as [-> ->].
    assert (SV : forall x y, step A B (Some (x, y)) = x - xa).
    { intros x y. unfold miller_step, A, B. unfold A, B in ES. rewrite ES. reflexivity. }
    unfold pneg at 9. rewrite step_R0. unfold Q at 4, Q' at 4. rewrite !SV.
    destruct (add Q Q') as [[xt yt] | ] eqn:ET.
    + assert (HT : G2 (Some (xt, yt))) by (rewrite <- ET; auto with sg). rewrite SV. change B with (pneg A). rewrite neg_neg'.
      transitivity ((xt - xa) * (W Q Q' A * step (pneg Q) (pneg Q') (pneg (pneg A)))); [rewrite neg_neg'; ring | ].
      rewrite (norm2 (pneg Q) (pneg Q') (pneg A)) with (xa := x1) (ya := - y1) (xb := x2) (yb := - y2) (xs := xt) (ys := - yt) (x := xa) (y := - ya); auto with sg; try discriminate.
      * ring.
      * rewrite <- pneg_add by auto with sg. rewrite ET. discriminate.
      * rewrite <- pneg_add by auto with sg. rewrite ET. apply offx_neg. apply off21; auto with sg.
      * rewrite <- pneg_add by auto with sg. rewrite ET. reflexivity.
    + destruct (infinite_sum K HK a b x1 y1 x2 y2 (sg_on _ S2 _ HQ) (sg_on _ S2 _ HQ') ET) as [-> ->].
      assert (ET' : add (pneg Q) (pneg Q') = None) by (rewrite <- pneg_add by auto with sg; rewrite ET; auto).
      rewrite step_R0.
      assert (WV : forall x y, W Q Q' (Some (x, y)) = x - x1).
      { intros x y. unfold miller_step, pneg, Q, Q'. unfold pneg, Q, Q' in ET'. rewrite ET'. reflexivity. }
      unfold A, B. rewrite !WV. ring.
Qed.
Lemma mil_2 : forall n P Q Q', G1 P -> G2 Q -> G2 Q' ->
  mil n P (add Q Q') * npow (W Q Q' P : mul_monoid K) n = mil n P Q * mil n P Q' * W Q Q' (mul n P).
Proof.
  induction n; intros P Q Q' HP HQ HQ'.
  - cbn [miller pmul npow mone mul_monoid]. unfold pneg at 3. rewrite step_R0. ring.
  - cbn [miller]. change (npow (W Q Q' P : mul_monoid K) (S n)) with (W Q Q' P * npow (W Q Q' P : mul_monoid K) n).
    assert (H1 := mul_G1 n P HP).
    transitivity ((mil n P (add Q Q') * npow (W Q Q' P : mul_monoid K) n) * (step (mul n P) P (add Q Q') * W Q Q' P)); [ring | ].
    rewrite IHn by auto.
    transitivity (mil n P Q * mil n P Q' * (step (mul n P) P (add Q Q') * (W Q Q' (mul n P) * W Q Q' P))); [ring | ].
    rewrite star by auto. rewrite mul_succ. ring.
Qed.
Lemma W_nz : forall A Q Q', G1 A -> G2 Q -> G2 Q' -> W Q Q' A <> 0.
Proof.
  intros A Q Q' HA HQ HQ'. destruct A as [[x y] | ]; [ | unfold pneg at 3; rewrite step_R0; apply (f_1_neq_0 K HK)].
  assert (N : Some (x, y) <> None) by discriminate. cbn [pneg].
  apply (step_nz K HK a b HE); auto with sg; try (apply (onneg (Some (x, y))); auto with sg);
    apply (offx_neg _ (Some (x, y))); apply off21; auto with sg.
Qed.

(** ** The reduced pairing *)
Variables r e : Z.
Hypothesis Hr : (0 < r)%Z.
Hypothesis He : (0 <= e)%Z.
Hypothesis FERMAT : forall x : K, x <> 0 -> fpow x (r * e) = 1.
Local Notation tate := (tate K a r e).
Local Notation M := (mul_monoid K).
Let ML := mul_monoid_laws K HK.
Let MC := mul_monoid_comm K HK.
Lemma kill : forall x y z : K, z <> 0 -> x * npow (z : M) (Z.to_nat r) = y -> fpow x e = fpow y e.
Proof.
  intros x y z NZ <-. unfold fpow. change (x * npow (z : M) (Z.to_nat r)) with (mmul M x (zpow (z : M) r)).
  rewrite (zpow_mul_base M ML MC). rewrite <- (zpow_mul M ML) by lia.
  assert (F : zpow (z : M) (r * e) = mone M) by exact (FERMAT z NZ). rewrite F. symmetry. apply ML.
Qed.
Lemma fpow_mul' : forall x y : K, fpow (x * y) e = fpow x e * fpow y e.
Proof. intros. apply (zpow_mul_base M ML MC). Qed.
Lemma fpow_1 : fpow (1 : K) e = 1. Proof. apply (zpow_one M ML). Qed.

Definition order_r (P : point K) : Prop := pzmul K a r P = None.
Lemma order_mul : forall P, order_r P -> mul (Z.to_nat r) P = None.
Proof. intros P H. unfold order_r, pzmul in H. destruct r; try lia. exact H. Qed.

Lemma tate_1 : forall P P' Q, G1 P -> G1 P' -> G2 Q -> order_r P -> order_r P' -> tate (add P P') Q = tate P Q * tate P' Q.
Proof.
  intros P P' Q HP HP' HQ O O'. unfold Tate.tate. rewrite <- fpow_mul'. apply kill with (z := step P P' Q); [apply step_nz'; auto | ].
  rewrite mil_1 by auto. rewrite (order_mul P O), step_A0. ring.
Qed.
Lemma tate_2 : forall P Q Q', G1 P -> G2 Q -> G2 Q' -> order_r P -> tate P (add Q Q') = tate P Q * tate P Q'.
Proof.
  intros P Q Q' HP HQ HQ' O. unfold Tate.tate. rewrite <- fpow_mul'. apply kill with (z := W Q Q' P); [apply W_nz; auto | ].
  rewrite mil_2 by auto. rewrite (order_mul P O). unfold pneg at 3. rewrite step_R0. ring.
Qed.
Lemma tate_P0 : forall Q, tate None Q = 1. Proof. intros. unfold Tate.tate. rewrite mil_P0. apply fpow_1. Qed.
Lemma tate_Q0 : forall P, tate P None = 1. Proof. intros. unfold Tate.tate. rewrite mil_R0. apply fpow_1. Qed.
Lemma tate_r : forall P Q, G1 P -> G2 Q -> fpow (tate P Q) r = 1.
Proof.
  intros P Q HP HQ. unfold Tate.tate, fpow. rewrite <- (zpow_mul M ML) by lia. rewrite Z.mul_comm. apply FERMAT. apply mil_nz; auto.
Qed.
Lemma order_nmul : forall n P, G1 P -> order_r P -> order_r (mul n P).
Proof.
  intros n P HP O. unfold order_r, pzmul in *. destruct r as [ | rp | ]; try lia. generalize dependent (Pos.to_nat rp). intros m O.
  assert (E : forall k, mul m (mul k P) = mul k (mul m P)).
  { induction k; cbn [pmul].
    - clear. induction m; cbn [pmul]; [reflexivity | rewrite IHm; reflexivity].
    - rewrite mul_dist by auto with sg. rewrite IHk. auto. }
  rewrite E, O. clear. induction n; cbn [pmul]; [reflexivity | rewrite IHn; reflexivity].
Qed.
Lemma tate_mul1 : forall n P Q, G1 P -> G2 Q -> order_r P -> tate (mul n P) Q = npow (tate P Q : M) n.
Proof.
  induction n; intros P Q HP HQ O; cbn [pmul]; [apply tate_P0 | ]. rewrite tate_1 by (auto using order_nmul with sg). rewrite IHn by auto. reflexivity.
Qed.
Lemma mul_G2 : forall n P, G2 P -> G2 (mul n P). Proof. induction n; cbn; auto with sg. Qed.
Lemma tate_mul2 : forall n P Q, G1 P -> G2 Q -> order_r P -> tate P (mul n Q) = npow (tate P Q : M) n.
Proof.
  induction n; intros P Q HP HQ O; cbn [pmul]; [apply tate_Q0 | ]. rewrite tate_2 by (auto using mul_G2 with sg). rewrite IHn by auto. reflexivity.
Qed.
Lemma tate_bilinear : forall m n P Q, G1 P -> G2 Q -> order_r P -> (0 <= m)%Z -> (0 <= n)%Z ->
  tate (pzmul K a m P) (pzmul K a n Q) = fpow (tate P Q) (m * n).
Proof.
  intros m n P Q HP HQ O Hm Hn.
  assert (E : forall k X, (0 <= k)%Z -> pzmul K a k X = mul (Z.to_nat k) X) by (intros [ | p | p] X; auto; lia). rewrite !E by auto.
  rewrite tate_mul1, tate_mul2 by (auto using mul_G2). unfold fpow. symmetry. change (zpow (tate P Q : M) (m * n) = zpow (zpow (tate P Q : M) n : M) m).
  rewrite <- (zpow_mul M ML) by auto. f_equal. apply Z.mul_comm.
Qed.
End S.
