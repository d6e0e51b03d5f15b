(** Type A1 pairings compute the reduced Tate pairing. *)
From Coq Require Import ZArith List Bool Lia Ring Field Znumtheory.
From Verif.Base Require Import Outcome Array Algebra Slots Gmp.
From Verif.Spec Require Import Curve Tate Quadratic Twist FiniteField PairingValue.
From Verif.Model Require Import GenericPow Curve Lucas Pairing PairingA Miller PairingA1.
From Verif.Proofs Require Import PowFacts FieldFacts SlotFacts QuadFacts CurveGroup CurveFacts LineAlgebra TateFacts Bilinear Embed Frobenius
  Twisted LucasFacts FieldChar ArrayFacts CurveBatch PairingABatch PairingAFacts PairingAApi MillerFacts TwistedValue.
From Verif.Model Require Import Pairing.
Import ListNotations.

Section Lines.
Variable K : fld.
Hypothesis HK : fld_laws K.
Hypothesis C2 : f2 K <> f0.
Add Field KFa1 : (fl_field K HK).
Local Notation "0" := f0. Local Notation "1" := f1.
Local Notation "x + y" := (fadd x y). Local Notation "x - y" := (fsub x y). Local Notation "x * y" := (fmul x y). Local Notation "- x" := (fopp x).
Local Notation "x / y" := (fdiv x y).
Lemma diff_nz : forall X z Px : K, z <> 0 -> X / (z * z) <> Px -> Px * (z * z) - X <> 0.
Proof. intros X z Px Nz N E. apply N. apply (f_sub_0 K HK) in E. rewrite <- E. field. auto. Qed.
Lemma proj_chord : forall X Y z Px Py : K, z <> 0 -> X / (z * z) <> Px ->
  is_line K f1 (Some (X / (z * z), Y / (z * z * z))) (Some (Px, Py)) (compute_abc_line_proj K X Y z (z * z) Px Py).
Proof.
  intros X Y z Px Py Nz N. unfold is_line, compute_abc_line_proj, slope. cbv zeta. rewrite (feqb_false K HK) by auto.
  pose proof (diff_nz X z Px Nz N) as ND.
  assert (EB : z * (z * z) * Px - X * z = z * (Px * (z * z) - X)) by ring.
  assert (ES : Px - X / (z * z) = (Px * (z * z) - X) / (z * z)) by (field; auto).
  rewrite ES, EB. set (dd := Px * (z * z) - X) in *. assert (EX : X = Px * (z * z) - dd) by (unfold dd; ring). rewrite EX. clearbody dd.
  split; [apply (f_mul_nz K HK); auto | ]. split; field; auto.
Qed.
Lemma proj_add_ok : forall w (Px Py : K), jac_ok K w -> (let '(X, _, z, _) := w in X / (z * z) <> Px) ->
  jac_ok K (proj_add K Px Py w) /\ affine K (proj_add K Px Py w) = padd K f1 (affine K w) (Some (Px, Py)).
Proof.
  intros [[[X Y] z] z2] Px Py (Nz & ->) N. pose proof (diff_nz X z Px Nz N) as ND. unfold proj_add. cbv zeta.
  split; [split; [apply (f_mul_nz K HK); auto | auto] | ].
  unfold affine. cbn [padd]. rewrite (feqb_false K HK) by auto. cbn [negb andb]. unfold third.
  assert (ES : Px - X / (z * z) = (Px * (z * z) - X) / (z * z)) by (field; auto). rewrite ES.
  set (dd := Px * (z * z) - X) in *. assert (EX : X = Px * (z * z) - dd) by (unfold dd; ring). rewrite EX. clearbody dd.
  f_equal. f_equal; field; auto.
Qed.
(** the product of two lines *)
Lemma merge_ok : forall abc abc2 Q, eval6 K (merge K abc abc2) Q = Ok (fmul (eval1 K abc Q) (eval1 K abc2 Q)).
Proof.
  intros [[a1 b1] c1] [[a2 b2] c2] [qx qy]. unfold merge, eval6, eval1, a_miller_evalfn. cbn [fst snd]. f_equal.
  change (@fmul (Fq2 K)) with (qmul K (fopp f1)). unfold qmul. cbn [fst snd]. apply f_equal2; ring.
Qed.
(** the table agrees with the loop *)
Variable r : Z.
Hypothesis HT : fld_laws (Fq2 K).
Local Notation bits := (miller_bits K (Fq2 K) (K * K) f1 (compute_abc_tangent K) (compute_abc_line K) (eval1 K) r).
Lemma assoc2 : forall x y z : Fq2 K, fmul (fmul x y) z = fmul x (fmul y z).
Proof. intros. pose proof (fl_field _ HT) as FT. destruct FT as [[] _ _ _]. rewrite Rmul_assoc. reflexivity. Qed.
Definition agree (t t' : a1_table K) (i j : nat) : Prop := forall k, (i <= k < j)%nat -> nth_error t k = nth_error t' k.
Lemma a1_pp_agree : forall m P i tab V Q0 g0 g', bits m P Q0 g0 V = Ok g' -> (i + m + 2 <= length tab)%nat ->
  exists tab', a1_pp_loop K r m P i tab V = Ok tab' /\ length tab' = length tab /\ (forall k, (k < i)%nat -> nth_error tab' k = nth_error tab k) /\
    (forall k, (i <= k <= i + m)%nat -> exists b, nth_error tab' k = Some (Some b) /\ b <> Null K) /\ nth_error tab' (i + m + 1) = Some (Some (Null K)) /\
    (forall Q f, bits m P Q f V = a1_pp_eval K r m i tab' Q f).
Proof.
  induction m; intros P i tab V Q0 g0 g' E L; cbn [miller_bits a1_pp_loop a1_pp_eval] in *; unfold do_tangent in *.
  - destruct (coords K V) as [[vx vy] | | | ] eqn:EC; cbn [bind] in *; try discriminate.
    destruct (put_ok tab i (Some (B3 K (compute_abc_tangent K vx vy))) ltac:(lia)) as (c1 & -> & L1 & H1 & H2). cbn [bind].
    destruct (put_ok c1 (S i) (Some (Null K)) ltac:(lia)) as (c2 & -> & L2 & H3 & H4). exists c2. split; [reflexivity | ]. split; [lia | ]. split; [ | split; [ | split]].
    + intros k Hk. rewrite H4, H2 by lia. auto.
    + intros k Hk. replace k with i by lia. rewrite H4, H1 by lia. eexists. split; [reflexivity | discriminate].
    + rewrite <- H3. f_equal. lia.
    + intros Q f. unfold block, get. rewrite H4, H1 by lia. reflexivity.
  - destruct (coords K V) as [[vx vy] | | | ] eqn:EC; cbn [bind] in *; try discriminate.
    destruct (double_value K f1 V) as [V2 | | | ] eqn:ED; cbn [bind] in *; try discriminate.
    destruct (mpz_tstbit r (Z.of_nat (S m))) eqn:TB.
    + unfold do_line in *. destruct (coords K V2) as [[wx wy] | | | ] eqn:EC2; cbn [bind] in *; try discriminate.
      destruct (coords K P) as [[px py] | | | ] eqn:ECP; cbn [bind] in *; try discriminate.
      destruct (mul_value K f1 V2 P) as [V3 | | | ] eqn:EM; cbn [bind] in *; try discriminate.
      match goal with |- context [put tab i ?x] => destruct (put_ok tab i x ltac:(lia)) as (c1 & -> & L1 & H1 & H2) end. cbn [bind].
      destruct (IHm P (S i) c1 V3 _ _ _ E ltac:(lia)) as (c2 & -> & L2 & H3 & H4 & H5 & H6). exists c2. split; [reflexivity | ]. split; [lia | ]. split; [ | split; [ | split]].
      * intros k Hk. rewrite H3, H2 by lia. auto.
      * intros k Hk. destruct (Nat.eq_dec k i) as [-> | NK]; [ | apply H4; lia]. rewrite H3, H1 by lia. eexists. split; [reflexivity | ].
        destruct (compute_abc_tangent K vx vy) as [[? ?] ?]. destruct (compute_abc_line K wx wy px py) as [[? ?] ?]. discriminate.
      * rewrite <- H5. f_equal. lia.
      * intros Q f. unfold block, get. rewrite H3, H1 by lia. cbn [bind]. rewrite merge_ok. cbn [bind]. rewrite H6, (assoc2 f). reflexivity.
    + cbn [bind] in *. match goal with |- context [put tab i ?x] => destruct (put_ok tab i x ltac:(lia)) as (c1 & -> & L1 & H1 & H2) end. cbn [bind].
      destruct (IHm P (S i) c1 V2 _ _ _ E ltac:(lia)) as (c2 & -> & L2 & H3 & H4 & H5 & H6). exists c2. split; [reflexivity | ]. split; [lia | ]. split; [ | split; [ | split]].
      * intros k Hk. rewrite H3, H2 by lia. auto.
      * intros k Hk. destruct (Nat.eq_dec k i) as [-> | NK]; [ | apply H4; lia]. rewrite H3, H1 by lia. eexists. split; [reflexivity | discriminate].
      * rewrite <- H5. f_equal. lia.
      * intros Q f. unfold block, get. rewrite H3, H1 by lia. cbn [bind eval3]. rewrite H6. reflexivity.
Qed.
Lemma a1_clear_ok : forall tab n, (forall k, (k < n)%nat -> exists b, nth_error tab k = Some (Some b) /\ b <> Null K) -> nth_error tab n = Some (Some (Null K)) ->
  forall i fuel, (i <= n)%nat -> (n < i + fuel)%nat -> a1_pp_clear K fuel tab i = Ok n.
Proof.
  intros tab n H HN i fuel. revert i. induction fuel; intros i Hi F; [lia | ]. cbn [a1_pp_clear]. unfold block, get.
  destruct (Nat.eq_dec i n) as [-> | N]; [rewrite HN; reflexivity | ]. destruct (H i ltac:(lia)) as (b & -> & NB). cbn [bind]. destruct b; try congruence; apply IHfuel; lia.
Qed.
End Lines.

Section A1.
Variable K : fld.
Variables p r l : Z.
Hypothesis TA : type_a1 K p r l.
Let Pp := t1_p _ _ _ _ TA.
Let Q4 := t1_mod _ _ _ _ TA.
Let HK := t1_field _ _ _ _ TA.
Let HO := t1_order _ _ _ _ TA.
Let R3 := t1_n _ _ _ _ TA.
Let RO := t1_odd _ _ _ _ TA.
Let RL := t1_l _ _ _ _ TA.
Add Field KFa1b : (fl_field K HK).
Local Notation "0" := f0. Local Notation "1" := f1.
Local Notation "x + y" := (fadd x y). Local Notation "x - y" := (fsub x y). Local Notation "x * y" := (fmul x y). Local Notation "- x" := (fopp x).
Local Notation "x / y" := (fdiv x y).
Local Notation v := (fopp f1 : K).
Local Notation L := (Quad K v).
Local Notation idh := (idh K).
Local Notation G1 := (torsion K f1 f0 r).
Local Notation onK := (on_curve K f1 f0).
Local Notation val := (type_a_value K p r).
Local Notation mul := (pmul K f1).
Local Notation pair m := (a1_pairing K r l m).
Lemma p_big : (3 < p)%Z.
Proof. pose proof (prime_ge_2 p Pp). assert (p <> 2)%Z by (intros ->; discriminate). assert (p <> 3)%Z; [ | lia]. intros E. rewrite E in RL. assert (l = 1)%Z by nia. subst l. assert (r = 4)%Z by lia. subst r. discriminate. Qed.
Lemma vns1 : ~ is_square v. Proof. apply (minus_one_nonsquare K HK p); auto. Qed.
Let HL : fld_laws L := Quad_laws K HK v vns1.
Add Field LFa1 : (fl_field L HL).
Lemma ell1 : elliptic K f1 f0.
Proof.
  pose proof p_big. assert (C2 : f2 K <> 0) by (apply (f2_nz K HK p); auto; lia). split; [auto | ].
  replace (f2 K * f2 K * (f1 * f1 * f1) + f3 K * f3 K * f3 K * (f0 * f0)) with (f2 K * f2 K) by ring. apply (f_mul_nz K HK); auto.
Qed.
Let C2 := proj1 ell1.
Lemma p2 : (2 < p)%Z. Proof. pose proof p_big. lia. Qed.
Lemma ho1 : has_order K (p ^ 1). Proof. rewrite Z.pow_1_r. exact HO. Qed.
Lemma rk1 : (r * l = p ^ 1 + 1)%Z. Proof. rewrite Z.pow_1_r. exact RL. Qed.
Lemma ee1 : ((p * p - 1) / r = (p ^ 1 - 1) * l)%Z.
Proof. rewrite Z.pow_1_r. replace (p * p - 1)%Z with ((p - 1) * l * r)%Z by nia. apply Z.div_mul. lia. Qed.
Lemma l_pos : (0 < l)%Z. Proof. pose proof p_big. nia. Qed.
Lemma a'1 : fmul (fmul (idh f1) v) v = f1. Proof. unfold PairingAFacts.idh. ring. Qed.
Lemma b'1 : fmul (fmul (fmul (idh f0) v) v) v = f0. Proof. unfold PairingAFacts.idh. ring. Qed.
Lemma twin : forall Q, onK Q -> on_curve K (fmul (fmul (idh f1) v) v) (fmul (fmul (fmul (idh f0) v) v) v) Q.
Proof. intros Q. rewrite a'1, b'1. auto. Qed.
Definition Ex (Q : K * K) : K := fst Q / v.
Definition Ey (Q : K * K) : K := snd Q / (v * v).
Lemma ev1 : forall ca cb cc Q, eval1 K (ca, cb, cc) Q = lineval K K idh v ca cb cc (Ex Q) (Ey Q).
Proof.
  intros. assert (v <> 0) by (apply (f_opp_nz K HK); apply (f_1_neq_0 K HK)). assert (O : (1 : K) <> 0) by (apply (f_1_neq_0 K HK)).
  unfold eval1, Ex, Ey, a_miller_evalfn, lineval, PairingAFacts.idh. f_equal; field; repeat split; auto.
Qed.
Local Notation gd' := (gd K K idh v f1 f0 r (K * K) Ex Ey).
Lemma gd_in : forall P Q, a1_input K r P -> P <> None -> onK (Some Q) -> gd' (P, Q).
Proof.
  intros P [x y] ((O & T) & RG) N OQ. split; [exact O | ]. split; [exact T | ]. split; [exact (RG N) | ].
  exact (twist_G2 K K HK idh v vns1 f1 f0 (Some (x, y)) (twin _ OQ)).
Qed.
Lemma a1_fin : forall f : L, f <> f0 -> a1_tateexp K l f = Ok (fpow f ((p * p - 1) / r)).
Proof.
  intros f N. unfold a1_tateexp. assert (EI : @finvert (Fq2 K) f = Ok (finv f)) by (apply (finvert_ok L HL); auto). rewrite EI. cbn [bind].
  pose proof l_pos. pose proof p_big.
  assert (HT : fld_laws (Fq2 K)) by exact HL.
  rewrite (generic_pow_spec _ (mul_monoid_laws (Fq2 K) HT)) by lia. f_equal.
  assert (E : fmul (qconj K v f) (finv f) = fpow f (p - 1)).
  { symmetry. assert (F := frob_1 K HK p 1 Pp p2 Z.le_0_1 ho1 v vns1 f N). rewrite Z.pow_1_r in F. exact F. }
  change (zpow (fmul (qconj K v f) (finv f) : mul_monoid L) l = fpow f ((p * p - 1) / r)). rewrite E, ee1, Z.pow_1_r.
  symmetry. apply (fpow_mul K HK v vns1); lia.
Qed.
Local Notation mil1' := (MillerFacts.mil1 K K idh v f1 (K * K) Ex Ey).
Lemma val_mil : forall P Q, val P (Some Q) = fpow (mil1' (Z.to_nat r) (P, Q)) ((p * p - 1) / r).
Proof. intros P [x y]. reflexivity. Qed.
Lemma fin_ok : forall P Q f, gd' (P, Q) -> Twisted.sim K v f (mil1' (Z.to_nat r) (P, Q)) -> a1_tateexp K l f = Ok (val P (Some Q)).
Proof.
  intros P Q f GD F. assert (NZ : mil1' (Z.to_nat r) (P, Q) <> f0) by (apply (MillerFacts.mil1_nz K K HK HK idh (idE K) v vns1 f1 f0 ell1 r R3 RO); auto).
  rewrite a1_fin by (apply (sim_nz K HK v vns1 _ _ F); auto). rewrite val_mil. f_equal. exact (fin_sim K HK v vns1 r R3 p 1 Pp p2 Z.le_0_1 ho1 _ l rk1 ee1 f _ F).
Qed.
Lemma tan1 : forall x y : K, y <> f0 -> is_line K f1 (Some (x, y)) (Some (x, y)) (compute_abc_tangent K x y).
Proof. intros. apply (tangent_line K HK C2). auto. Qed.
Lemma lin1 : forall x1 y1 x2 y2 : K, x1 <> x2 -> is_line K f1 (Some (x1, y1)) (Some (x2, y2)) (compute_abc_line K x1 y1 x2 y2).
Proof. intros. apply (chord_line K HK). auto. Qed.
Theorem a1_affine_ok : forall P Q, a1_input K r P -> P <> None -> onK Q -> Q <> None -> a1_pairing_affine K r l P Q = Ok (val P Q).
Proof.
  intros P [Q | ] IP NP OQ NQ; [ | congruence]. pose proof (gd_in P Q IP NP OQ) as GD.
  unfold a1_pairing_affine. cbn [coords bind].
  destruct (miller_affine_ok K K HK HK idh (idE K) v vns1 f1 f0 ell1 r R3 RO (K * K) Ex Ey _ _ _ tan1 lin1 ev1 P Q GD) as (f & EF & F).
  match goal with |- bind ?x _ = _ => replace x with (Ok f) by (symmetry; exact EF) end. cbn [bind]. apply fin_ok; auto.
Qed.
(** the projective loop *)
Lemma proj_bits_ok : forall Px Py Q, gd' (Some (Px, Py), Q) -> forall m f w, (m <= start_bit r)%nat ->
  jac_ok K w -> affine K w = mul (kk r (S m)) (Some (Px, Py)) ->
  Twisted.sim K v f (fmul (mil1' (kk r (S m)) (Some (Px, Py), Q)) (mil1' (kk r (S m)) (Some (Px, Py), Q))) ->
  Twisted.sim K v (proj_bits K r m Px Py Q f w) (mil1' (Z.to_nat r) (Some (Px, Py), Q)).
Proof.
  intros Px Py Q (OP & TP & RG & GR). cbn [fst snd] in *. set (P := Some (Px, Py)) in *.
  assert (STEP : forall m f x y z z2, (m <= start_bit r)%nat -> jac_ok K (x, y, z, z2) -> affine K (x, y, z, z2) = mul (kk r (S m)) P ->
    Twisted.sim K v f (fmul (mil1' (kk r (S m)) (P, Q)) (mil1' (kk r (S m)) (P, Q))) ->
    y <> f0 /\ Twisted.sim K v (fmul f (eval1 K (compute_abc_tangent_proj K x y z z2) Q)) (mil1' (2 * kk r (S m))%nat (P, Q))).
  { intros m f x y z z2 Hm J AF F. destruct (reg_tan K K HK HK idh (idE K) v vns1 f1 f0 ell1 r R3 RO P OP TP RG m Hm) as (x0 & y0 & EQ & NY).
    destruct J as (Nz & Ez). assert (NY' : y <> f0). { intro Y0. rewrite EQ, Y0 in AF. cbn [affine] in AF. injection AF as _ E. apply NY. rewrite <- E. field. auto. }
    split; auto. rewrite (Hev' K K idh v (K * K) Ex Ey (eval1 K) ev1).
    apply (MillerFacts.tan_step K K HK HK idh (idE K) v vns1 f1 f0 ell1 r R3 RO P OP TP RG (Ex Q) (Ey Q) GR); auto.
    rewrite <- AF. rewrite Ez. apply (proj_line K HK C2 x y z); auto. }
  induction m; intros f [[[x y] z] z2] Hm J AF F; cbn [proj_bits].
  - destruct (STEP 0%nat f x y z z2 Hm J AF F) as (_ & F1). apply (last_step K K HK HK idh (idE K) v vns1 f1 f0 ell1 r R3 RO P OP TP (Ex Q) (Ey Q) GR). exact F1.
  - destruct (STEP (S m) f x y z z2 Hm J AF F) as (NY & F1).
    destruct (proj_double_ok K HK C2 (x, y, z, z2) J NY) as (J2 & A2).
    assert (AF2 : affine K (proj_double K (x, y, z, z2)) = mul (2 * kk r (S (S m)))%nat P).
    { rewrite A2, AF, <- (MillerFacts.mul_plus' K K HK HK idh (idE K) v vns1 f1 f0 ell1 r R3 RO P OP TP). f_equal. lia. }
    unfold mpz_tstbit. destruct (Z.testbit r (Z.of_nat (S m))) eqn:T.
    + destruct (reg_line K K HK HK idh (idE K) v vns1 f1 f0 ell1 r R3 RO P OP TP RG m Hm T) as (x1 & y1 & x2 & y2 & E1 & E2 & NX & NN).
      assert (EK : kk r (S m) = (2 * kk r (S (S m)) + 1)%nat) by (rewrite (kk_step r R3 (S m)), T; reflexivity).
      destruct (proj_double K (x, y, z, z2)) as [[[x' y'] z'] z2'] eqn:EW. unfold P in E2. injection E2 as <- <-. rewrite E1 in AF2. assert (J2' := J2). destruct J2' as (Nz & Ez).
      assert (EX : x' / (z' * z') = x1) by (cbn [affine] in AF2; congruence).
      assert (NX' : x' / (z' * z') <> Px) by (rewrite EX; auto).
      destruct (proj_add_ok K HK (x', y', z', z2') Px Py J2 NX') as (J3 & A3).
      assert (F2 : Twisted.sim K v (fmul (fmul f (eval1 K (compute_abc_tangent_proj K x y z z2) Q)) (eval1 K (compute_abc_line_proj K x' y' z' z2' Px Py) Q)) (mil1' (kk r (S m)) (P, Q))).
      { rewrite (Hev' K K idh v (K * K) Ex Ey (eval1 K) ev1 (compute_abc_line_proj _ _ _ _ _ _ _)).
        apply (MillerFacts.line_step' K K HK HK idh (idE K) v vns1 f1 f0 ell1 r R3 RO P OP TP RG (Ex Q) (Ey Q) GR); auto.
        rewrite E1, <- AF2, Ez. apply (proj_chord K HK); auto. }
      apply IHm; auto; [lia | | apply (sim_mul K HK v vns1); exact F2].
      rewrite A3, AF2, EK, (MillerFacts.mul_plus' K K HK HK idh (idE K) v vns1 f1 f0 ell1 r R3 RO P OP TP), E1, mul_1. reflexivity.
    + assert (EK : kk r (S m) = (2 * kk r (S (S m)))%nat) by (rewrite (kk_step r R3 (S m)), T; lia). rewrite <- EK in *.
      apply IHm; auto; [lia | apply (sim_mul K HK v vns1); exact F1].
Qed.
Theorem a1_proj_ok : forall P Q, a1_input K r P -> P <> None -> onK Q -> Q <> None -> a1_pairing_proj K r l P Q = Ok (val P Q).
Proof.
  intros [[px py] | ] [Q | ] IP NP OQ NQ; try congruence. pose proof (gd_in _ Q IP NP OQ) as GD.
  unfold a1_pairing_proj. cbn [coords bind]. apply fin_ok; auto. apply proj_bits_ok; auto.
  - apply (jac1 K HK).
  - rewrite (kk_start r R3), mul_1. cbn [affine]. f_equal. f_equal; field; apply (f_1_neq_0 K HK).
  - apply (mil_start K K HK idh v vns1 f1 r R3 (Some (px, py)) (Ex Q) (Ey Q)).
Qed.
(** preprocessing *)
Theorem a1_pp_ok : forall P, a1_input K r P -> P <> None -> exists t, a1_pairing_pp_init K r P = Ok t /\ length t = Z.to_nat (sizeinbase2 r) /\
  (forall fuel, (length t <= fuel)%nat -> a1_pp_clear K fuel t 0 = Ok (length t - 1)%nat) /\
  forall Q, onK Q -> Q <> None -> a1_pairing_pp_apply K r l t Q = Ok (val P Q).
Proof.
  intros P IP NP. assert (EP : exists Q0, P = Some Q0) by (destruct P as [Q0 | ]; [eauto | congruence]). destruct EP as (Q0 & EP).
  assert (O0 : onK (Some Q0)) by (rewrite <- EP; apply IP).
  destruct (miller_affine_ok K K HK HK idh (idE K) v vns1 f1 f0 ell1 r R3 RO (K * K) Ex Ey _ _ _ tan1 lin1 ev1 P Q0 (gd_in P Q0 IP NP O0)) as (f & EF & _).
  assert (SZ : Z.to_nat (sizeinbase2 r) = (start_bit r + 2)%nat).
  { pose proof (start_log r R3) as SL. unfold sizeinbase2. destruct (Z.eqb_spec r 0); [lia | ]. rewrite Z.abs_eq by lia. lia. }
  assert (HT : fld_laws (Fq2 K)) by exact HL.
  destruct (a1_pp_agree K HK r HT (start_bit r) P 0 (repeat None (Z.to_nat (sizeinbase2 r))) P Q0 f1 f EF) as (t & E & LT & _ & H1 & H2 & H3); [rewrite repeat_length; lia | ].
  rewrite repeat_length in LT. exists t. split; [exact E | ]. split; [exact LT | ]. split.
  - intros fuel HF. rewrite LT, SZ in *. apply a1_clear_ok; try lia.
    + intros k Hk. apply H1. lia.
    + rewrite <- H2. f_equal. lia.
  - intros [Q | ] OQ NQ; [ | congruence]. unfold a1_pairing_pp_apply. cbn [coords bind]. pose proof (gd_in P Q IP NP OQ) as GD.
    destruct (miller_affine_ok K K HK HK idh (idE K) v vns1 f1 f0 ell1 r R3 RO (K * K) Ex Ey _ _ _ tan1 lin1 ev1 P Q GD) as (f' & EF' & F').
    unfold miller_affine in EF'. assert (EG := eq_trans (eq_sym (H3 Q f1)) EF').
    match goal with |- bind ?x _ = _ => replace x with (Ok f') by (symmetry; exact EG) end. cbn [bind]. apply fin_ok; auto.
Qed.
(** products *)
Lemma coords_all_ok : forall Qs : list (K * K), coords_all K (map (fun c => Some c) Qs) = Ok Qs.
Proof. induction Qs as [ | c Qs IH]; cbn [map coords_all coords bind]; auto. rewrite IH. reflexivity. Qed.
Lemma PM_pow : forall ll, fpow (MillerFacts.PM K K idh v f1 (K * K) Ex Ey (Z.to_nat r) ll) ((p * p - 1) / r) = gprod (map (fun pq => val (fst pq) (Some (snd pq))) ll).
Proof.
  induction ll as [ | [P [x y]] ll IH]; cbn [MillerFacts.PM map gprod fold_right].
  - apply (BilinearZ.fpow1 L HL).
  - etransitivity; [exact (zpow_mul_base _ (mul_monoid_laws L HL) (mul_monoid_comm L HL) _ _ _) | ]. apply (f_equal2 fmul); [reflexivity | exact IH].
Qed.
Theorem a1_prod_ok : forall in1 in2, length in1 = length in2 -> in1 <> [] -> Forall (a1_input K r) in1 -> Forall onK in2 ->
  Forall (fun P => P <> None) in1 -> Forall (fun Q => Q <> None) in2 ->
  a1_pairings_affine K r l in1 in2 (length in1) = Ok (gprod (map (fun pq => val (fst pq) (snd pq)) (combine in1 in2))).
Proof.
  intros in1 in2 EL NE F1 F2 N1 N2.
  set (xy := fun Q : point K => match Q with Some c => c | None => (f0, f0) end).
  set (ll := combine in1 (map xy in2)).
  assert (LL : length ll = length in1) by (unfold ll; rewrite combine_length, map_length; lia).
  assert (M1 : map fst ll = in1) by (apply combine_1; auto).
  assert (M2 : map (fun pq : point K * (K * K) => Some (snd pq) : point K) ll = in2) by (apply combine_2; auto).
  assert (GL : Forall gd' ll).
  { apply Forall_forall. intros [P c] I. assert (I1 : In P in1) by (rewrite <- M1; apply in_map_iff; exists (P, c); auto).
    assert (I2 : In (Some c : point K) in2) by (rewrite <- M2; apply in_map_iff; exists (P, c); auto).
    rewrite Forall_forall in F1, F2, N1. apply gd_in; auto. }
  assert (NL : ll <> []) by (intro E; rewrite E in LL; destruct in1; [congruence | discriminate]).
  destruct (millers_affine_ok K K HK HK idh (idE K) v vns1 f1 f0 ell1 r R3 RO (K * K) Ex Ey _ _ _ tan1 lin1 ev1 ll GL NL) as (f & EF & F).
  unfold a1_pairings_affine. assert (SL1 := slice_app (point K) [] in1 [] 0%nat (length in1) eq_refl eq_refl). assert (SL2 := slice_app (point K) [] in2 [] 0%nat (length in2) eq_refl eq_refl). cbn [app] in SL1, SL2. rewrite app_nil_r in SL1, SL2.
  rewrite SL1. cbn [bind]. rewrite EL, SL2. cbn [bind].
  assert (CA : coords_all K in2 = Ok (map snd ll)) by (rewrite <- M2; etransitivity; [ | apply coords_all_ok]; f_equal; symmetry; apply map_map). rewrite CA. cbn [bind].
  rewrite <- M1 at 1. match goal with |- bind ?x _ = _ => replace x with (Ok f) by (symmetry; exact EF) end. cbn [bind].
  assert (NZ : MillerFacts.PM K K idh v f1 (K * K) Ex Ey (Z.to_nat r) ll <> f0) by (apply (MillerFacts.PM_nz K K HK HK idh (idE K) v vns1 f1 f0 ell1 r R3 RO); auto).
  rewrite a1_fin by (apply (sim_nz K HK v vns1 _ _ F); auto). f_equal. etransitivity; [exact (fin_sim K HK v vns1 r R3 p 1 Pp p2 Z.le_0_1 ho1 _ l rk1 ee1 f _ F) | ]. rewrite PM_pow.
  assert (EC : combine in1 in2 = map (fun pq : point K * (K * K) => (fst pq, Some (snd pq) : point K)) ll).
  { rewrite <- M1 at 1. rewrite <- M2 at 1. apply combine_maps. }
  rewrite EC, map_map. reflexivity.
Qed.

(** ** The interface *)
Theorem a1_apply : forall m P Q, a1_input K r P -> onK Q -> pairing_apply (pair m) P Q = Ok (val P Q).
Proof.
  intros m P Q IP OQ. refine (apply_ok K K HK idh v vns1 f1 r ((p * p - 1) / r) _ _ _ _ _ P Q _).
  intros NP NQ. destruct m; [apply a1_proj_ok | apply a1_affine_ok]; auto.
Qed.
Theorem a1_pp : forall m P, a1_input K r P -> exists pp, pairing_pp_init (pair m) P = Ok pp /\
  forall Q, onK Q -> pairing_pp_apply (pair m) Q pp = Ok (val P Q).
Proof.
  intros m P IP. refine (pp_ok K K HK idh v vns1 f1 r ((p * p - 1) / r) _ _ _ _ _ P onK _).
  intros NP. destruct (a1_pp_ok P IP NP) as (t & E & _ & _ & H). exists t. auto.
Qed.
Theorem a1_pp_table : forall m P t, a1_input K r P -> pairing_pp_init (pair m) P = Ok (Some t) ->
  length t = Z.to_nat (sizeinbase2 r) /\ forall fuel, (length t <= fuel)%nat -> a1_pp_clear K fuel t 0 = Ok (length t - 1)%nat.
Proof.
  intros m P t IP E. destruct (pp_t K K v _ _ _ _ _ P t E) as (NP & E'). destruct (a1_pp_ok P IP NP) as (t' & E2 & H1 & H2 & _).
  cbn [pp_init_ a1_pairing] in *. assert (ET : t' = t) by (rewrite E2 in E'; injection E' as <-; reflexivity). subst t'. auto.
Qed.
Theorem a1_prod : forall m in1 in2, length in1 = length in2 -> in1 <> [] -> Forall (a1_input K r) in1 -> Forall onK in2 ->
  Forall (fun P => P <> None) in1 -> Forall (fun Q => Q <> None) in2 ->
  element_prod_pairing (pair m) in1 in2 (length in1) = Ok (gprod (map (fun pq => val (fst pq) (snd pq)) (combine in1 in2))).
Proof.
  intros m in1 in2 EL NE F1 F2 N1 N2. etransitivity; [exact (prod_reduce K K v 3 1 eq_refl Z.le_0_1 _ _ _ _ _ in1 in2 EL N1 N2) | ]. apply a1_prod_ok; auto.
Qed.
Theorem a1_prod_identity : forall m in1 in2 i P Q, length in1 = length in2 -> nth_error in1 i = Some P -> nth_error in2 i = Some Q -> P = None \/ Q = None ->
  element_prod_pairing (pair m) in1 in2 (length in1) = Ok f1.
Proof. intros m in1 in2 i P Q EL I1 I2 H. exact (prod_one K K v 3 1 _ _ _ _ _ in1 in2 i P Q EL I1 I2 H). Qed.
Theorem a1_value_r : forall P Q, G1 P -> onK Q -> fpow (val P Q) r = f1.
Proof. intros P Q HP HQ. exact (value_r K K HK HK idh (idE K) v vns1 f1 f0 ell1 r R3 RO p 1 p2 Z.le_0_1 ho1 _ l rk1 ee1 P Q HP (twin Q HQ)). Qed.
Theorem a1_bilinear : forall i j P Q, G1 P -> onK Q -> val (pzmul K f1 i P) (pzmul K f1 j Q) = fpow (val P Q) ((i * j) mod r).
Proof.
  intros i j P Q HP HQ. assert (T := value_bilinear K K HK HK idh (idE K) v vns1 f1 f0 ell1 r R3 RO p 1 p2 Z.le_0_1 ho1 _ l rk1 ee1 i j P Q HP (twin Q HQ)).
  rewrite a'1 in T. exact T.
Qed.
Theorem a1_add1 : forall P P' Q, G1 P -> G1 P' -> onK Q -> val (padd K f1 P P') Q = fmul (val P Q) (val P' Q).
Proof. intros P P' Q HP HP' HQ. exact (value_add1 K K HK HK idh (idE K) v vns1 f1 f0 ell1 r R3 RO p 1 p2 Z.le_0_1 ho1 _ l rk1 ee1 P P' Q HP HP' (twin Q HQ)). Qed.
Theorem a1_add2 : forall P Q Q', G1 P -> onK Q -> onK Q' -> val P (padd K f1 Q Q') = fmul (val P Q) (val P Q').
Proof.
  intros P Q Q' HP HQ HQ'. assert (T := value_add2 K K HK HK idh (idE K) v vns1 f1 f0 ell1 r R3 RO p 1 p2 Z.le_0_1 ho1 _ l rk1 ee1 P Q Q' HP (twin Q HQ) (twin Q' HQ')).
  rewrite a'1 in T. exact T.
Qed.
Theorem a1_additive : forall P P' Q Q', G1 P -> G1 P' -> onK Q -> onK Q' ->
  val (padd K f1 P P') Q = fmul (val P Q) (val P' Q) /\ val P (padd K f1 Q Q') = fmul (val P Q) (val P Q').
Proof. intros. split; [apply a1_add1 | apply a1_add2]; auto. Qed.
Theorem a1_coddh : forall m P B Q R, a1_input K r P -> a1_input K r B -> onK Q -> onK R -> exists z,
  generic_is_almost_coddh (pair m) P B Q R = Ok z /\ (z = true <-> val P R = val B Q \/ fmul (val P R) (val B Q) = f1).
Proof.
  intros m P B Q R HP HB HQ HR. exact (coddh_ok K K HK idh v vns1 f1 r ((p * p - 1) / r) _ _ _ _ _ P B Q R (a1_apply m P R HP HR) (a1_apply m B Q HB HQ)).
Qed.
Theorem a1_coddh_accepts : forall m P Q x s, a1_input K r P -> a1_input K r (pzmul K f1 x P) -> onK Q -> s = 1%Z \/ s = (-1)%Z ->
  generic_is_almost_coddh (pair m) P (pzmul K f1 x P) Q (pzmul K f1 (s * x) Q) = Ok true.
Proof.
  intros m P Q x s HP HX HQ HS.
  assert (DH := dh_values K K HK HK idh (idE K) v vns1 f1 f0 ell1 r R3 RO p 1 p2 Z.le_0_1 ho1 _ l rk1 ee1 P Q x s (proj1 HP) (twin Q HQ) HS).
  assert (OM := onM_mul K K HK HK idh (idE K) v f1 f0 ell1 (s * x) Q (twin Q HQ)). rewrite a'1 in DH. rewrite a'1, b'1 in OM.
  destruct (a1_coddh m P (pzmul K f1 x P) Q (pzmul K f1 (s * x) Q) HP HX HQ OM) as (z & E & H). rewrite E. f_equal. apply H. exact DH.
Qed.
Lemma l_even : Z.even l = true.
Proof.
  assert (E : Z.even (r * l) = true).
  { rewrite RL. rewrite (Z.div_mod p 4) by lia. rewrite Q4. replace (4 * (p / 4) + 3 + 1)%Z with (2 * (2 * (p / 4) + 2))%Z by lia. apply Z.even_spec. exists (2 * (p / 4) + 2)%Z. lia. }
  rewrite Z.even_mul in E. apply orb_prop in E. destruct E as [E | E]; auto. rewrite <- Z.negb_odd, RO in E. discriminate.
Qed.
Theorem a1_gt_finalpow : forall (j : K) (e : L), e <> f0 -> exists u, a1_finalpow K l (Ok j) e = Ok u /\ fpow u r = f1.
Proof.
  intros j e N. pose proof p_big. pose proof l_pos. unfold a1_finalpow.
  rewrite (tateexp_correct K HK p 1 Pp p2 Z.le_0_1 ho1 v vns1 e j l C2 N l_pos l_even).
  eexists. split; [reflexivity | ]. assert (0 <= (p ^ 1 - 1) * l)%Z by (rewrite Z.pow_1_r; nia).
  rewrite <- (BilinearZ.fpowM L HL) by lia. rewrite <- ee1, Z.mul_comm. apply (fermat_e K HK v vns1 r p 1 p2 Z.le_0_1 ho1 _ l rk1 ee1). auto.
Qed.
End A1.
