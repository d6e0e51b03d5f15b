(** Type E: the Shipsey-Stange method. *)
From Coq Require Import ZArith List Bool Lia Ring Field Znumtheory.
From Verif.Base Require Import Outcome Array Algebra Slots Gmp.
From Verif.Spec Require Import Curve Tate Twist FiniteField PairingValue PairingValueE.
From Verif.Model Require Import GenericPow Curve Miller Pairing PairingA PairingE EllNet.
From Verif.Proofs Require Import PowFacts FieldFacts SlotFacts CurveGroup CurveFacts LineAlgebra TateFacts Bilinear BilinearZ
  Twisted ArrayFacts Outside PairingEFacts PairingIface TwistedValue PairingAFacts PairingEApi MillerFacts NetFacts NetLoop NetTwist NetRefl.
From Verif.Model Require Import Pairing.
Import ListNotations.

Section E.
Variable K : fld.
Variables a b : K.
Variables q r e2 e1 s1 s0 : Z.
Hypothesis T : type_e K a b q r e2 e1 s1 s0.
Let HK := te_field _ _ _ _ _ _ _ _ _ T.
Let HE := te_curve _ _ _ _ _ _ _ _ _ T.
Let C2 : f2 K <> f0 := proj1 HE.
Let SM := proj2 HE.
Let R6 := te_big _ _ _ _ _ _ _ _ _ T.
Lemma re5 : (5 <= r)%Z. Proof. pose proof (te_big _ _ _ _ _ _ _ _ _ T). lia. Qed.
Let R5 := re5.
Add Field KFne : (fl_field K HK).
Local Notation "0" := f0. Local Notation "1" := f1.
Local Notation "x + y" := (fadd x y). Local Notation "x - y" := (fsub x y). Local Notation "x * y" := (fmul x y). Local Notation "- x" := (fopp x).
Local Notation "x / y" := (fdiv x y).
Local Notation G := (torsion K a b r).
Local Notation e := ((q - 1) / r)%Z.
Local Notation N := (Z.to_nat r).
Let SG : subgroup K a b G := tor_sub K HK a b HE r R6 e2 e1.
Lemma re_odd : Z.odd r = true.
Proof.
  destruct (Z.odd r) eqn:E; auto. exfalso. rewrite <- Z.negb_even in E. apply negb_false_iff in E. apply Z.even_spec in E. destruct E as [w E].
  destruct (prime_divisors _ (te_r _ _ _ _ _ _ _ _ _ T) 2) as [D | [D | [D | D]]]; try lia. exists w. lia.
Qed.
Lemma e_even : exists w, e = (2 * w)%Z /\ (0 <= w)%Z.
Proof.
  pose proof (e_eq K a b q r e2 e1 s1 s0 T) as E. pose proof (e_nonneg K a b q r e2 e1 s1 s0 T) as NN. pose proof re_odd as RO.
  assert (QO : Z.odd q = true).
  { destruct (Z.odd q) eqn:F; auto. exfalso. rewrite <- Z.negb_even in F. apply negb_false_iff in F. apply Z.even_spec in F. destruct F as [w F].
    destruct (prime_divisors _ (te_q _ _ _ _ _ _ _ _ _ T) 2) as [D | [D | [D | D]]]; try lia; [exists w; lia | ].
    rewrite <- D in E. change (2 - 1)%Z with 1%Z in E. revert E. generalize (1 / r)%Z. pose proof re5. intros z E. assert (z = 0 \/ 1 <= z \/ z <= -1)%Z by lia. nia. }
  assert (EE : Z.even e = true).
  { assert (O : Z.odd (r * e) = false). { rewrite E, Z.odd_sub, QO. reflexivity. } rewrite Z.odd_mul, RO in O. cbn in O. rewrite <- Z.negb_odd, O. reflexivity. }
  apply Z.even_spec in EE. destruct EE as [w EE]. exists w. lia.
Qed.
Lemma sign_pow : forall s : K, s = 1 \/ s = - (1) -> fpow s e = 1.
Proof.
  intros s Hs. destruct e_even as (w & -> & W). rewrite (fpowM K HK) by lia.
  replace (fpow s 2) with (1 : K); [apply (fpow1 K HK) | ]. change (fpow s 2) with (s * (s * 1)). destruct Hs as [-> | ->]; ring.
Qed.

Section PQ.
Variables x1 y1 xq yq : K.
Local Notation P := (Some (x1, y1)).
Local Notation Q := (Some (xq, yq)).
Hypothesis GP : G P.
Hypothesis GQ : G Q.
Hypothesis QN : forall j, pmul K a j P <> Q.
Lemma EXe : exact_order K a r P.
Proof. apply (prime_exact K HK a b HE r ltac:(lia) P (te_r _ _ _ _ _ _ _ _ _ T)); auto. discriminate. Qed.
Let R5' := R5n r R5.
Let ORD := ord_nat K a r R5 x1 y1 EXe.
Let TOR := tor_nat K a r R5 x1 y1 EXe.
Let OP : on_curve K a b P := proj1 GP.
Let OQ : on_curve K a b Q := proj1 GQ.
Lemma rNe : Z.of_nat N = r. Proof. lia. Qed.
Local Notation mil := (miller K a N P).
Lemma net_e : e_pairing_ellnet K a b q r P Q = Ok (fpow (mil Q) e).
Proof.
  unfold e_pairing_ellnet. cbn [coords bind].
  pose proof (dd_nz K HK a b HE x1 y1 OP N R5' ORD TOR xq yq OQ QN) as ND. pose proof (xq_nz K HK a b HE x1 y1 OP N R5' ORD TOR xq yq OQ QN) as NX.
  assert (ED : (double K x1 + xq) * ((x1 - xq) * (x1 - xq)) - (y1 + yq) * (y1 + yq) = dd K x1 y1 xq yq) by (unfold dd, double, f2; ring).
  rewrite ED. rewrite (finvert_ok K HK) by auto. cbn [bind]. rewrite (finvert_ok K HK) by auto. cbn [bind].
  assert (EY : double K y1 = f2 K * y1) by (unfold double, f2; ring). pose proof (yy_nz K HK a b HE x1 y1 N R5' ORD) as NY.
  rewrite EY, (finvert_ok K HK) by auto. cbn [bind].
  assert (HC : finv (f2 K * y1) * (f2 K * y1) = 1) by (exact (Finv_l (fl_field K HK) _ NY)).
  set (d2 := double K x1 + xq - (y1 - yq) * finv (x1 - xq) * ((y1 - yq) * finv (x1 - xq))).
  assert (HD : d2 = f2 K * x1 + xq - (y1 - yq) / (x1 - xq) * ((y1 - yq) / (x1 - xq))) by (unfold d2, double, f2; field; auto).
  assert (CI := first_c_inv K HK a b HE x1 y1 OP N R5' ORD).
  pose proof (net_loop_last K K HK HK (idh K) (idE K) a b HE x1 y1 OP N R5' ORD TOR (finv (f2 K * y1)) HC xq yq OQ QN (fun t u => u * t) ltac:(intros; unfold idh; ring)
    (fun u => u * finv (x1 - xq)) ltac:(intros; unfold idh; field; auto) (finv (dd K x1 y1 xq yq)) ltac:(unfold idh; field; auto) (first_c K a b x1 y1) d2 CI HD) as H.
  pose proof (loop_c1 K HK a b HE x1 y1 OP N R5' ORD TOR (finv (f2 K * y1)) HC K (fun t u => u * t) (fun u => u * finv (x1 - xq)) (finv (dd K x1 y1 xq yq))) as H1.
  rewrite rNe in H, H1. specialize (H1 re_odd (start_bit r) (first_c K a b x1 y1) (first_d K d2) (le_n _)).
  rewrite (kk_start r ltac:(lia)) in H1. specialize (H1 CI).
  destruct (net_loop K r K _ _ _ _ _ _ _) as [c' d']. destruct H as (_ & HW). cbn [fst] in H1. unfold idh in HW.
  rewrite H1. assert (NN : - net_const K a x1 y1 N <> 0) by (apply (f_opp_nz K HK); apply (net_const_nz K HK a b HE x1 y1 OP N R5' ORD); auto).
  rewrite (finvert_ok K HK) by auto. cbn [bind]. rewrite (generic_pow_spec _ (mul_monoid_laws K HK)) by apply (e_nonneg K a b q r e2 e1 s1 s0 T).
  f_equal. rewrite HW. destruct (net_quotient K HK a b HE x1 y1 OP N R5' ORD TOR xq yq OQ QN) as (s & Hs & NQ). rewrite rNe in NQ.
  change (fpow (bz K a x1 y1 N xq yq (r + 1) * finv (- net_const K a x1 y1 N)) e = fpow (mil Q) e).
  assert (NX' : xq - x1 <> 0) by (intro F; apply NX; transitivity (- (xq - x1)); [ring | rewrite F; ring]).
  rewrite (kill K HK r e ltac:(lia) (e_nonneg K a b q r e2 e1 s1 s0 T) (e_fermat K a b q r e2 e1 s1 s0 T) _ _ _ NX' NQ).
  rewrite (fpow_mul' K HK), sign_pow by auto. ring.
Qed.
(** multiples of P *)
Definition mult (X : point K) : Prop := exists j, X = pmul K a j P.
Lemma mult_sub : subgroup K a b mult.
Proof.
  split.
  - intros X (j & ->). apply (pmul_on K HK a b C2). auto.
  - exists O. reflexivity.
  - intros X Y (i & ->) (j & ->). exists (i + j)%nat. symmetry. apply (T_plus K HK a b HE x1 y1 OP).
  - intros X (j & ->). exists (j * (N - 1))%nat.
    assert (OJ : on_curve K a b (pmul K a j P)) by (apply (pmul_on K HK a b C2); auto).
    assert (OJ' : on_curve K a b (pmul K a (j * (N - 1)) P)) by (apply (pmul_on K HK a b C2); auto).
    symmetry. etransitivity; [apply (neg_sol K HK a b HE (pmul K a j P) _ None OJ OJ') | apply (add_0_l K a)].
    rewrite <- (T_plus K HK a b HE x1 y1 OP). replace (j + j * (N - 1))%nat with (j * N)%nat by nia. apply (T_cycle K HK a b HE x1 y1 OP N TOR).
Qed.
Lemma mult_G : forall X, mult X -> G X. Proof. intros X (j & ->). apply (mul_G1 K a b G SG). auto. Qed.
Variable R : point K.
Hypothesis HR : e_shift K a b r R.
Theorem e_net_ok : e_pairing_ellnet K a b q r P Q = Ok (e_value K a q r R P Q).
Proof.
  rewrite net_e. f_equal. pose proof (e_nonneg K a b q r e2 e1 s1 s0 T) as NN.
  assert (OR : out K a b G R) by (apply (shift_out K a b r R HR)).
  assert (OO : forall X, out K a b G X -> out K a b mult X) by (intros X (O & NG); split; auto; intro F; apply NG; apply mult_G; auto).
  assert (OQm : out K a b mult Q) by (split; auto; intros (j & E); apply (QN j); auto).
  assert (ORn : out K a b G (pneg R)).
  { destruct OR as (O & NG). split; [apply CurveGroup.neg_on; auto | ]. intros F. apply NG. rewrite <- (neg_neg K HK R). apply (sg_neg K a b G SG). auto. }
  assert (IN : indep K a b mult Q R).
  { split; auto. split; [apply OO; auto | ]. split; apply OO; apply (out_add K HK a b HE G SG); auto. }
  pose proof (o_f2 K HK a b HE mult mult_sub r e ltac:(lia) NN (e_fermat K a b q r e2 e1 s1 s0 T) P Q R ltac:(exists 1%nat; reflexivity) IN) as F.
  specialize (F (proj2 GP)).
  unfold e_value. apply (f_cancel K HK (fpow (mil R) e)).
  { apply (fpow_nz K HK). apply (m_nz K a b q r e2 e1 s1 s0 T P R GP OR). }
  transitivity (fpow (mil Q) e * fpow (mil R) e); [ring | ]. rewrite <- F.
  rewrite <- (fpow_mul' K HK). f_equal. field. apply (m_nz K a b q r e2 e1 s1 s0 T P R GP OR).
Qed.
End PQ.

(** ** The interface *)
Local Notation net := (e_pairing_net K a b q r).
Definition apart (P Q : point K) : Prop := forall j, pmul K a j P <> Q.
Section R.
Variable R : point K.
Hypothesis HR : e_shift K a b r R.
Local Notation val := (e_value K a q r R).
Lemma e_net_map : forall P Q, G P -> G Q -> P <> None -> Q <> None -> apart P Q -> e_pairing_ellnet K a b q r P Q = Ok (val P Q).
Proof. intros [[x y] | ] [[x2 y2] | ] GP GQ NP NQ AP; try congruence. apply e_net_ok; auto. Qed.
Theorem e_net_apply : forall P Q, G P -> G Q -> P = None \/ Q = None \/ apart P Q -> pairing_apply net P Q = Ok (val P Q).
Proof.
  intros P Q HP HQ AP. unfold pairing_apply. cbn [is0_1 is0_2 map_ e_pairing_net gt].
  destruct (is_inf K P) eqn:I1; [apply inf_t in I1; subst P; rewrite (e_val_0l K a b q r e2 e1 s1 s0 T); auto | ].
  destruct (is_inf K Q) eqn:I2; [apply inf_t in I2; subst Q; rewrite (e_val_0r K a b q r e2 e1 s1 s0 T) by auto; auto | ].
  apply inf_f in I1. apply inf_f in I2. apply e_net_map; auto. destruct AP as [ | [ | ]]; congruence.
Qed.
Theorem e_net_pp : forall P, G P -> exists pp, pairing_pp_init net P = Ok pp /\
  forall Q, G Q -> P = None \/ Q = None \/ apart P Q -> pairing_pp_apply net Q pp = Ok (val P Q).
Proof.
  intros P HP. unfold pairing_pp_init. cbn [is0_1 e_pairing_net].
  destruct (is_inf K P) eqn:I1; [apply inf_t in I1; subst P; exists None; split; auto; intros Q _ _; cbn; rewrite (e_val_0l K a b q r e2 e1 s1 s0 T); auto | ].
  cbn [pp_init_ e_pairing_net bind]. exists (Some P). split; auto. intros Q HQ AP. cbn [pairing_pp_apply is0_2 pp_apply_ e_pairing_net gt].
  destruct (is_inf K Q) eqn:I2; [apply inf_t in I2; subst Q; rewrite (e_val_0r K a b q r e2 e1 s1 s0 T) by auto; auto | ].
  apply inf_f in I1. apply inf_f in I2. apply e_net_map; auto. destruct AP as [ | [ | ]]; congruence.
Qed.
Theorem e_net_prod : forall in1 in2, length in1 = length in2 -> in1 <> [] -> Forall G in1 -> Forall G in2 ->
  Forall (fun P => P <> None) in1 -> Forall (fun Q => Q <> None) in2 -> Forall (fun pq => apart (fst pq) (snd pq)) (combine in1 in2) ->
  element_prod_pairing net in1 in2 (length in1) = Ok (gprod (map (fun pq => val (fst pq) (snd pq)) (combine in1 in2))).
Proof.
  intros in1 in2 EL NE F1 F2 N1 N2 AP. rewrite iface_prod; auto.
  - cbn [prod_ e_pairing_net]. apply (generic_prod_ok HK); auto.
    apply Forall_forall. intros [P Q] I. cbn [fst snd]. assert (I1 := in_combine_l _ _ _ _ I). assert (I2 := in_combine_r _ _ _ _ I).
    rewrite Forall_forall in *. apply e_net_map; auto. apply (AP (P, Q)). auto.
  - eapply Forall_impl; [ | exact N1]. intros P H. apply inf_n; auto.
  - eapply Forall_impl; [ | exact N2]. intros P H. apply inf_n; auto.
Qed.
End R.
(** P, -P and 2P *)
Lemma fi0 : @finvert K f0 = UB. Proof. unfold finvert. rewrite (feqb_refl K HK). reflexivity. Qed.
Theorem e_net_fails : forall P Q, G P -> P <> None -> Q = P \/ Q = pneg P \/ Q = padd K a P P -> e_pairing_ellnet K a b q r P Q = UB.
Proof.
  intros [[x y] | ] Q GP NP HQ; [ | congruence]. assert (OP := proj1 GP).
  assert (SX : forall y2, Q = Some (x, y2) -> e_pairing_ellnet K a b q r (Some (x, y)) Q = UB).
  { intros y2 ->. unfold e_pairing_ellnet. cbn [coords bind]. unfold finvert at 1. destruct (feqb _ f0); [reflexivity | ]. cbn [bind].
    replace (x - x) with (0 : K) by ring. rewrite fi0. reflexivity. }
  destruct HQ as [-> | [-> | EQ]]; [apply (SX y); auto | apply (SX (- y)); auto | ].
  assert (EX := EXe x y GP). pose proof (ord_nat K a r R5 x y EX 2%nat ltac:(lia)) as N2.
  destruct Q as [[x2 y2] | ]; [ | destruct N2; cbn [pmul]; rewrite (add_0_r K a); auto].
  destruct (f_eq_dec K HK x2 x) as [-> | NX]; [apply (SX y2); auto | ].
  unfold e_pairing_ellnet. cbn [coords bind].
  pose proof (chord_x' K HK a x y x2 y2 NX) as CX.
  assert (ON : on_curve K a b (Some (x, - y))) by (apply (CurveGroup.neg_on K HK a b (Some (x, y))); auto).
  assert (SB : padd K a (Some (x2, y2)) (Some (x, - y)) = Some (x, y)).
  { rewrite EQ. change (Some (x, - y)) with (pneg (K := K) (Some (x, y))). apply (add_neg_cancel K HK a b HE x y OP). auto. }
  rewrite SB in CX. cbn [xc] in CX.
  replace ((double K x + x2) * ((x - x2) * (x - x2)) - (y + y2) * (y + y2)) with (0 : K); [rewrite fi0; reflexivity | ].
  symmetry. transitivity ((x2 - x) * (x2 - x) * x - ((y2 + y) * (y2 + y) - (x2 + x) * ((x2 - x) * (x2 - x)))); [unfold double; ring | ]. rewrite CX. ring.
Qed.
End E.
