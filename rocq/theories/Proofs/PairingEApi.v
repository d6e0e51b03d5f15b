(** Type E: the pairing interface, the order and bilinearity of the value. *)
From Coq Require Import ZArith List Bool Lia Ring Field Znumtheory.
From Verif.Base Require Import Outcome Array Algebra Slots Gmp.
From Verif.Spec Require Import Curve Tate FiniteField PairingValue PairingValueE.
From Verif.Model Require Import GenericPow Curve Pairing PairingA PairingE GT.
From Verif.Proofs Require Import PowFacts FieldFacts SlotFacts CurveGroup CurveFacts LineAlgebra TateFacts Bilinear BilinearZ
  Twisted ArrayFacts Outside PairingEFacts PairingIface TwistedValue.
From Verif.Model Require Import Pairing.
Import ListNotations.

Section E.
Variable K : fld.
Variables a b : K.
Variables q r e2 e1 s1 s0 : Z.
Hypothesis T : type_e K a b q r e2 e1 s1 s0.
Let HK := te_field _ _ _ _ _ _ _ _ _ T.
Let HE := te_curve _ _ _ _ _ _ _ _ _ T.
Let Pr := te_r _ _ _ _ _ _ _ _ _ T.
Let R5 := te_big _ _ _ _ _ _ _ _ _ T.
Let E12 := te_exp _ _ _ _ _ _ _ _ _ T.
Let S1 := te_s1 _ _ _ _ _ _ _ _ _ T.
Let S0 := te_s0 _ _ _ _ _ _ _ _ _ T.
Let RE := te_solinas _ _ _ _ _ _ _ _ _ T.
Let C2 : f2 K <> f0 := proj1 HE.
Let SM := proj2 HE.
Add Field KFea : (fl_field K HK).
Local Notation add := (padd K a).
Local Notation mul := (pmul K a).
Local Notation pz := (pzmul K a).
Local Notation G := (torsion K a b r).
Local Notation out := (out K a b G).
Local Notation info := {| ee2 := e2; ee1 := e1; es1 := s1; es0 := s0 |}.
Local Notation e := ((q - 1) / r)%Z.
Let SG : subgroup K a b G := tor_sub K HK a b HE r R5 e2 e1.
Lemma e_eq : (r * e = q - 1)%Z.
Proof. destruct (te_div _ _ _ _ _ _ _ _ _ T) as (c & E). rewrite E, Z.div_mul by lia. ring. Qed.
Lemma e_nonneg : (0 <= e)%Z.
Proof. pose proof (prime_ge_2 _ (te_q _ _ _ _ _ _ _ _ _ T)). apply Z.div_pos; lia. Qed.
Lemma e_fermat : forall x : K, x <> f0 -> fpow x (r * e) = f1.
Proof.
  intros x N. rewrite e_eq. destruct (te_order _ _ _ _ _ _ _ _ _ T) as (l & ND & AL & LE). unfold fpow, zpow.
  replace (Z.to_nat (q - 1)) with (length l - 1)%nat by lia. apply (fermat K HK l ND AL). auto.
Qed.
Let RP : (0 < r)%Z. Proof. lia. Qed.

Section R.
Variable R : point K.
Hypothesis HR : e_shift K a b r R.
Local Notation val := (e_value K a q r R).
Local Notation E m := (e_pairing_rec K a info q r R m).
Let OR : out R := shift_out K a b r R HR.
Lemma e_map : forall m P Q, G P -> G Q -> P <> None -> e_pairing K a info q r R m P Q = Ok (val P Q).
Proof.
  intros m P Q HP HQ NP. unfold e_pairing. rewrite (mul_value_ok K HK a C2). cbn [bind].
  assert (OQ := out_add K HK a b HE G SG Q R HQ OR).
  destruct (add Q R) as [num | ] eqn:EQ; [ | destruct (out_fin K a b G SG _ OQ eq_refl)].
  assert (OR' := OR). assert (ER : exists den, R = Some den) by (destruct R as [den | ]; [eauto | destruct (out_fin K a b G SG _ OR eq_refl)]).
  destruct ER as (den & ER). rewrite ER in *. cbn [coords bind].
  assert (F : (match m with PairingA.Miller => e_miller_proj K a num den info P | MillerAffine => e_miller_affine K a num den info P end) =
    Ok (fdiv (miller K a (Z.to_nat r) P (Some num)) (miller K a (Z.to_nat r) P (Some den)))).
  { destruct m; [apply (proj_correct K HK a b HE r Pr R5 e2 e1 s1 s0 E12 S1 S0 RE P HP NP num den OQ OR') |
      apply (affine_correct K HK a b HE r Pr R5 e2 e1 s1 s0 E12 S1 S0 RE P HP NP num den OQ OR')]. }
  rewrite F. cbn [bind]. rewrite (generic_pow_spec _ (mul_monoid_laws K HK)) by apply e_nonneg.
  unfold e_value. rewrite EQ. reflexivity.
Qed.
Lemma m_nz : forall P X, G P -> out X -> miller K a (Z.to_nat r) P X <> f0.
Proof. intros. apply (o_mil_nz K HK a b HE G SG); auto. Qed.
Lemma e_val_0l : forall Q, val None Q = f1.
Proof.
  intros. unfold e_value. rewrite !(mil_P0 K HK). transitivity (fpow (f1 : K) e); [f_equal; field; apply (f_1_neq_0 K HK) | apply (fpow1 K HK)].
Qed.
Lemma e_val_0r : forall P, G P -> val P None = f1.
Proof.
  intros P HP. unfold e_value. rewrite (add_0_l K a). transitivity (fpow (f1 : K) e); [f_equal; field; apply m_nz; auto | apply (fpow1 K HK)].
Qed.
Lemma inf_f : forall P : point K, is_inf K P = false -> P <> None. Proof. intros [p | ] H; congruence || discriminate. Qed.
Lemma inf_t : forall P : point K, is_inf K P = true -> P = None. Proof. intros [p | ] H; congruence || discriminate. Qed.
Lemma inf_n : forall P : point K, P <> None -> is_inf K P = false. Proof. intros [p | ] H; congruence || reflexivity. Qed.
Theorem e_apply : forall m P Q, G P -> G Q -> pairing_apply (E m) P Q = Ok (val P Q).
Proof.
  intros m P Q HP HQ. unfold pairing_apply. cbn [is0_1 is0_2 map_ e_pairing_rec gt].
  destruct (is_inf K P) eqn:I1; [apply inf_t in I1; subst P; rewrite e_val_0l; auto | ].
  destruct (is_inf K Q) eqn:I2; [apply inf_t in I2; subst Q; rewrite e_val_0r by auto; auto | ].
  apply e_map; auto. apply inf_f; auto.
Qed.
Theorem e_pp : forall m P, G P -> exists pp, pairing_pp_init (E m) P = Ok pp /\ forall Q, G Q -> pairing_pp_apply (E m) Q pp = Ok (val P Q).
Proof.
  intros m P HP. unfold pairing_pp_init. cbn [is0_1 e_pairing_rec].
  destruct (is_inf K P) eqn:I1; [apply inf_t in I1; subst P; exists None; split; auto; intros Q _; cbn; rewrite e_val_0l; auto | ].
  cbn [pp_init_ e_pairing_rec bind]. exists (Some P). split; auto. intros Q HQ. cbn [pairing_pp_apply is0_2 pp_apply_ e_pairing_rec gt].
  destruct (is_inf K Q) eqn:I2; [apply inf_t in I2; subst Q; rewrite e_val_0r by auto; auto | ].
  apply e_map; auto. apply inf_f; auto.
Qed.
Theorem e_prod : forall m in1 in2, length in1 = length in2 -> in1 <> [] -> Forall G in1 -> Forall G in2 ->
  Forall (fun P => P <> None) in1 -> Forall (fun Q => Q <> None) in2 ->
  element_prod_pairing (E m) in1 in2 (length in1) = Ok (gprod (map (fun pq => val (fst pq) (snd pq)) (combine in1 in2))).
Proof.
  intros m in1 in2 EL NE F1 F2 N1 N2. rewrite iface_prod; auto.
  - cbn [prod_ e_pairing_rec]. apply (generic_prod_ok HK); auto.
    apply Forall_forall. intros [P Q] I. cbn [fst snd]. assert (I1 := in_combine_l _ _ _ _ I). assert (I2 := in_combine_r _ _ _ _ I).
    rewrite Forall_forall in *. apply e_map; auto.
  - eapply Forall_impl; [ | exact N1]. intros P H. apply inf_n; auto.
  - eapply Forall_impl; [ | exact N2]. intros P H. apply inf_n; auto.
Qed.
Theorem e_prod_1 : forall m in1 in2 i P Q, length in1 = length in2 -> nth_error in1 i = Some P -> nth_error in2 i = Some Q -> P = None \/ Q = None ->
  element_prod_pairing (E m) in1 in2 (length in1) = Ok f1.
Proof.
  intros m in1 in2 i P Q EL I1 I2 H. apply (iface_prod_1 (E m) in1 in2 i P Q); auto. destruct H as [-> | ->]; [left | right]; reflexivity.
Qed.
Theorem e_coddh : forall m P B Q X, G P -> G B -> G Q -> G X -> exists z,
  generic_is_almost_coddh (E m) P B Q X = Ok z /\ (z = true <-> val P X = val B Q \/ fmul (val P X) (val B Q) = f1).
Proof. intros. apply (iface_coddh (E m) HK val); apply e_apply; auto. Qed.
(* order and bilinearity *)
Lemma e_inner_nz : forall P Q, G P -> G Q -> fdiv (miller K a (Z.to_nat r) P (add Q R)) (miller K a (Z.to_nat r) P R) <> f0.
Proof.
  intros P Q HP HQ. assert (N1 := m_nz P (add Q R) HP (out_add K HK a b HE G SG Q R HQ OR)). assert (N2 := m_nz P R HP OR).
  intro E. apply N1. transitivity (fmul (fdiv (miller K a (Z.to_nat r) P (add Q R)) (miller K a (Z.to_nat r) P R)) (miller K a (Z.to_nat r) P R)); [field; auto | ]. rewrite E. ring.
Qed.
Lemma e_val_nz : forall P Q, G P -> G Q -> val P Q <> f0.
Proof. intros. apply (fpow_nz K HK). apply e_inner_nz; auto. Qed.
Theorem e_value_r : forall P Q, G P -> G Q -> fpow (val P Q) r = f1.
Proof.
  intros P Q HP HQ. unfold e_value. rewrite <- (fpowM K HK) by (try apply e_nonneg; lia). rewrite Z.mul_comm. apply e_fermat. apply e_inner_nz; auto.
Qed.
(* the value as a quotient of two powers *)
Lemma val_split : forall P Q, G P -> G Q -> fmul (val P Q) (fpow (miller K a (Z.to_nat r) P R) e) = fpow (miller K a (Z.to_nat r) P (add Q R)) e.
Proof.
  intros P Q HP HQ. unfold e_value. rewrite <- (fpow_mul' K HK). f_equal. field. apply m_nz; auto.
Qed.
Lemma cancel_r : forall x y z : K, z <> f0 -> fmul x z = fmul y z -> x = y.
Proof. intros x y z N E. transitivity (fdiv (fmul x z) z); [field; auto | ]. rewrite E. field. auto. Qed.
Lemma e_add1 : forall P P' Q, G P -> G P' -> G Q -> val (add P P') Q = fmul (val P Q) (val P' Q).
Proof.
  intros P P' Q HP HP' HQ. assert (HS := sg_add K a b G SG _ _ HP HP'). assert (OQ := out_add K HK a b HE G SG Q R HQ OR).
  apply cancel_r with (z := fpow (miller K a (Z.to_nat r) (add P P') R) e); [apply (fpow_nz K HK); apply m_nz; auto | ].
  rewrite val_split by auto. rewrite !(o_f1 K HK a b HE G SG r e RP e_nonneg e_fermat) by (auto; first [apply HP | apply HP']).
  rewrite <- !val_split by auto. ring.
Qed.
Hypothesis HS : forall k, (0 < k < 5)%Z -> pz (k * r) R <> None.
Lemma out_k : forall k, (0 < k < 5)%nat -> out (mul k R).
Proof.
  intros k Hk. assert (O := proj1 HR). split; [apply (pmul_on K HK a b C2); auto | ]. intros [_ F]. apply (HS (Z.of_nat k)); [lia | ].
  rewrite Z.mul_comm, (zmul_mul K HK a b C2 SM) by (auto; lia). destruct k as [ | k]; [lia | ]. cbn [Z.of_nat pzmul]. rewrite SuccNat2Pos.id_succ. exact F.
Qed.
Lemma e_add2 : forall P Q Q', G P -> G Q -> G Q' -> val P (add Q Q') = fmul (val P Q) (val P Q').
Proof.
  intros P Q Q' HP HQ HQ'. assert (HS' := sg_add K a b G SG _ _ HQ HQ'). assert (NZ := fpow_nz K HK _ e (m_nz P R HP OR)).
  apply cancel_r with (z := fmul (fpow (miller K a (Z.to_nat r) P R) e) (fpow (miller K a (Z.to_nat r) P R) e)); [apply (f_mul_nz K HK); auto | ].
  transitivity (fmul (fmul (val P (add Q Q')) (fpow (miller K a (Z.to_nat r) P R) e)) (fpow (miller K a (Z.to_nat r) P R) e)); [ring | ]. rewrite val_split by auto.
  transitivity (fmul (fmul (val P Q) (fpow (miller K a (Z.to_nat r) P R) e)) (fmul (val P Q') (fpow (miller K a (Z.to_nat r) P R) e))); [ | ring]. rewrite !val_split by auto.
  symmetry. apply (o_class K HK a b HE G SG r e RP e_nonneg e_fermat R out_k P Q Q'); auto. apply HP.
Qed.
End R.
Lemma G_mul : forall i P, G P -> G (pz i P).
Proof.
  assert (N : forall n P, G P -> G (mul n P)) by apply (mul_G1 K a b G SG).
  intros [ | p | p] P H; cbn [pzmul]; auto. apply (sg_0 K a b G SG). apply (sg_neg K a b G SG). auto.
Qed.
Section B.
Variable R : point K.
Hypothesis HR : e_shift K a b r R.
Hypothesis HS : forall k, (0 < k < 5)%Z -> pz (k * r) R <> None.
Local Notation val := (e_value K a q r R).
Lemma z_of_nat : forall (phi : point K -> K) P, phi None = f1 -> (forall A B, G A -> G B -> phi (add A B) = fmul (phi A) (phi B)) ->
  G P -> phi P <> f0 -> fpow (phi P) r = f1 -> forall i, phi (pz i P) = fpow (phi P) (i mod r).
Proof.
  intros phi P H0 HA HP NP HP1 i.
  assert (EN : forall n, phi (mul n P) = fpow (phi P) (Z.of_nat n)).
  { induction n; cbn [pmul]; [rewrite H0; reflexivity | ]. rewrite HA by (auto; apply (mul_G1 K a b G SG); auto). rewrite IHn, Nat2Z.inj_succ.
    rewrite <- Z.add_1_l, (fpowA K HK) by lia. f_equal. unfold fpow, zpow. change (Z.to_nat 1) with 1%nat. cbn [npow]. cbn [mmul mone mul_monoid]. ring. }
  destruct i as [ | p | p]; cbn [pzmul].
  - rewrite Z.mod_0_l by lia. rewrite H0. reflexivity.
  - rewrite EN, positive_nat_Z. apply (fpow_mod K HK); auto; lia.
  - change (Z.neg p) with (- Z.pos p)%Z. apply (fpow_neg K HK); auto; try lia. rewrite <- positive_nat_Z, <- EN.
    rewrite <- HA by (try apply (sg_neg K a b G SG); apply (mul_G1 K a b G SG); auto). rewrite (add_comm K HK a), (add_neg_r K HK a C2). auto.
Qed.
Theorem e_mul1 : forall i P Q, G P -> G Q -> val (pz i P) Q = fpow (val P Q) (i mod r).
Proof.
  intros i P Q HP HQ. apply (z_of_nat (fun X => val X Q)); auto.
  - apply e_val_0l.
  - intros A B HA HB. apply (e_add1 R HR); auto.
  - apply (e_val_nz R HR); auto.
  - apply (e_value_r R HR); auto.
Qed.
Theorem e_bilinear : forall i j P Q, G P -> G Q -> val (pz i P) (pz j Q) = fpow (val P Q) ((i * j) mod r).
Proof.
  intros i j P Q HP HQ. rewrite e_mul1 by (auto using G_mul).
  rewrite (z_of_nat (fun X => val P X)); auto.
  - assert (H1 := Z.mod_pos_bound i r RP). assert (H2 := Z.mod_pos_bound j r RP). rewrite <- (fpowM K HK) by lia.
    rewrite (fpow_mod K HK _ r) by (try lia; try nia; apply (e_value_r R HR); auto).
    f_equal. rewrite <- Zmult_mod. f_equal. ring.
  - apply (e_val_0r R HR). auto.
  - intros A B HA HB. apply (e_add2 R HR HS); auto.
  - apply (e_val_nz R HR); auto.
  - apply (e_value_r R HR); auto.
Qed.
Theorem e_additive : forall P P' Q Q', G P -> G P' -> G Q -> G Q' ->
  val (padd K a P P') Q = fmul (val P Q) (val P' Q) /\ val P (padd K a Q Q') = fmul (val P Q) (val P Q').
Proof. intros. split; [apply (e_add1 R HR) | apply (e_add2 R HR HS)]; auto. Qed.
Theorem e_coddh_accepts : forall m P Q x s, G P -> G Q -> s = 1%Z \/ s = (-1)%Z ->
  generic_is_almost_coddh (e_pairing_rec K a info q r R m) P (pz x P) Q (pz (s * x) Q) = Ok true.
Proof.
  intros m P Q x s HP HQ Hs. destruct (e_coddh R HR m P (pz x P) Q (pz (s * x) Q)) as (z & E & H); auto using G_mul. rewrite E. f_equal. apply H.
  assert (O1 : forall X : point K, pz 1 X = X) by (intros; cbn [pzmul Pos.to_nat Pos.iter_op pmul]; apply (add_0_r K a)).
  assert (V1 : val P (pz (s * x) Q) = fpow (val P Q) ((s * x) mod r)).
  { rewrite <- (O1 P) at 1. rewrite e_bilinear by auto. f_equal. f_equal. ring. }
  rewrite V1, e_mul1 by auto. destruct Hs as [-> | ->]; [left; rewrite Z.mul_1_l; reflexivity | right].
  assert (B1 := Z.mod_pos_bound (-1 * x) r RP). assert (B2 := Z.mod_pos_bound x r RP). rewrite <- (fpowA K HK) by lia.
  rewrite (fpow_mod K HK _ r) by (try lia; apply (e_value_r R HR); auto). rewrite <- Zplus_mod. replace (-1 * x + x)%Z with 0%Z by ring. reflexivity.
Qed.
End B.
Theorem e_gt : forall x : K, x <> f0 -> exists u, e_finalpow K q r x = Ok u /\ fpow u r = f1.
Proof.
  intros x N. exists (fpow x e). split; [unfold e_finalpow; rewrite (generic_pow_spec _ (mul_monoid_laws K HK)) by apply e_nonneg; reflexivity | ].
  rewrite <- (fpowM K HK) by (try apply e_nonneg; lia). rewrite Z.mul_comm. apply e_fermat. auto.
Qed.
End E.
