(** Type A with r not dividing h: G1 is cyclic of order r and the pairing is
    symmetric and perfect on it. *)
From Coq Require Import ZArith Znumtheory List Bool Lia Ring Field.
From Verif.Base Require Import Outcome Algebra Slots.
From Verif.Spec Require Import FiniteField Quadratic Curve Tate Twist PairingValue HashToCurve.
From Verif.Model Require Import Pairing PairingA PairingA1 Curve CurveCodec Examples.
From Verif.Proofs Require Import PowFacts FieldFacts FieldChar QuadFacts CurveGroup CurveFacts BilinearZ CurveOrder PairingAFacts PairingAApi PairingA1Facts NonDegenA ExampleMain CodecFacts CurvePublic.
Import ListNotations.
Local Open Scope Z_scope.

Section W.
Variable L : fld.
Hypothesis HL : fld_laws L.
Add Field LFw : (fl_field L HL).
Variable r : Z.
Hypothesis Pr : prime r.
Variable w : L.
Hypothesis WR : fpow w r = f1.
Lemma coprime_root : forall i, 0 <= i -> ~ (r | i) -> fpow w i = f1 -> w = f1.
Proof.
  intros i Hi ND E. pose proof (prime_ge_2 r Pr) as R2. pose proof (Z.mod_pos_bound i r ltac:(lia)) as B.
  assert (NZ : i mod r <> 0) by (intro Z; apply ND; apply Z.mod_divide; lia).
  rewrite (fpow_mod L HL w r i) in E by (auto; lia).
  destruct (nat_inverse (Z.to_nat r) (Z.to_nat (i mod r))) as [e Ee]; [rewrite Z2Nat.id by lia; auto | lia | ].
  assert (X : fpow w (Z.of_nat e * (i mod r)) = f1) by (rewrite Z.mul_comm, (fpowM L HL), E by lia; apply (fpow1 L HL)).
  rewrite (fpow_mod L HL w r) in X by (auto; lia).
  replace ((Z.of_nat e * (i mod r)) mod r) with 1 in X.
  - transitivity (fpow w 1); [ | exact X]. change (w = fmul w f1). ring.
  - apply (f_equal Z.of_nat) in Ee. rewrite Nat2Z.inj_mod, Nat2Z.inj_mul, !Z2Nat.id in Ee by lia. lia.
Qed.
Lemma pow_inj : forall i j, w <> f1 -> 0 <= i < r -> 0 <= j < r -> fpow w i = fpow w j -> i = j.
Proof.
  assert (W : forall i j, w <> f1 -> 0 <= i < j -> j < r -> fpow w i <> fpow w j).
  { intros i j N H1 H2 E. apply N. apply (coprime_root (j - i)); [lia | intros [c C]; destruct (Z.le_gt_cases c 0); nia | ].
    replace j with (i + (j - i)) in E by lia. rewrite (fpowA L HL) in E by lia.
    assert (NZ : fpow w i <> f0).
    { intro Z. assert (X : fpow w r = fmul (fpow w i) (fpow w (r - i))) by (rewrite <- (fpowA L HL) by lia; f_equal; lia).
      rewrite Z, WR in X. apply (F_1_neq_0 (fl_field L HL)). rewrite X. ring. }
    transitivity (fdiv (fmul (fpow w i) (fpow w (j - i))) (fpow w i)); [field; auto | ]. rewrite <- E. field. auto. }
  intros i j N Hi Hj E. destruct (Z.lt_trichotomy i j) as [C | [C | C]]; auto; exfalso; [apply (W i j) | apply (W j i)]; auto; lia.
Qed.
End W.

Section A.
Variable K : fld.
Variables q r h e2 e1 s1 s0 : Z.
Hypothesis TA : type_a K q r h e2 e1 s1 s0.
Local Notation v := (fopp f1 : K).
Local Notation L := (Quad K v).
Local Notation onK := (on_curve K f1 f0).
Local Notation G := (torsion K f1 f0 r).
Local Notation val := (type_a_value K q r).
Let HK := ta_field _ _ _ _ _ _ _ _ TA.
Let Pr := ta_r _ _ _ _ _ _ _ _ TA.
Let R5 := ta_big _ _ _ _ _ _ _ _ TA.
Lemma a_is_a1 : type_a1 K q r h.
Proof.
  pose proof TA as TA'. destruct TA' as [Pq M4 F O Pr' R5' RH _ _ _ _]. split; auto; [lia | ]. apply (r_odd r Pr' R5').
Qed.
Let T1 := a_is_a1.
Let HE := ell1 K q r h T1.
Let HL : fld_laws L := Quad_laws K HK v (vns1 K q r h T1).
Add Field LFpa : (fl_field L HL).
Theorem a_cleared : forall Q, onK Q -> G (pzmul K f1 h Q). Proof. exact (a1_cleared K q r h T1). Qed.
Theorem a_nondegenerate : forall P, G P -> P <> None -> exists S, onK S /\ val P S <> f1. Proof. exact (a1_nondegenerate K q r h T1). Qed.
Lemma pz1 : forall P : point K, pzmul K f1 1 P = P. Proof. intros. apply (add_0_r K). Qed.
Lemma val_mul2 : forall k P Q, G P -> onK Q -> val P (pzmul K f1 k Q) = fpow (val P Q) (k mod r).
Proof. intros k P Q HP HQ. rewrite <- (pz1 P) at 1. rewrite (value_bilinear K q r h e2 e1 s1 s0 TA) by auto. f_equal. f_equal. lia. Qed.
Lemma val_mul1 : forall k P Q, G P -> onK Q -> val (pzmul K f1 k P) Q = fpow (val P Q) (k mod r).
Proof. intros k P Q HP HQ. rewrite <- (pz1 Q) at 1. rewrite (value_bilinear K q r h e2 e1 s1 s0 TA) by auto. f_equal. f_equal. lia. Qed.
Let VR : forall P Q, G P -> onK Q -> fpow (val P Q) r = f1. Proof. exact (value_r K q r h e2 e1 s1 s0 TA). Qed.

Hypothesis RH : ~ (r | h).
Theorem a_cyclic : forall P Q, G P -> G Q -> P <> None -> exists k, 0 <= k < r /\ Q = pzmul K f1 k P.
Proof.
  intros P Q [OP TP] [OQ TQ] NP. destruct (a1_curve_points K q r h T1) as (pts & ND & AL & LE).
  pose proof (ta_h _ _ _ _ _ _ _ _ TA) as EH. pose proof (l_pos' K q r h T1) as HP.
  rewrite (pz_pos K) in TP, TQ by lia.
  destruct (torsion_cyclic K HK f1 f0 HE (Z.to_nat r) (Z.to_nat h) pts) with (P := P) (Q := Q) as (k & Hk & E); auto.
  - rewrite Z2Nat.id by lia. auto.
  - apply Nat2Z.inj. rewrite LE, Nat2Z.inj_mul, !Z2Nat.id by lia. lia.
  - intros [c C]. apply RH. exists (Z.of_nat c). apply (f_equal Z.of_nat) in C. rewrite Nat2Z.inj_mul, !Z2Nat.id in C by lia. lia.
  - exists (Z.of_nat k). split; [lia | ]. rewrite (pz_pos K), Nat2Z.id by lia. auto.
Qed.
Theorem a_perfect : forall P Q, G P -> G Q -> P <> None -> Q <> None -> val P Q <> f1.
Proof.
  intros P Q HP HQ NP NQ E. destruct (a_nondegenerate P HP NP) as (S & OS & V). apply V.
  destruct (a_cyclic Q (pzmul K f1 h S) HQ (a_cleared S OS) NQ) as (k & Hk & EK).
  pose proof (val_mul2 h P S HP OS) as X. rewrite EK, val_mul2, E, (fpow1 L HL) in X by (auto; apply HQ).
  apply (coprime_root L HL r Pr (val P S) (VR P S HP OS) (h mod r)); auto.
  - apply Z.mod_pos_bound. lia.
  - intro D. apply RH. apply Z.mod_divide; [lia | ]. pose proof (Z.mod_pos_bound h r ltac:(lia)). destruct D as [c C]. assert (c = 0) by nia. subst c. lia.
Qed.
Theorem a_symmetric : forall P Q, G P -> G Q -> val P Q = val Q P.
Proof.
  intros P Q HP HQ. destruct P as [P | ].
  - destruct (a_cyclic (Some P) Q HP HQ ltac:(discriminate)) as (k & Hk & ->). rewrite val_mul1, val_mul2 by (auto; apply HP). reflexivity.
  - rewrite (value_0l K q r h e2 e1 s1 s0 TA), (value_0r K q r h e2 e1 s1 s0 TA). reflexivity.
Qed.
Theorem a_injective : forall P Q Q', G P -> G Q -> G Q' -> P <> None -> val P Q = val P Q' -> Q = Q'.
Proof.
  intros P Q Q' HP HQ HQ' NP E. destruct (a_cyclic P Q HP HQ NP) as (i & Hi & ->). destruct (a_cyclic P Q' HP HQ' NP) as (k & Hk & ->).
  rewrite !val_mul2, !Z.mod_small in E by (auto; apply HP). f_equal.
  apply (pow_inj L HL r Pr (val P P)); auto; [apply VR; auto; apply HP | apply a_perfect; auto].
Qed.
(** signatures *)
Theorem a_bls_sound : forall j m, let pr := pairing_apply (a_pairing K (Ok j) (a_info_of h e2 e1 s1) m) in
  forall blen enc dec sign is_sqr sqrt, is_code K blen enc dec -> is_sign K sign -> good_roots K is_sqr sqrt ->
  forall st0 g x hh rs, G hh -> G g -> g <> None -> G rs -> 0 <= x -> pzmul K f1 x hh <> None ->
  exists b, bls K K L f1 f0 f1 blen enc dec sign sqrt pr st0 g x hh rs = Ok (true, true, b) /\ (b = true <-> rs = pzmul K f1 x hh).
Proof.
  intros j m pr blen enc dec sign is_sqr sqrt C S R st0 g x hh rs Hh Hg Ng Hs Hx N.
  exists (feqb (val rs g) (fpow (val hh g) x)). split; [apply (a_bls K q r h e2 e1 s1 s0 TA j m) with (is_sqr := is_sqr); auto; apply Hg | ].
  assert (E : fpow (val hh g) x = val (pzmul K f1 x hh) g).
  { rewrite val_mul1 by (auto; apply Hg). apply (fpow_mod L HL); auto; [lia | apply VR; auto; apply Hg]. }
  rewrite E. assert (GX : G (pzmul K f1 x hh)).
  { destruct Hh as [O TT]. split; [apply (pzmul_on K HK f1 f0 (proj1 HE)); auto | ]. rewrite (pz_pos K) in * by lia. rewrite (pz_pos K) by lia.
    rewrite <- (g_times K HK f1 f0 HE) by auto. rewrite Nat.mul_comm, (g_times K HK f1 f0 HE), TT by auto. apply (g_none K). }
  split.
  - intro B. apply (feqb_eq L HL) in B. rewrite !(a_symmetric _ g) in B by auto. apply (a_injective g); auto.
  - intros ->. apply (feqb_refl L HL).
Qed.
(** the test for Diffie-Hellman tuples *)
Theorem a_coddh_exact : forall j m P B Q D, G P -> G B -> G Q -> G D -> P <> None -> Q <> None -> exists z,
  generic_is_almost_coddh (a_pairing K (Ok j) (a_info_of h e2 e1 s1) m) P B Q D = Ok z /\
  (z = true <-> exists x s, (s = 1 \/ s = -1) /\ B = pzmul K f1 x P /\ D = pzmul K f1 (s * x) Q).
Proof.
  intros j m P B Q D HP HB HQ HD NP NQ.
  destruct (coddh_spec K q r h e2 e1 s1 s0 TA j m P B Q D) as (z & E & S); auto; try apply HQ; try apply HD.
  exists z. split; auto. split.
  - intro Z. apply S in Z. destruct (a_cyclic P B HP HB NP) as (x & Hx & ->). destruct (a_cyclic Q D HQ HD NQ) as (y & Hy & ->).
    rewrite val_mul1, val_mul2, !Z.mod_small in Z by (auto; apply HQ).
    assert (W1 : val P Q <> f1) by (apply a_perfect; auto). assert (WR : fpow (val P Q) r = f1) by (apply VR; auto; apply HQ).
    destruct Z as [Z | Z].
    + apply (pow_inj L HL r Pr _ WR) in Z; auto. subst y. exists x, 1. split; auto. split; auto. f_equal. lia.
    + rewrite <- (fpowA L HL) in Z by lia.
      assert (DV : (r | y + x)). { destruct (Zdivide_dec r (y + x)); auto. exfalso. apply W1. apply (coprime_root L HL r Pr _ WR (y + x)); auto. lia. }
      exists x, (-1). split; auto. split; auto. destruct DV as [c C]. assert (CC : c = 0 \/ c = 1) by nia. destruct CC as [-> | ->].
      * assert (x = 0) by lia. assert (y = 0) by lia. subst. reflexivity.
      * replace (-1 * x) with (- x) by lia. destruct x as [ | x | x]; [lia | | lia]. cbn [Z.opp pzmul].
        destruct HQ as [OQ TQ]. rewrite (pz_pos K) in TQ by lia. rewrite (pz_pos K) by lia.
        apply (g_opp K HK f1 f0 HE); [apply (g_mul_on K HK f1 f0 HE); auto | apply (g_mul_on K HK f1 f0 HE); auto | ].
        rewrite <- (g_plus K HK f1 f0 HE) by auto. replace (Pos.to_nat x + Z.to_nat y)%nat with (Z.to_nat r) by lia. auto.
  - intros (x & s & HS & -> & ->). pose proof (coddh_complete K q r h e2 e1 s1 s0 TA j m P Q x s HP (proj1 HQ) HS) as X. congruence.
Qed.
End A.

(** ** Statements for the API *)
Section P.
Lemma a1_random_in : forall (K : fld) p n l, type_a1 K p n l -> forall is_sqr sqrt, good_roots K is_sqr sqrt ->
  forall xs P, random_solvefory K f1 f0 is_sqr sqrt (Some l) xs = Ok P -> torsion K f1 f0 n P.
Proof.
  intros K p n l T is_sqr sqrt R xs P E.
  destruct (random_on K (t1_field _ _ _ _ T) f1 f0 (ell1 K p n l T) is_sqr sqrt (Some l) xs P R) as (_ & S & OS & ->); auto.
  - intros c Ec. injection Ec as <-. pose proof (l_pos' K p n l T). lia.
  - apply (a1_cleared K p n l T). auto.
Qed.
Lemma a1_hash_in : forall (K : fld) p n l, type_a1 K p n l -> forall sign hash is_sqr sqrt, is_sign K sign -> good_roots K is_sqr sqrt ->
  forall fuel data P, curve_from_hash K f1 f0 sign is_sqr sqrt hash fuel (Some l) data = Ok P -> torsion K f1 f0 n P.
Proof.
  intros K p n l T sign hash is_sqr sqrt SG R fuel data P E.
  destruct (hash_sound_pub K (t1_field _ _ _ _ T) f1 f0 (ell1 K p n l T) sign hash SG is_sqr sqrt (Some l) data fuel P R) as (_ & S & OS & ->); auto.
  - intros c Ec. injection Ec as <-. pose proof (l_pos' K p n l T). lia.
  - apply (a1_cleared K p n l T). auto.
Qed.
Lemma a_random_in : forall (K : fld) q r h e2 e1 s1 s0, type_a K q r h e2 e1 s1 s0 -> forall is_sqr sqrt, good_roots K is_sqr sqrt ->
  forall xs P, random_solvefory K f1 f0 is_sqr sqrt (Some h) xs = Ok P -> torsion K f1 f0 r P.
Proof. intros K q r h e2 e1 s1 s0 T. exact (a1_random_in K q r h (a_is_a1 K q r h e2 e1 s1 s0 T)). Qed.
Lemma a_hash_in : forall (K : fld) q r h e2 e1 s1 s0, type_a K q r h e2 e1 s1 s0 -> forall sign hash is_sqr sqrt, is_sign K sign -> good_roots K is_sqr sqrt ->
  forall fuel data P, curve_from_hash K f1 f0 sign is_sqr sqrt hash fuel (Some h) data = Ok P -> torsion K f1 f0 r P.
Proof. intros K q r h e2 e1 s1 s0 T. exact (a1_hash_in K q r h (a_is_a1 K q r h e2 e1 s1 s0 T)). Qed.
Lemma a1_nondeg_api : forall (K : fld) p n l, type_a1 K p n l -> forall m P, a1_input K n P -> P <> None ->
  exists Q v, on_curve K f1 f0 Q /\ pairing_apply (a1_pairing K n l m) P Q = Ok v /\ v <> f1.
Proof.
  intros K p n l T m P HP NP. destruct (a1_nondegenerate K p n l T P (proj1 HP) NP) as (Q & OQ & V). exists Q, (type_a_value K p n P Q).
  split; auto. split; auto. apply (a1_apply K p n l T); auto.
Qed.
Lemma a_nondeg_api : forall (K : fld) q r h e2 e1 s1 s0, type_a K q r h e2 e1 s1 s0 -> forall j m P, torsion K f1 f0 r P -> P <> None ->
  exists Q v, on_curve K f1 f0 Q /\ pairing_apply (a_pairing K (Ok j) (a_info_of h e2 e1 s1) m) P Q = Ok v /\ v <> f1.
Proof.
  intros K q r h e2 e1 s1 s0 T j m P HP NP. destruct (a_nondegenerate K q r h e2 e1 s1 s0 T P HP NP) as (Q & OQ & V). exists Q, (type_a_value K q r P Q).
  split; auto. split; auto. apply (apply_value K q r h e2 e1 s1 s0 T); auto.
Qed.
Lemma a_points : forall (K : fld) q r h e2 e1 s1 s0, type_a K q r h e2 e1 s1 s0 ->
  exists pts : list (point K), NoDup pts /\ (forall A, In A pts <-> on_curve K f1 f0 A) /\ Z.of_nat (length pts) = r * h.
Proof.
  intros K q r h e2 e1 s1 s0 T. destruct (a1_curve_points K q r h (a_is_a1 K q r h e2 e1 s1 s0 T)) as (pts & A & B & C). exists pts. rewrite (ta_h _ _ _ _ _ _ _ _ T). auto.
Qed.
Lemma a1_points : forall (K : fld) p n l, type_a1 K p n l ->
  exists pts : list (point K), NoDup pts /\ (forall A, In A pts <-> on_curve K f1 f0 A) /\ Z.of_nat (length pts) = n * l.
Proof. intros K p n l T. destruct (a1_curve_points K p n l T) as (pts & A & B & C). exists pts. rewrite (t1_l _ _ _ _ T). auto. Qed.
Lemma a_perfect_api : forall (K : fld) q r h e2 e1 s1 s0, type_a K q r h e2 e1 s1 s0 -> ~ (r | h) -> forall j m P Q, torsion K f1 f0 r P -> torsion K f1 f0 r Q ->
  exists v, pairing_apply (a_pairing K (Ok j) (a_info_of h e2 e1 s1) m) P Q = Ok v /\ pairing_apply (a_pairing K (Ok j) (a_info_of h e2 e1 s1) m) Q P = Ok v /\
    (v = f1 <-> P = None \/ Q = None).
Proof.
  intros K q r h e2 e1 s1 s0 T D j m P Q HP HQ. exists (type_a_value K q r P Q).
  rewrite !(apply_value K q r h e2 e1 s1 s0 T) by (auto; first [apply HP | apply HQ]). split; auto. split; [f_equal; apply (a_symmetric K q r h e2 e1 s1 s0 T D); auto | ].
  split.
  - intro E. destruct P as [P | ]; auto. destruct Q as [Q | ]; auto. exfalso. apply (a_perfect K q r h e2 e1 s1 s0 T D (Some P) (Some Q)); auto; discriminate.
  - intros [-> | ->]; [apply (value_0l K q r h e2 e1 s1 s0 T) | apply (value_0r K q r h e2 e1 s1 s0 T)].
Qed.
End P.
