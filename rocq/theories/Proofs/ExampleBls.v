(** Honest runs of example/bls.c, for every bilinear pairing. *)
From Coq Require Import ZArith Znumtheory List Bool Lia Ring Field.
From Verif.Base Require Import Outcome Gmp Algebra Slots.
From Verif.Spec Require Import Curve Tate PairingValue HashToCurve.
From Verif.Model Require Import GenericPow Curve CurveCodec GT Examples.
From Verif.Proofs Require Import PowFacts FieldFacts CurveGroup CurveFacts Bilinear BilinearZ GTFacts CurvePublic ExampleFacts.
Local Open Scope Z_scope.

Section Bls.
Variables K M T : fld.
Hypothesis HK : fld_laws K.
Hypothesis HM : fld_laws M.
Hypothesis HT : fld_laws T.
Add Field TFbls : (fl_field T HT).
Variables (a b : K) (a2 b2 : M).
Hypothesis HE : elliptic K a b.
Hypothesis HE2 : elliptic M a2 b2.
Variable r : Z.
Hypothesis RP : 0 < r.
Variable G2 : point M -> Prop.
Hypothesis G2on : forall Q, G2 Q -> on_curve M a2 b2 Q.
Hypothesis G2mul : forall n Q, G2 Q -> G2 (pzmul M a2 n Q).
Variable pair : point K -> point M -> res T.
Variable e : point K -> point M -> T.
Local Notation G := (torsion K a b r).
Variable def : point K -> point M -> Prop.
Hypothesis PV : forall P Q, G P -> G2 Q -> def P Q -> pair P Q = Ok (e P Q).
Hypothesis EM : forall i j P Q, G P -> G2 Q -> e (pzmul K a i P) (pzmul M a2 j Q) = fpow (e P Q) ((i * j) mod r).
Hypothesis ER : forall P Q, G P -> G2 Q -> fpow (e P Q) r = f1.
Variables (blen : nat) (enc : K -> list Z) (dec : list Z -> K) (sign : K -> Z) (is_sqr : K -> bool) (sqrt : K -> res K).
Hypotheses (CO : is_code K blen enc dec) (SI : is_sign K sign) (RO : good_roots K is_sqr sqrt).
Let tneg := t_neg K HK a b HE r RP.
Let tmul := t_mul K HK a b HE r RP.
Lemma one : forall (L : fld) (c : L) P, pzmul L c 1 P = P. Proof. intros. cbn [pzmul Pos.to_nat Pos.iter_op pmul]. apply (add_0_r L c). Qed.
Lemma bm1 : forall n P Q, G P -> G2 Q -> 0 <= n -> e (pzmul K a n P) Q = fpow (e P Q) n.
Proof.
  intros n P Q HP HQ Hn. rewrite <- (one M a2 Q) at 1. rewrite EM by auto. rewrite Z.mul_1_r. symmetry. apply (fpow_mod T HT); auto.
Qed.
Lemma bm2 : forall n P Q, G P -> G2 Q -> 0 <= n -> e P (pzmul M a2 n Q) = fpow (e P Q) n.
Proof.
  intros n P Q HP HQ Hn. rewrite <- (one K a P) at 1. rewrite EM by auto. rewrite Z.mul_1_l. symmetry. apply (fpow_mod T HT); auto.
Qed.
Lemma bneg : forall P Q, G P -> G2 Q -> fmul (e (pneg P) Q) (e P Q) = f1.
Proof.
  intros P Q HP HQ. assert (E : pneg P = pzmul K a (-1) P) by (change (pneg P = pneg (padd K a P None)); rewrite (add_0_r K a); reflexivity).
  rewrite E. rewrite <- (one M a2 Q) at 1. rewrite EM by auto. rewrite Z.mul_1_r. replace (e P Q) with (fpow (e P Q) 1) at 2 by apply (fpow_one T HT).
  assert (B := Z.mod_pos_bound (-1) r RP). rewrite <- (fpowA T HT) by lia. rewrite (exp_eq T HT _ r _ 0); auto; try lia. rewrite Zplus_mod_idemp_l. reflexivity.
Qed.
Theorem bls_def : forall st0 g x h rs, G h -> G2 g -> G rs -> 0 <= x -> pzmul K a x h <> None ->
  def (pzmul K a x h) g -> def (pneg (pzmul K a x h)) g -> def h (pzmul M a2 x g) -> def rs g ->
  bls K M T a b a2 blen enc dec sign sqrt pair st0 g x h rs = Ok (true, true, feqb (e rs g) (fpow (e h g) x)).
Proof.
  intros st0 g x h rs Hh Hg Hs Hx NS D1 D2 D3 D4. unfold bls. rewrite (zn_ok M HM a2 b2 HE2), (zn_ok K HK a b HE) by (auto; apply Hh). cbn [bind].
  destruct (pzmul K a x h) as [S | ] eqn:ES; [ | congruence]. assert (GS : G (Some S)) by (rewrite <- ES; auto).
  destruct (store_ok K (Reg 0) (Some S) st0 (SlotFacts.user_reg 0)) as (st & E1 & V1 & _). rewrite E1. cbn [bind].
  destruct (compressed_pub K HK a b blen enc dec CO sign is_sqr sqrt SI RO st st (Reg 0) (Reg 0) S V1 (proj1 GS)) as (_ & st' & E2 & V2 & _).
  rewrite E2. cbn [bind]. rewrite V2, PV by auto. cbn [bind]. rewrite PV by auto. cbn [bind].
  destruct (x_only_pub K HK a b blen enc dec CO is_sqr sqrt RO st' st' (Reg 0) (Reg 0) S V2 (proj1 GS)) as (_ & st2 & E3 & V3 & _).
  rewrite E3. cbn [bind].
  assert (Q1 : e (Some S) g = fpow (e h g) x) by (rewrite <- ES; apply bm1; auto).
  assert (Q2 : e h (pzmul M a2 x g) = fpow (e h g) x) by (apply bm2; auto). rewrite Q1, Q2.
  rewrite (cmp_refl T HT) by auto.
  destruct V3 as [V3 | V3]; rewrite V3.
  - rewrite PV, Q1 by auto. cbn [bind]. rewrite (cmp_refl T HT) by auto. cbn [bind]. rewrite PV by auto. reflexivity.
  - assert (GN : G (pneg (Some S))) by auto. rewrite PV by auto. cbn [bind]. assert (B := bneg (Some S) g GS Hg). rewrite Q1 in B.
    rewrite PV by auto. cbn [bind]. destruct (mulg_cmp T (e (pneg (Some S)) g) (fpow (e h g) x)); cbn [bind]; [reflexivity | ].
    assert (NZ : e (pneg (Some S)) g <> f0) by (apply (root_nz T HT _ r); auto).
    unfold gt_invert, mulg_invert. rewrite (finvert_ok T HT) by auto. cbn [bind]. rewrite (cmp_refl T HT); [reflexivity | ].
    transitivity (fmul (finv (e (pneg (Some S)) g)) (fmul (e (pneg (Some S)) g) (fpow (e h g) x))); [rewrite B; ring | ].
    field. auto.
Qed.
End Bls.
(** A pairing defined everywhere. *)
Theorem bls_ok : forall (K M T : fld), fld_laws K -> fld_laws M -> fld_laws T -> forall (a b : K) (a2 b2 : M), elliptic K a b -> elliptic M a2 b2 ->
  forall r, 0 < r -> forall G2 : point M -> Prop, (forall Q, G2 Q -> on_curve M a2 b2 Q) -> (forall n Q, G2 Q -> G2 (pzmul M a2 n Q)) ->
  forall (pair : point K -> point M -> res T) (e : point K -> point M -> T),
  (forall P Q, torsion K a b r P -> G2 Q -> pair P Q = Ok (e P Q)) ->
  (forall i j P Q, torsion K a b r P -> G2 Q -> e (pzmul K a i P) (pzmul M a2 j Q) = fpow (e P Q) ((i * j) mod r)) ->
  (forall P Q, torsion K a b r P -> G2 Q -> fpow (e P Q) r = f1) ->
  forall blen enc dec sign is_sqr sqrt, is_code K blen enc dec -> is_sign K sign -> good_roots K is_sqr sqrt ->
  forall st0 g x h rs, torsion K a b r h -> G2 g -> torsion K a b r rs -> 0 <= x -> pzmul K a x h <> None ->
  bls K M T a b a2 blen enc dec sign sqrt pair st0 g x h rs = Ok (true, true, feqb (e rs g) (fpow (e h g) x)).
Proof.
  intros K M T HK HM HT a b a2 b2 HE HE2 r RP G2 G2on G2mul pair e PV EM ER blen enc dec sign is_sqr sqrt C S R st0 g x h rs Hh Hg Hs Hx N.
  apply (bls_def K M T HK HM HT a b a2 b2 HE HE2 r RP G2 G2on G2mul pair e (fun _ _ => True)) with (is_sqr := is_sqr); auto.
Qed.
