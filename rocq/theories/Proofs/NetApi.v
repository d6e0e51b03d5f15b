(** The Shipsey-Stange method behind the pairing interface. *)
From Coq Require Import ZArith List Bool Lia Znumtheory.
From Verif.Base Require Import Outcome Array Algebra Slots Gmp.
From Verif.Spec Require Import Curve Tate Quadratic Twist FiniteField Polynomials Extension PairingValue PairingValueD.
From Verif.Model Require Import GenericPow Curve Lucas Pairing PairingA PairingA1 Miller PairingD EllNet.
From Verif.Proofs Require Import PowFacts FieldFacts QuadFacts CurveGroup CurveFacts Embed Twisted PairingAFacts PairingAApi MillerFacts TwistedValue
  ExtFacts PolymodFacts ExtFrobenius DFinal PairingA1Facts PairingDFacts PairingDApi NetA NetG.
From Verif.Model Require Import Pairing.
Import ListNotations.

(** ** Type A1 *)
Section A1.
Variable K : fld.
Variables p r l : Z.
Hypothesis TA : type_a1 K p r l.
Hypothesis R5 : (5 <= r)%Z.
Let HK := t1_field _ _ _ _ TA.
Variable j : K.
Local Notation v := (fopp f1 : K).
Local Notation val := (type_a_value K p r).
Local Notation onK := (on_curve K f1 f0).
Local Notation inp := (fun P => torsion K f1 f0 r P /\ (P <> None -> exact_order K f1 r P)).
Variable prd : list (point K) -> list (point K) -> nat -> res (Fq2 K).
Local Notation pr := {| g1 := point K; g2 := point K; gt := Fq2 K; ppt := net_pp K; is0_1 := is_inf K; is0_2 := is_inf K;
  map_ := a_pairing_ellnet K (Ok j) r l; pp_init_ := a_pairing_ellnet_pp_init K r; pp_apply_ := a_pairing_ellnet_pp_apply K (Ok j) r l; prod_ := prd |}.
Lemma net_apply : forall P Q, inp P -> onK Q -> pairing_apply pr P Q = Ok (val P Q).
Proof.
  intros P Q (IP & EX) OQ. refine (apply_ok K K HK (idh K) v (vns1 K p r l TA) f1 r ((p * p - 1) / r) _ _ _ _ _ P Q _).
  intros NP NQ. destruct P as [[x y] | ]; [ | congruence]. destruct Q as [[x2 y2] | ]; [ | congruence].
  apply (ellnet_correct K p r l TA R5 j x y x2 y2 (proj1 IP) (EX NP) OQ).
Qed.
Lemma net_pp_value : forall P, inp P -> exists pp, pairing_pp_init pr P = Ok pp /\ forall Q, onK Q -> pairing_pp_apply pr Q pp = Ok (val P Q).
Proof.
  intros P (IP & EX). refine (pp_ok K K HK (idh K) v (vns1 K p r l TA) f1 r ((p * p - 1) / r) _ _ _ _ _ P onK _).
  intros NP. destruct (ellnet_pp_correct K p r l TA R5 j P (proj1 IP) (EX NP)) as (t & E & _ & H). exists t. auto.
Qed.
Lemma net_pp_size : forall P t, inp P -> pairing_pp_init pr P = Ok (Some t) -> length (seq K t) = Z.to_nat (sizeinbase2 r).
Proof.
  intros P t (IP & EX) E. destruct (pp_t K K v _ _ _ _ _ P t E) as (NP & E'). cbn [pp_init_] in *.
  destruct (ellnet_pp_correct K p r l TA R5 j P (proj1 IP) (EX NP)) as (t' & E2 & H & _).
  assert (ET : t' = t) by (rewrite E2 in E'; injection E' as <-; reflexivity). subst t'. auto.
Qed.
Lemma exact_input : forall P, inp P -> a1_input K r P.
Proof. intros P (IP & EX). split; auto. intros N. apply (exact_regular K f1 r (t1_n _ _ _ _ TA) (t1_odd _ _ _ _ TA)). auto. Qed.
End A1.
Section A1b.
Variable K : fld.
Variables p r l : Z.
Hypothesis TA : type_a1 K p r l.
Hypothesis R5 : (5 <= r)%Z.
Variable j : K.
Local Notation val := (type_a_value K p r).
Local Notation onK := (on_curve K f1 f0).
Local Notation inp := (fun P => torsion K f1 f0 r P /\ (P <> None -> exact_order K f1 r P)).
Local Notation net := (a1_pairing_net K (Ok j) r l).
Theorem a1_net_apply : forall P Q, inp P -> onK Q -> pairing_apply net P Q = Ok (val P Q).
Proof. exact (net_apply K p r l TA R5 j _). Qed.
Theorem a1_net_pp : forall P, inp P -> exists pp, pairing_pp_init net P = Ok pp /\ forall Q, onK Q -> pairing_pp_apply net Q pp = Ok (val P Q).
Proof. exact (net_pp_value K p r l TA R5 j _). Qed.
Theorem a1_net_size : forall P t, inp P -> pairing_pp_init net P = Ok (Some t) -> length (seq K t) = Z.to_nat (sizeinbase2 r).
Proof. exact (net_pp_size K p r l TA R5 j _). Qed.
Theorem a1_net_prod : forall in1 in2, length in1 = length in2 -> in1 <> [] -> Forall inp in1 -> Forall onK in2 ->
  Forall (fun P => P <> None) in1 -> Forall (fun Q => Q <> None) in2 ->
  element_prod_pairing net in1 in2 (length in1) = Ok (gprod (map (fun pq => val (fst pq) (snd pq)) (combine in1 in2))).
Proof.
  intros in1 in2 EL NE F1 F2 N1 N2. refine (a1_prod K p r l TA MillerAffine in1 in2 EL NE _ F2 N1 N2).
  eapply Forall_impl; [ | exact F1]. intros P. apply (exact_input K p r l TA).
Qed.
End A1b.

(** ** Type A *)
Section A.
Variable K : fld.
Variables q r h e2 e1 s1 s0 : Z.
Hypothesis TA : type_a K q r h e2 e1 s1 s0.
Lemma a_is_a1 : type_a1 K q r h.
Proof.
  destruct TA. split; auto; try lia. destruct (Z.odd r) eqn:E; auto. exfalso. rewrite <- Z.negb_even in E. apply negb_false_iff in E. apply Z.even_spec in E. destruct E as [w E].
  destruct (prime_divisors _ ta_r 2) as [D | [D | [D | D]]]; try lia. exists w. lia.
Qed.
Let T1 := a_is_a1.
Lemma r5 : (5 <= r)%Z. Proof. pose proof (ta_big _ _ _ _ _ _ _ _ TA). lia. Qed.
Variable j : K.
Local Notation info := (a_info_of h e2 e1 s1).
Local Notation val := (type_a_value K q r).
Local Notation onK := (on_curve K f1 f0).
Local Notation G1 := (torsion K f1 f0 r).
Local Notation net := (a_pairing_net K (Ok j) r h info).
Lemma a_exact : forall P, G1 P -> G1 P /\ (P <> None -> exact_order K f1 r P).
Proof.
  intros P H. split; auto. intros N. pose proof (ta_big _ _ _ _ _ _ _ _ TA).
  apply (prime_exact K (ta_field _ _ _ _ _ _ _ _ TA) f1 f0 (ell1 K q r h T1) r ltac:(lia) P (ta_r _ _ _ _ _ _ _ _ TA)); auto.
Qed.
Theorem a_net_apply : forall P Q, G1 P -> onK Q -> pairing_apply net P Q = Ok (val P Q).
Proof. intros P Q HP HQ. exact (net_apply K q r h T1 r5 j _ P Q (a_exact P HP) HQ). Qed.
Theorem a_net_pp : forall P, G1 P -> exists pp, pairing_pp_init net P = Ok pp /\ forall Q, onK Q -> pairing_pp_apply net Q pp = Ok (val P Q).
Proof. intros P HP. exact (net_pp_value K q r h T1 r5 j _ P (a_exact P HP)). Qed.
Theorem a_net_size : forall P t, G1 P -> pairing_pp_init net P = Ok (Some t) -> length (seq K t) = Z.to_nat (sizeinbase2 r).
Proof. intros P t HP. exact (net_pp_size K q r h T1 r5 j _ P t (a_exact P HP)). Qed.
Theorem a_net_prod : forall in1 in2, length in1 = length in2 -> in1 <> [] -> Forall G1 in1 -> Forall onK in2 ->
  Forall (fun P => P <> None) in1 -> Forall (fun Q => Q <> None) in2 ->
  element_prod_pairing net in1 in2 (length in1) = Ok (gprod (map (fun pq => val (fst pq) (snd pq)) (combine in1 in2))).
Proof. exact (prod_value_ok K q r h e2 e1 s1 s0 TA j MillerAffine). Qed.
Theorem a_net_prod_1 : forall in1 in2 i P Q, length in1 = length in2 -> nth_error in1 i = Some P -> nth_error in2 i = Some Q -> P = None \/ Q = None ->
  element_prod_pairing net in1 in2 (length in1) = Ok f1.
Proof. intros in1 in2 i P Q EL I1 I2 H. exact (prod_one K K (fopp f1) 3 1 _ _ _ _ _ in1 in2 i P Q EL I1 I2 H). Qed.

(** changes of method *)
Local Notation anymap m := (any_map K (Ok j) r h info m).
Local Notation init m := (any_init K (Ok j) r h info m).
Local Notation app m := (any_apply K (Ok j) r h info m).
Theorem any_map_value : forall m P Q, G1 P -> onK Q -> anymap m P Q = Ok (val P Q).
Proof. intros [m | ] P Q HP HQ; [exact (apply_value K q r h e2 e1 s1 s0 TA j m P Q HP HQ) | exact (a_net_apply P Q HP HQ)]. Qed.
Theorem any_pp_value : forall m1 m2 P, G1 P -> (m1 = UseNet <-> m2 = UseNet) -> exists pp, init m1 P = Ok pp /\ forall Q, onK Q -> app m2 Q pp = Ok (val P Q).
Proof.
  intros [m1 | ] [m2 | ] P HP E.
  - destruct (pp_value K q r h e2 e1 s1 s0 TA j m1 P HP) as (pp & E1 & H). exists (MillerPP K pp). unfold any_init, any_apply. rewrite E1. split; [reflexivity | ]. intros Q HQ. exact (H Q HQ).
  - discriminate (proj2 E eq_refl).
  - discriminate (proj1 E eq_refl).
  - destruct (a_net_pp P HP) as (pp & E1 & H). exists (NetPP K pp). unfold any_init, any_apply. rewrite E1. split; [reflexivity | ]. intros Q HQ. exact (H Q HQ).
Qed.
Theorem any_pp_mixed : forall m1 m2 P Q, G1 P -> P <> None -> Q <> None -> ~ (m1 = UseNet <-> m2 = UseNet) -> exists pp, init m1 P = Ok pp /\ app m2 Q pp = UB.
Proof.
  intros m1 m2 [pt | ] [qt | ] HP NP NQ NE; try congruence.
  assert (SM : forall m, exists t, pairing_pp_init (a_pairing K (Ok j) info m) (Some pt) = Ok (Some t)).
  { intros m. destruct (pp_value K q r h e2 e1 s1 s0 TA j m _ HP) as (pp & E1 & _). revert E1. unfold pairing_pp_init. cbn [is0_1 a_pairing is_inf pp_init_].
    destruct (a_pairing_pp_init K info (Some pt)) as [t | | | ]; cbn [bind]; intros E; try discriminate E. exists t. reflexivity. }
  assert (SN : exists t, pairing_pp_init net (Some pt) = Ok (Some t)).
  { destruct (a_net_pp _ HP) as (pp & E1 & _). revert E1. unfold pairing_pp_init. cbn [is0_1 a_pairing_net is_inf pp_init_].
    destruct (a_pairing_ellnet_pp_init K r (Some pt)) as [t | | | ]; cbn [bind]; intros E; try discriminate E. exists t. reflexivity. }
  destruct m1 as [m1 | ], m2 as [m2 | ].
  - destruct NE. split; discriminate.
  - destruct (SM m1) as (t & E). exists (MillerPP K (Some t)). unfold any_init. rewrite E. split; reflexivity.
  - destruct SN as (t & E). exists (NetPP K (Some t)). unfold any_init. rewrite E. split; reflexivity.
  - destruct NE. tauto.
Qed.
End A.

(** ** Type G *)
Section G.
Variable K : fld.
Variables (m : list K).
Variables c a b : K.
Variables q r : Z.
Hypothesis T : type_g K m c a b q r.
Let T1 := proj1 T.
Local Notation n := 5%nat.
Local Notation M := (Ext K n m).
Local Notation v := (const K n m c).
Local Notation L := (Quad M v).
Local Notation val := (dg_value K n m c a q r).
Local Notation G1 := (torsion K a b r).
Local Notation onM := (on_twist K n m c a b).
Local Notation net := (g_pairing_net K n m v a b r (g_tatepower K n m v r q)).
Lemma g_r5 : (5 <= r)%Z.
Proof.
  pose proof (dg_r2 _ _ _ _ _ _ _ _ T1) as R2. pose proof (dg_r _ _ _ _ _ _ _ _ T1) as PR. destruct (proj2 T) as (w & W).
  destruct (Z_le_gt_dec 5 r) as [ | L5]; auto. exfalso. assert (C : (r = 3 \/ r = 4)%Z) by lia. destruct C as [E | E]; rewrite E in *.
  - assert (Q3 : (exists k i, q = 3 * k + i /\ (i = 0 \/ i = 1 \/ i = 2))%Z).
    { exists (q / 3)%Z, (q mod 3)%Z. pose proof (Z.div_mod q 3). pose proof (Z.mod_pos_bound q 3). lia. }
    destruct Q3 as (k & i & EQ & EI).
    assert (F : (1 - q + q * q - q * q * q + q * q * q * q = (1 - i + i * i - i * i * i + i * i * i * i) +
      3 * (k * (-1 + (q + i) - (q * q + q * i + i * i) + (q * q * q + q * q * i + q * i * i + i * i * i))))%Z) by (rewrite EQ; ring).
    rewrite F in W. set (z := (k * _)%Z) in W. clearbody z. destruct EI as [-> | [-> | ->]]; lia.
  - destruct (prime_divisors _ PR 2) as [D | [D | [D | D]]]; try lia. exists 2%Z. reflexivity.
Qed.
Theorem g_net_map : forall P Q, G1 P -> P <> None -> onM Q -> Q <> None -> val P Q <> f1 ->
  g_pairing_ellnet K n m v a b r (g_tatepower K n m v r q) P Q = Ok (val P Q).
Proof.
  intros [[x y] | ] [Q | ] HP NP HQ NQ OV; try congruence.
  exact (g_ellnet_ok K n m c a b q r T1 g_r5 (g_tatepower K n m v r q) (fun x => x <> f1) (g_tp K m c a b q r T) x y Q HP HQ OV).
Qed.
Let HM : fld_laws M := Ext_laws K (dg_field _ _ _ _ _ _ _ _ T1) n m (dg_monic _ _ _ _ _ _ _ _ T1) (n_pos n (dg_n _ _ _ _ _ _ _ _ T1)) (dg_irred _ _ _ _ _ _ _ _ T1).
Theorem g_net_apply : forall P Q, G1 P -> onM Q -> P = None \/ Q = None \/ val P Q <> f1 -> pairing_apply net P Q = Ok (val P Q).
Proof.
  intros P Q HP HQ OV. refine (apply_ok K M HM (const K n m) v (Hv K n m c a b q r T1) a r ((q ^ (2 * Z.of_nat 5) - 1) / r) _ _ _ _ _ P Q _).
  intros NP NQ. apply g_net_map; auto. destruct OV as [ | [ | ]]; congruence.
Qed.
Theorem g_net_pp : not_all_ones r -> forall P, G1 P -> exists pp, pairing_pp_init net P = Ok pp /\
  forall Q, onM Q -> P = None \/ Q = None \/ val P Q <> f1 -> pairing_pp_apply net Q pp = Ok (val P Q).
Proof. exact (g_pp K m c a b q r T). Qed.
Local Notation prods in1 in2 := (gprod (map (fun pq => val (fst pq) (snd pq)) (combine in1 in2))).
Theorem g_net_prod : forall in1 in2, length in1 = length in2 -> in1 <> [] -> Forall G1 in1 -> Forall onM in2 ->
  Forall (fun P => P <> None) in1 -> Forall (fun Q => Q <> None) in2 -> Forall (fun pq => val (fst pq) (snd pq) <> f1) (combine in1 in2) ->
  element_prod_pairing net in1 in2 (length in1) = Ok (prods in1 in2).
Proof.
  intros in1 in2 EL NE F1 F2 N1 N2 OV. etransitivity; [exact (prod_reduce K M v 3 1 eq_refl Z.le_0_1 _ _ _ _ _ in1 in2 EL N1 N2) | ].
  exact (prods_generic K n m c a b q r T1 (fun x => x <> f1) _ g_net_map in1 in2 EL NE F1 F2 N1 N2 OV).
Qed.
End G.
