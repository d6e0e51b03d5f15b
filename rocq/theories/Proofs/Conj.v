(** The groups of a pairing whose second group is the -1 eigenspace of an
    automorphism of the large field, and the Miller loop up to a factor fixed by
    it.  (Twisted.v and MillerFacts.v for the case L = M(sqrt v).) *)
From Coq Require Import ZArith List Bool Lia Ring Field Znumtheory.
From Verif.Base Require Import Outcome Array Algebra Slots Gmp.
From Verif.Spec Require Import Curve Tate Twist FiniteField PairingValue.
From Verif.Model Require Import Curve PairingA Miller.
From Verif.Proofs Require Import PowFacts FieldFacts SlotFacts CurveGroup CurveFacts LineAlgebra TateFacts Bilinear Embed Twisted MillerFacts.

Section S.
Variables K L : fld.
Hypothesis HK : fld_laws K.
Hypothesis HL : fld_laws L.
Add Field KFcj : (fl_field K HK).
Add Field LFcj : (fl_field L HL).
Local Notation "0" := f0. Local Notation "1" := f1.
Local Notation "x + y" := (fadd x y). Local Notation "x - y" := (fsub x y). Local Notation "x * y" := (fmul x y). Local Notation "- x" := (fopp x).
Local Notation "x / y" := (fdiv x y).
Variable up : K -> L.
Hypothesis Hup : embedding K L up.
Variable conj : L -> L.
Hypothesis Hc : embedding L L conj.
Hypothesis CU : forall x, conj (up x) = up x.
Variables a b : K.
Hypothesis HE : elliptic K a b.
Let C2 : f2 K <> 0 := proj1 HE.
Let SM := proj2 HE.
Local Notation up' := (epoint up).
Definition HEL : elliptic L (up a) (up b) := e_elliptic K L HK HL up Hup a C2 b HE.
Local Notation onL := (on_curve L (up a) (up b)).
Local Notation addL := (padd L (up a)).
Lemma C2L : f2 L <> 0. Proof. apply HEL. Qed.
Variable r : Z.
Hypothesis Hr : (0 < r)%Z.
Hypothesis Hodd : Z.odd r = true.
Definition G1 (P : point L) : Prop := exists P0, on_curve K a b P0 /\ pzmul K a r P0 = None /\ P = up' P0.
Definition G2 (R : point L) : Prop := onL R /\ epoint conj R = pneg R.
Lemma pmul_neg : forall n P, on_curve K a b P -> pmul K a n (pneg P) = pneg (pmul K a n P).
Proof.
  induction n; intros P H; cbn [pmul]; auto. rewrite IHn by auto. symmetry. apply (pneg_add K HK a b HE); auto.
  apply (pmul_on K HK a b C2); auto.
Qed.
Lemma pzmul_nat : forall P, pzmul K a r P = pmul K a (Z.to_nat r) P.
Proof. intros. unfold pzmul. destruct r; try lia. reflexivity. Qed.
Lemma sub1 : subgroup L (up a) (up b) G1.
Proof.
  split.
  - intros P (P0 & H & _ & ->). apply (e_on K L up Hup a b). auto.
  - exists None. repeat split; auto. rewrite pzmul_nat. induction (Z.to_nat r); cbn; auto.
  - intros P Q (P0 & H1 & H2 & ->) (Q0 & H3 & H4 & ->). exists (padd K a P0 Q0). repeat split.
    + apply (add_on K HK a b C2); auto.
    + rewrite (zmul_dist K HK a b C2 SM) by (auto; lia). rewrite H2, H4. reflexivity.
    + symmetry. apply (e_padd K L HK HL up Hup a C2).
  - intros P (P0 & H1 & H2 & ->). exists (pneg P0). repeat split.
    + apply (neg_on K HK a b). auto.
    + rewrite pzmul_nat, pmul_neg, <- pzmul_nat, H2 by auto. reflexivity.
    + symmetry. apply (e_neg K L HK HL up Hup).
Qed.
Lemma sub2 : subgroup L (up a) (up b) G2.
Proof.
  split.
  - intros P (H & _). auto.
  - split; cbn; auto.
  - intros P Q (H1 & H2) (H3 & H4). split; [apply (onadd L HL _ _ HEL); auto | ].
    rewrite <- (CU a) at 1. rewrite CU at 1. rewrite (e_padd L L HL HL conj Hc (up a) C2L), CU, H2, H4.
    symmetry. apply (pneg_add L HL _ _ HEL); auto.
  - intros P (H1 & H2). split; [apply (neg_on L HL); auto | ]. rewrite (e_neg L L HL HL conj Hc), H2. reflexivity.
Qed.
Lemma disjoint : forall P, G1 P -> G2 P -> P = None.
Proof.
  intros P (P0 & H1 & H2 & ->) (H3 & H4).
  assert (F : epoint conj (up' P0) = up' P0). { destruct P0 as [[x y] | ]; cbn [epoint]; auto. rewrite !CU. reflexivity. }
  rewrite F in H4. rewrite <- (e_neg K L HK HL up Hup) in H4. apply (e_point_inj K L HK HL up Hup) in H4.
  assert (D2 : padd K a P0 P0 = None) by (rewrite H4 at 2; apply (add_neg_r K HK a C2)).
  pose proof (Z.div_mod r 2 ltac:(lia)) as DM. rewrite Zmod_odd, Hodd in DM. assert (0 <= r / 2)%Z by (apply Z.div_pos; lia).
  assert (pzmul K a r P0 = P0).
  { rewrite DM. rewrite (zmul_add K HK a b C2 SM) by (auto; lia). rewrite Z.mul_comm, (zmul_mul K HK a b C2 SM) by (auto; lia).
    replace (pzmul K a 2 P0) with (None : point K).
    - replace (pzmul K a (r / 2) None) with (None : point K).
      + change (pzmul K a 1 P0) with (padd K a P0 None). rewrite (add_0_r K a). reflexivity.
      + symmetry. unfold pzmul. destruct (r / 2)%Z; auto; [ | lia]. induction (Pos.to_nat p); cbn; auto.
    - symmetry. change (pzmul K a 2 P0) with (padd K a P0 (padd K a P0 None)). rewrite (add_0_r K a). auto. }
  rewrite H2 in H0. rewrite <- H0. reflexivity.
Qed.


(** equality up to a factor fixed by the automorphism *)
Definition fixed (c : L) : Prop := c <> 0 /\ conj c = c.
Lemma fixed_mul : forall c d, fixed c -> fixed d -> fixed (c * d).
Proof. intros c d (N & E) (N' & E'). split; [apply (f_mul_nz L HL); auto | ]. rewrite (em_mul _ _ _ Hc), E, E'. reflexivity. Qed.
Lemma fixed_inv : forall c, fixed c -> fixed (finv c).
Proof.
  intros c (N & E). split; [apply (f_inv_nz L HL); auto | ].
  transitivity (conj (finv c) * conj c * finv c); [rewrite E; field; auto | ]. rewrite <- (em_mul _ _ _ Hc). replace (finv c * c) with (1 : L) by (field; auto).
  rewrite (em_1 _ _ _ Hc). ring.
Qed.
Lemma fixed_1 : fixed 1. Proof. split; [apply (f_1_neq_0 L HL) | apply Hc]. Qed.
Lemma fixed_up : forall x, x <> 0 -> fixed (up x).
Proof. intros x N. split; [apply (e_nz K L HK HL up Hup); auto | apply CU]. Qed.
Lemma fixed_sub : forall X x, conj X = X -> X <> up x -> fixed (X - up x).
Proof.
  intros X x E N. split; [intro F; apply N; apply (f_sub_0 L HL); auto | ]. rewrite (e_sub L L HL HL conj Hc), E, CU. reflexivity.
Qed.
Definition sim (f g : L) : Prop := exists c : L, fixed c /\ f = c * g.
Lemma sim_refl : forall f, sim f f.
Proof. intros f. exists 1. split; [apply fixed_1 | ring]. Qed.
Lemma sim_mul : forall f f' g g', sim f g -> sim f' g' -> sim (f * f') (g * g').
Proof. intros f f' g g' (c & H & ->) (c' & H' & ->). exists (c * c'). split; [apply fixed_mul; auto | ring]. Qed.
Lemma sim_trans : forall f g k, sim f g -> sim g k -> sim f k.
Proof. intros f g k (c & H & ->) (c' & H' & ->). exists (c * c'). split; [apply fixed_mul; auto | ring]. Qed.
Lemma sim_sym : forall f g, sim f g -> sim g f.
Proof. intros f g (c & H & ->). exists (finv c). split; [apply fixed_inv; auto | field; apply H]. Qed.
Lemma sim_fixed : forall c f, fixed c -> sim (c * f) f.
Proof. intros c f H. exists c. auto. Qed.

(** the value at (X, Y) of a X + b Y + c with coefficients in K *)
Definition lineval (ca cb cc : K) (X Y : L) : L := up ca * X + up cb * Y + up cc.
Local Notation is_line := (is_line K a).
Local Notation stepL := (miller_step L (up a)).
Local Notation milL := (miller L (up a)).
Lemma up_G1 : forall P, on_curve K a b P -> pzmul K a r P = None -> G1 (up' P).
Proof. intros P H1 H2. exists P. auto. Qed.
Lemma G2_x : forall X Y, G2 (Some (X, Y)) -> conj X = X.
Proof. intros X Y (_ & E). cbn in E. congruence. Qed.
Lemma line_step : forall A B ca cb cc X Y, on_curve K a b A -> on_curve K a b B -> pzmul K a r A = None -> pzmul K a r B = None ->
  padd K a A B <> None -> is_line A B (ca, cb, cc) -> G2 (Some (X, Y)) ->
  sim (lineval ca cb cc X Y) (stepL (up' A) (up' B) (Some (X, Y))).
Proof.
  intros A B ca cb cc X Y HA HB TA TB N IL HR. assert (CX := G2_x X Y HR).
  destruct A as [[x1 y1] | ]; [ | contradiction]. destruct B as [[x2 y2] | ]; [ | contradiction].
  destruct IL as (Hb & -> & ->). destruct (padd K a (Some (x1, y1)) (Some (x2, y2))) as [[x3 y3] | ] eqn:E; [ | congruence].
  assert (SL : x1 <> x2 \/ y1 <> 0) by (destruct (finite_sum K HK a b x1 y1 x2 y2 (x3, y3) HA HB E) as [NE | (E1 & E2 & NE)]; auto).
  assert (E' : addL (up' (Some (x1, y1))) (up' (Some (x2, y2))) = up' (Some (x3, y3))) by (rewrite <- (e_padd K L HK HL up Hup a C2), E; reflexivity).
  assert (OFF : X <> up x3).
  { intro F. assert (O : offx L (up' (Some (x3, y3))) (Some (X, Y))).
    { apply (off12 L HL (up a) (up b) G1 G2 sub1 sub2 disjoint); auto; try congruence. rewrite <- E'. apply sub1; apply up_G1; auto. }
    cbn in O. apply O. rewrite F. reflexivity. }
  cbn [epoint] in E'; cbn [miller_step epoint]; rewrite E'.
  rewrite <- (e_slope K L HK HL up Hup a C2 x1 y1 x2 y2 SL).
  assert (FX := fixed_sub X x3 CX OFF). exists (up cb * (X - up x3)). split; [apply fixed_mul; auto; apply fixed_up; auto | ].
  set (l := slope K a x1 y1 x2 y2). unfold lineval. rewrite !(e_opp K L HK HL up Hup), !(e_mul K L up Hup), (e_sub K L HK HL up Hup), (e_mul K L up Hup).
  field. apply FX.
Qed.

Section P.
Variable P : point K.
Hypothesis OP : on_curve K a b P.
Hypothesis TP : pzmul K a r P = None.
Local Notation mul n := (pmul K a n P).
Lemma mul_on : forall n, on_curve K a b (mul n).
Proof. intros. apply (pmul_on K HK a b C2); auto. Qed.
Lemma mul_tors : forall n, pzmul K a r (mul n) = None.
Proof.
  intros n. rewrite pzmul_nat. induction n.
  - cbn. induction (Z.to_nat r); cbn; auto.
  - cbn [pmul]. rewrite <- pzmul_nat, (zmul_dist K HK a b C2 SM), TP, pzmul_nat, IHn by (auto using mul_on; lia). reflexivity.
Qed.
Lemma GP : G1 (up' P). Proof. apply up_G1; auto. Qed.
Lemma up_mul : forall n, up' (mul n) = pmul L (up a) n (up' P).
Proof. intros. apply (e_pmul K L HK HL up Hup a C2). Qed.
Lemma mul_plus : forall m n, mul (m + n)%nat = padd K a (mul m) (mul n).
Proof.
  intros. apply (e_point_inj K L HK HL up Hup). rewrite (e_padd K L HK HL up Hup a C2), !up_mul.
  apply (mul_add L HL (up a) (up b) HEL G1 sub1). apply GP.
Qed.
Lemma pz_nat : forall n, pzmul K a (Z.of_nat n) P = mul n.
Proof. intros [ | n]; [reflexivity | ]. cbn [Z.of_nat pzmul]. rewrite SuccNat2Pos.id_succ. reflexivity. Qed.
Lemma mul_1 : mul 1 = P. Proof. cbn [pmul]. apply (add_0_r K a). Qed.
Section G.
Hypothesis R3 : (2 < r)%Z.
Hypothesis RG : regular K a r P.
Lemma zkk : forall m, Z.of_nat (kk r m) = (r / 2 ^ Z.of_nat m)%Z. Proof. intros. unfold kk. apply Z2Nat.id. apply kk_nonneg; auto. Qed.
Lemma reg_dbl : forall m, (m <= start_bit r)%nat -> pmul K a (kk r (S m)) P <> None /\ pmul K a (2 * kk r (S m))%nat P <> None.
Proof.
  intros m Hm. pose proof (kk_pos r R3 m Hm) as KP. destruct (RG (Z.of_nat (S m)) ltac:(lia)) as (A & B & _); [rewrite <- zkk; lia | ].
  rewrite <- zkk in A, B. rewrite pz_nat in A. replace (2 * Z.of_nat (kk r (S m)))%Z with (Z.of_nat (2 * kk r (S m))) in B by lia. rewrite pz_nat in B. auto.
Qed.
Lemma reg_tan : forall m, (m <= start_bit r)%nat -> exists x y, pmul K a (kk r (S m)) P = Some (x, y) /\ y <> f0.
Proof.
  intros m Hm. destruct (reg_dbl m Hm) as (A & B). destruct (pmul K a (kk r (S m)) P) as [[x y] | ] eqn:E; [ | congruence]. exists x, y. split; auto.
  intro Y. apply B. replace (2 * kk r (S m))%nat with (kk r (S m) + kk r (S m))%nat by lia. rewrite mul_plus, E, Y. cbn [padd]. rewrite !(feqb_refl K HK). reflexivity.
Qed.
Lemma reg_line : forall m, (S m <= start_bit r)%nat -> Z.testbit r (Z.of_nat (S m)) = true ->
  exists x1 y1 x2 y2, pmul K a (2 * kk r (S (S m)))%nat P = Some (x1, y1) /\ P = Some (x2, y2) /\ x1 <> x2 /\ pmul K a (2 * kk r (S (S m)) + 1)%nat P <> None.
Proof.
  intros m Hm T. destruct (reg_dbl (S m) Hm) as (A & B). destruct (reg_dbl m ltac:(lia)) as (A' & _). pose proof (kk_pos r R3 (S m) Hm) as KP.
  assert (EK : kk r (S m) = (2 * kk r (S (S m)) + 1)%nat) by (rewrite (kk_step r R3 (S m)), T; reflexivity). rewrite EK in A'.
  assert (A2 : pmul K a (2 * kk r (S (S m)) - 1)%nat P <> None).
  { destruct (RG (Z.of_nat (S m)) ltac:(lia)) as (_ & _ & B'); [rewrite <- zkk; lia | ]. rewrite <- zkk in B'.
    replace (Z.of_nat (kk r (S m)) - 2)%Z with (Z.of_nat (2 * kk r (S (S m)) - 1)) in B' by lia. rewrite pz_nat in B'. apply B'; [ | lia].
    rewrite EK. replace (Z.of_nat (2 * kk r (S (S m)) + 1)) with (2 * Z.of_nat (kk r (S (S m))) + 1)%Z by lia. apply Z.odd_spec. eexists. reflexivity. }
  set (k := kk r (S (S m))) in *. destruct (pmul K a (2 * k)%nat P) as [[x1 y1] | ] eqn:E1; [ | congruence].
  assert (EP : exists x2 y2, P = Some (x2, y2)) by (destruct P as [[x2 y2] | ]; [eauto | exfalso; apply A; clear; induction k; cbn [pmul]; [reflexivity | rewrite IHk; reflexivity]]).
  destruct EP as (x2 & y2 & EP). exists x1, y1, x2, y2. repeat split; auto. intro EX. subst x2.
  assert (ON1 := mul_on (2 * k)%nat). rewrite E1 in ON1. assert (ON2 := OP). rewrite EP in ON2.
  destruct (same_x K HK a b x1 y1 y2 ON1 ON2) as [EY | EY].
  - apply A2. subst y2. assert (DIF : padd K a (pmul K a (2 * k - 1)%nat P) P = P).
    { transitivity (padd K a (pmul K a (2 * k - 1)%nat P) (pmul K a 1 P)); [rewrite mul_1; reflexivity | ]. rewrite <- mul_plus. replace (2 * k - 1 + 1)%nat with (2 * k)%nat by lia. rewrite E1, EP. reflexivity. }
    assert (CR : padd K a (padd K a (pmul K a (2 * k - 1)%nat P) P) (pneg P) = pmul K a (2 * k - 1)%nat P).
    { rewrite (add_assoc K HK a b C2 SM), (add_neg_r K HK a C2), (add_0_r K a); auto using mul_on. apply (neg_on K HK a b). auto. }
    rewrite <- CR, DIF. apply (add_neg_r K HK a C2).
  - apply A'. rewrite mul_plus, mul_1, E1, EP, EY. change (Some (x1, fopp y2)) with (pneg (Some (x1, y2))). rewrite (add_comm K HK a). apply (add_neg_r K HK a C2).
Qed.

End G.
Variables X Y : L.
Let R : point L := Some (X, Y).
Hypothesis GR : G2 R.
Local Notation mil n := (milL n (up' P) R).
Lemma mil_line : forall f g m n ca cb cc, sim f (mil m) -> sim g (mil n) -> mul (m + n)%nat <> None -> is_line (mul m) (mul n) (ca, cb, cc) ->
  sim (f * g * lineval ca cb cc X Y) (mil (m + n)%nat).
Proof.
  intros f g m n ca cb cc F G N IL. rewrite (mil_add L HL (up a) (up b) HEL G1 G2 sub1 sub2 disjoint) by (auto using GP).
  apply sim_mul; [apply sim_mul; auto | ]. rewrite <- !up_mul. apply line_step; auto using mul_on, mul_tors.
  rewrite <- mul_plus. auto.
Qed.
(* a step whose line is vertical is left out *)
Lemma mil_vertical : forall f g m n, sim f (mil m) -> sim g (mil n) -> mul (m + n)%nat = None ->
  sim (f * g) (mil (m + n)%nat).
Proof.
  intros f g m n F G E. rewrite (mil_add L HL (up a) (up b) HEL G1 G2 sub1 sub2 disjoint) by (auto using GP).
  assert (Z : sim 1 (stepL (pmul L (up a) m (up' P)) (pmul L (up a) n (up' P)) R)).
  { rewrite <- !up_mul. destruct (mul m) as [[x1 y1] | ] eqn:E1; [ | apply sim_refl]. destruct (mul n) as [[x2 y2] | ] eqn:E2; [ | rewrite (step_B0 L (up a)); apply sim_refl].
    rewrite mul_plus, E1, E2 in E. assert (E' : addL (up' (Some (x1, y1))) (up' (Some (x2, y2))) = None) by (rewrite <- (e_padd K L HK HL up Hup a C2), E; reflexivity).
    cbn [epoint] in *. unfold R. cbn [miller_step]. rewrite E'.
    assert (OFF : X <> up x1).
    { intro F'. assert (O : offx L (up' (Some (x1, y1))) (Some (X, Y))).
      { apply (off12 L HL (up a) (up b) G1 G2 sub1 sub2 disjoint); auto; try congruence. rewrite <- E1. apply up_G1; auto using mul_on, mul_tors. }
      cbn in O. apply O. rewrite F'. reflexivity. }
    apply sim_sym. exists (X - up x1). split; [apply fixed_sub; auto; apply (G2_x X Y GR) | ring]. }
  replace (f * g) with (f * g * 1) by ring. apply sim_mul; auto. apply sim_mul; auto.
Qed.
Lemma mil_one : sim 1 (mil 1).
Proof.
  cbn [miller pmul]. replace (1 * miller_step L (up a) None (up' P) R) with (1 : L); [apply sim_refl | ].
  rewrite (step_A0 L (up a)). ring.
Qed.
Lemma mil_nz' : forall n, mil n <> 0.
Proof. intros. apply (mil_nz L HL (up a) (up b) HEL G1 G2 sub1 sub2 disjoint); auto using GP. Qed.
Lemma sim_nz : forall f g, sim f g -> g <> 0 -> f <> 0.
Proof. intros f g (c & H & ->) N. apply (f_mul_nz L HL); auto. apply H. Qed.
Section L.
Hypothesis R3 : (2 < r)%Z.
Hypothesis RG : regular K a r P.
Local Notation lv abc := (let '(ca, cb, cc) := abc in lineval ca cb cc X Y).
Lemma tan_step : forall m f abc, (m <= start_bit r)%nat -> sim f (mil (kk r (S m)) * mil (kk r (S m))) ->
  is_line (mul (kk r (S m))) (mul (kk r (S m))) abc -> sim (f * lv abc) (mil (2 * kk r (S m))%nat).
Proof.
  intros m f [[ca cb] cc] Hm F IL. destruct (reg_dbl R3 RG m Hm) as (_ & N). set (k := kk r (S m)) in *. replace (2 * k)%nat with (k + k)%nat in * by lia.
  eapply sim_trans; [ | apply (mil_line (mil k) (mil k) k k ca cb cc); auto; apply sim_refl].
  apply sim_mul; auto. apply sim_refl.
Qed.
Lemma line_step' : forall m f abc, (S m <= start_bit r)%nat -> Z.testbit r (Z.of_nat (S m)) = true -> sim f (mil (2 * kk r (S (S m)))%nat) ->
  is_line (mul (2 * kk r (S (S m)))%nat) P abc -> sim (f * lv abc) (mil (kk r (S m))).
Proof.
  intros m f [[ca cb] cc] Hm T F IL. destruct (reg_line R3 RG m Hm T) as (x1 & y1 & x2 & y2 & _ & _ & _ & N).
  assert (EK : kk r (S m) = (2 * kk r (S (S m)) + 1)%nat) by (rewrite (kk_step r R3 (S m)), T; reflexivity). rewrite EK.
  set (k := (2 * kk r (S (S m)))%nat) in *. replace (f * lineval ca cb cc X Y) with (f * 1 * lineval ca cb cc X Y) by ring.
  apply mil_line; auto.
  - apply mil_one.
  - rewrite mul_1. auto.
Qed.
Lemma last_step : forall f, sim f (mil (2 * kk r 1)%nat) -> sim f (mil (Z.to_nat r)).
Proof.
  intros f F. rewrite <- (kk_1 r R3 Hodd). replace f with (f * 1) by ring.
  apply mil_vertical; auto.
  - apply mil_one.
  - rewrite (kk_1 r R3 Hodd), <- pz_nat, Z2Nat.id by lia. exact TP.
Qed.
Lemma mil_start : sim 1 (mil (kk r (S (start_bit r))) * mil (kk r (S (start_bit r)))).
Proof.
  rewrite (kk_start r R3). assert (M1 := mil_one). assert (G := sim_mul _ _ _ _ M1 M1). replace (1 * 1 : L) with (1 : L) in G by ring. exact G.
Qed.

(** the loop that doubles and adds with the coefficients of the lines *)
Variable tangent : K -> K -> coeffs K.
Variable line : K -> K -> K -> K -> coeffs K.
Variable ev : L -> coeffs K -> L.
Fixpoint gbits (m : nat) (v : L) (Z : point K) : res L :=
  ' (Zx, Zy) <- coords K Z ;;
  let v := ev v (tangent Zx Zy) in
  match m with
  | O => Ok v
  | S m' =>
      Z <- double_value K a Z ;;
      ' (v, Z) <- (if mpz_tstbit r (Z.of_nat m)
                   then (' (Zx, Zy) <- coords K Z ;; ' (Px, Py) <- coords K P ;;
                         let v := ev v (line Zx Zy Px Py) in
                         Z <- mul_value K a Z P ;; Ok (v, Z))
                   else Ok (v, Z)) ;;
      gbits m' (v * v) Z
  end.
Hypothesis Htan : forall x y, y <> f0 -> is_line (Some (x, y)) (Some (x, y)) (tangent x y).
Hypothesis Hline : forall x1 y1 x2 y2, x1 <> x2 -> is_line (Some (x1, y1)) (Some (x2, y2)) (line x1 y1 x2 y2).
Hypothesis Hev : forall v abc, ev v abc = v * lv abc.
Lemma gbits_ok : forall m f, (m <= start_bit r)%nat -> sim f (mil (kk r (S m)) * mil (kk r (S m))) ->
  exists f', gbits m f (mul (kk r (S m))) = Ok f' /\ sim f' (mil (Z.to_nat r)).
Proof.
  induction m; intros f Hm F; cbn [gbits].
  - destruct (reg_tan R3 RG 0 Hm) as (x & y & EQ & NY). rewrite EQ. cbn [coords bind]. eexists. split; [reflexivity | ].
    apply last_step. rewrite Hev. apply tan_step; auto. rewrite EQ. apply Htan. auto.
  - destruct (reg_tan R3 RG (S m) Hm) as (x & y & EQ & NY). rewrite EQ. cbn [coords bind].
    assert (F1 : sim (ev f (tangent x y)) (mil (2 * kk r (S (S m)))%nat)).
    { rewrite Hev. apply tan_step; auto. rewrite EQ. apply Htan. auto. }
    rewrite (double_value_ok K HK a C2), (mul_value_ok K HK a C2). cbn [bind].
    replace (padd K a (Some (x, y)) (Some (x, y))) with (mul (2 * kk r (S (S m)))%nat).
    2: { replace (2 * kk r (S (S m)))%nat with (kk r (S (S m)) + kk r (S (S m)))%nat by lia. rewrite mul_plus, EQ. reflexivity. }
    unfold mpz_tstbit. destruct (Z.testbit r (Z.of_nat (S m))) eqn:T.
    + destruct (reg_line R3 RG m Hm T) as (x1 & y1 & x2 & y2 & E1 & E2 & NX & NN).
      assert (EK : kk r (S m) = (2 * kk r (S (S m)) + 1)%nat) by (rewrite (kk_step r R3 (S m)), T; reflexivity).
      assert (CZ : coords K (mul (2 * kk r (S (S m)))%nat) = Ok (x1, y1)) by (rewrite E1; reflexivity).
      assert (CP : coords K P = Ok (x2, y2)) by (rewrite E2; reflexivity). rewrite CZ, CP. cbn [bind]. rewrite (mul_value_ok K HK a C2). cbn [bind].
      replace (padd K a (mul (2 * kk r (S (S m)))%nat) P) with (mul (kk r (S m))) by (rewrite EK, mul_plus, mul_1; reflexivity).
      assert (F2 : sim (ev (ev f (tangent x y)) (line x1 y1 x2 y2)) (mil (kk r (S m)))).
      { rewrite (Hev _ (line _ _ _ _)). apply line_step'; auto. rewrite E1, E2. apply Hline. auto. }
      apply IHm; [lia | ]. apply sim_mul; exact F2.
    + cbn [bind]. assert (EK : kk r (S m) = (2 * kk r (S (S m)))%nat) by (rewrite (kk_step r R3 (S m)), T; lia). rewrite <- EK in *.
      apply IHm; [lia | ]. apply sim_mul; exact F1.
Qed.
Theorem gmiller_ok : exists f, gbits (start_bit r) 1 P = Ok f /\ sim f (mil (Z.to_nat r)).
Proof.
  destruct (gbits_ok (start_bit r) 1 (le_n _) mil_start) as (f & EF & F). rewrite (kk_start r R3), mul_1 in EF. exists f. auto.
Qed.
End L.
End P.
End S.
