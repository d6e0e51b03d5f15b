(** The nodal cubic (ecc/singular.c). *)
From Coq Require Import ZArith List Bool Lia Ring Field.
From Verif.Base Require Import Outcome Algebra Slots.
From Verif.Spec Require Import Curve NodalCubic.
From Verif.Model Require Import GenericPow Curve Singular.
From Verif.Proofs Require Import FieldFacts SlotFacts PowFacts PowWitness PowHom CurveFacts.
Import ListNotations.
Open Scope nat_scope.

Section F.
Variable K : fld.
Hypothesis HK : fld_laws K.
Add Field KFn : (fl_field K HK).
Notation "0" := f0. Notation "1" := f1.
Notation "x + y" := (fadd x y). Notation "x - y" := (fsub x y). Notation "x * y" := (fmul x y). Notation "- x" := (fopp x).
Notation "x / y" := (fdiv x y).
Hypothesis C2 : f2 K <> 0.
Notation add := (nadd K).
Notation cst := (cst K).
Notation point := (point K).
Implicit Types (st : cst) (P Q R : point).

(** ** The parametrisation (t^2 - 1, t^3 - t) *)
Definition tpoint (t : K) : point := Some (t * t - 1, t * (t * t - 1)).
Definition tok (t : K) : Prop := t - 1 <> 0 /\ t + 1 <> 0.

Lemma smooth_x : forall x y : K, y * y = x * x * x + x * x -> ~ (x = 0 /\ y = 0) -> x <> 0.
Proof.
  intros x y E N ->. apply N. split; [reflexivity|].
  assert (H : y * y = 0) by (rewrite E; ring). apply (f_integral K HK) in H. tauto.
Qed.

Lemma smooth_t : forall x y : K, smooth K (Some (x, y)) -> exists t, tok t /\ Some (x, y) = tpoint t.
Proof.
  intros x y [E N]. pose proof (smooth_x x y E N) as X. exists (y / x).
  assert (T : (y / x) * (y / x) = x + 1).
  { transitivity ((y * y) / (x * x)); [field; auto|]. rewrite E. field. auto. }
  split.
  - assert (Q : (y / x - 1) * (y / x + 1) <> 0).
    { replace ((y / x - 1) * (y / x + 1)) with ((y / x) * (y / x) - 1) by ring. rewrite T.
      replace (x + 1 - 1) with x by ring. exact X. }
    split; intro Z; apply Q; rewrite Z; ring.
  - unfold tpoint. rewrite T. do 2 f_equal.
    + ring.
    + field. auto.
Qed.

Lemma t_smooth : forall t, tok t -> smooth K (tpoint t).
Proof.
  intros t [A B]. split; [ring|]. intros [E _].
  apply (f_mul_nz K HK _ _ A B). rewrite <- E. ring.
Qed.

Lemma t_neg : forall t, pneg (tpoint t) = tpoint (- t).
Proof. intro t. unfold tpoint. cbn. do 2 f_equal; ring. Qed.

(** sum of parameters *)
Lemma t_add : forall s t, tok s -> tok t -> add (tpoint s) (tpoint t) =
  if feqb (s + t) 0 then None else tpoint ((s * t + 1) / (s + t)).
Proof.
  intros s t [S1 S2] [T1 T2]. unfold tpoint at 1 2. cbn [nadd].
  assert (XE : forall u, tok u -> u * u - 1 <> 0).
  { intros u [A B] E. apply (f_mul_nz K HK _ _ A B). rewrite <- E. ring. }
  destruct (feqb (s + t) 0) eqn:Z0.
  - apply (feqb_eq K HK) in Z0. assert (t = - s) as -> by (transitivity (s + t - s); [ring|rewrite Z0; ring]).
    replace (- s * - s - 1) with (s * s - 1) by ring. rewrite (feqb_refl K HK). cbn [negb].
    destruct (feqb (s * (s * s - 1)) (- s * (s * s - 1))) eqn:Y; [|reflexivity].
    apply (feqb_eq K HK) in Y. cbn [andb].
    assert (W : f2 K * (s * (s * s - 1)) = 0).
    { unfold f2. transitivity (s * (s * s - 1) - (- s * (s * s - 1))); [ring|]. rewrite <- Y. ring. }
    apply (f_integral K HK) in W. destruct W as [W|W]; [contradiction|]. rewrite W, (feqb_refl K HK). reflexivity.
  - apply (feqb_neq K HK) in Z0. destruct (feqb (s * s - 1) (t * t - 1)) eqn:X; cbn [negb].
    + apply (feqb_eq K HK) in X.
      assert (D : (s + t) * (s - t) = 0) by (transitivity (s * s - 1 - (t * t - 1)); [ring|rewrite X; ring]).
      apply (f_integral K HK) in D. destruct D as [D|D]; [contradiction|].
      apply (f_sub_0 K HK) in D. subst t. rewrite (feqb_refl K HK). cbn [andb].
      assert (S0 : s <> 0) by (intro E; apply Z0; rewrite E; ring).
      assert (Y0 : s * (s * s - 1) <> 0) by (apply f_mul_nz; auto; apply XE; split; auto).
      rewrite (feqb_false K HK) by exact Y0. cbn [negb]. unfold node_third, tpoint.
      assert (L : (f3 K * ((s * s - 1) * (s * s - 1)) + f2 K * (s * s - 1)) / (f2 K * (s * (s * s - 1))) =
        (f3 K * (s * s) - 1) / (s + s)).
      { unfold f3, f2. field. pose proof (XE s (conj S1 S2)). repeat split; auto. }
      rewrite L. assert (SS : s + s <> 0) by exact Z0. cbv zeta. do 2 f_equal; unfold f3; field; auto.
    + apply (feqb_neq K HK) in X.
      assert (D : t - s <> 0) by (intro E; apply X; apply (f_sub_0 K HK) in E; rewrite E; reflexivity).
      assert (L : (t * (t * t - 1) - s * (s * s - 1)) / (t * t - 1 - (s * s - 1)) = (t * t + s * t + s * s - 1) / (s + t)).
      { assert (N : t * t - 1 - (s * s - 1) <> 0) by (intro E; apply X; symmetry; apply (f_sub_0 K HK); exact E).
        apply (f_cancel K HK (t * t - 1 - (s * s - 1))); [exact N|].
        transitivity (t * (t * t - 1) - s * (s * s - 1)); [field; exact N|]. field. exact Z0. }
      unfold node_third, tpoint. rewrite L. cbv zeta. do 2 f_equal; field; exact Z0.
Qed.

Lemma t_sum_ok : forall s t, tok s -> tok t -> s + t <> 0 -> tok ((s * t + 1) / (s + t)).
Proof.
  intros s t [S1 S2] [T1 T2] Z0. split; intro E.
  - apply (f_mul_nz K HK _ _ S1 T1). transitivity (((s * t + 1) / (s + t) - 1) * (s + t)); [field; auto|].
    rewrite E. ring.
  - apply (f_mul_nz K HK _ _ S2 T2). transitivity (((s * t + 1) / (s + t) + 1) * (s + t)); [field; auto|].
    rewrite E. ring.
Qed.

Lemma t_map : forall t, tok t -> node_map K (tpoint t) = (t + 1) / (t - 1).
Proof.
  intros t [A B]. unfold node_map, tpoint.
  assert (D : t * (t * t - 1) - (t * t - 1) <> 0).
  { intro E. apply (f_mul_nz K HK _ _ (f_mul_nz K HK _ _ A B) A). rewrite <- E. ring. }
  apply (f_cancel K HK _ _ _ D). transitivity (t * (t * t - 1) + (t * t - 1)); [field; exact D|]. field. exact A.
Qed.

Lemma smooth_cases : forall P, smooth K P -> P = None \/ exists t, tok t /\ P = tpoint t.
Proof. intros [[x y]|] H; [right|left; reflexivity]. apply smooth_t. exact H. Qed.

Lemma nadd_smooth : forall P Q, smooth K P -> smooth K Q -> smooth K (add P Q).
Proof.
  intros P Q HP HQ. destruct (smooth_cases P HP) as [->|(s & Hs & ->)]; [exact HQ|].
  destruct (smooth_cases Q HQ) as [->|(t & Ht & ->)]; [exact HP|].
  rewrite t_add by auto. destruct (feqb (s + t) 0) eqn:E; [exact I|]. apply (feqb_neq K HK) in E.
  apply t_smooth, t_sum_ok; auto.
Qed.
Lemma nneg_smooth : forall P, smooth K P -> smooth K (pneg P).
Proof.
  intros P HP. destruct (smooth_cases P HP) as [->|(t & [A B] & ->)]; [exact I|].
  rewrite t_neg. apply t_smooth. split; intro E.
  - apply B. transitivity (- (- t - 1)); [ring|]. rewrite E. ring.
  - apply A. transitivity (- (- t + 1)); [ring|]. rewrite E. ring.
Qed.
Lemma map_nz : forall P, smooth K P -> node_map K P <> 0.
Proof.
  intros P HP. destruct (smooth_cases P HP) as [->|(t & Ht & ->)]; [apply (f_1_neq_0 K HK)|].
  rewrite t_map by auto. destruct Ht as [A B]. intro E. apply B.
  transitivity ((t + 1) / (t - 1) * (t - 1)); [field; auto|]. rewrite E. ring.
Qed.
Lemma map_add : forall P Q, smooth K P -> smooth K Q -> node_map K (add P Q) = node_map K P * node_map K Q.
Proof.
  intros P Q HP HQ. destruct (smooth_cases P HP) as [->|(s & Hs & ->)]; [cbn [nadd node_map]; ring|].
  destruct (smooth_cases Q HQ) as [->|(t & Ht & ->)].
  { unfold tpoint. cbn [nadd node_map]. ring. }
  rewrite t_add, (t_map s Hs), (t_map t Ht) by auto. destruct Hs as [A B], Ht as [C D].
  destruct (feqb (s + t) 0) eqn:E.
  - apply (feqb_eq K HK) in E. assert (t = - s) as -> by (transitivity (s + t - s); [ring|rewrite E; ring]).
    cbn [node_map]. field. auto.
  - apply (feqb_neq K HK) in E. rewrite t_map by (apply t_sum_ok; auto; split; auto).
    field. repeat split; auto. intro Z. apply (f_mul_nz K HK _ _ A C). transitivity (s * t + 1 - (s + t)); [ring|exact Z].
Qed.
Lemma map_inj : forall P Q, smooth K P -> smooth K Q -> node_map K P = node_map K Q -> P = Q.
Proof.
  assert (N : forall t, tok t -> (t + 1) / (t - 1) <> 1).
  { intros t [A B] E. apply C2. unfold f2. transitivity ((t + 1) / (t - 1) * (t - 1) - (t - 1)); [field; auto|].
    rewrite E. ring. }
  intros P Q HP HQ. destruct (smooth_cases P HP) as [->|(s & Hs & ->)];
    destruct (smooth_cases Q HQ) as [->|(t & Ht & ->)]; rewrite ?t_map by auto; intro E; auto.
  - cbn in E. exfalso. apply (N t Ht). auto.
  - cbn in E. exfalso. apply (N s Hs). auto.
  - f_equal. destruct Hs as [A B], Ht as [C D].
    assert (Z : f2 K * (t - s) = 0).
    { unfold f2. transitivity (((s + 1) / (s - 1) - (t + 1) / (t - 1)) * ((s - 1) * (t - 1))); [field; auto|].
      rewrite E. ring. }
    apply (f_integral K HK) in Z. destruct Z as [Z|Z]; [contradiction|]. symmetry. apply (f_sub_0 K HK); exact Z.
Qed.
(** every non-zero element is reached *)
Lemma map_onto : forall u, u <> 0 -> exists P, smooth K P /\ node_map K P = u.
Proof.
  intros u U. destruct (feqb u 1) eqn:E.
  - apply (feqb_eq K HK) in E. exists None. split; [exact I|]. symmetry; exact E.
  - apply (feqb_neq K HK) in E. assert (D : u - 1 <> 0) by (intro Z; apply E, (f_sub_0 K HK); exact Z).
    assert (T : tok ((u + 1) / (u - 1))).
    { split; intro Z.
      - apply C2. unfold f2. transitivity (((u + 1) / (u - 1) - 1) * (u - 1)); [field; auto|]. rewrite Z. ring.
      - apply (f_mul_nz K HK _ _ C2 U). unfold f2. transitivity (((u + 1) / (u - 1) + 1) * (u - 1)); [field; auto|].
        rewrite Z. ring. }
    exists (tpoint ((u + 1) / (u - 1))). split; [apply t_smooth; exact T|]. rewrite t_map by exact T.
    destruct T as [T1 T2]. field. split; [auto|].
    intro Z. apply C2. transitivity (u + 1 - (u - 1)); [unfold f2; ring|exact Z].
Qed.
Lemma map_neg : forall P, smooth K P -> node_map K (pneg P) * node_map K P = 1.
Proof.
  intros P HP. destruct (smooth_cases P HP) as [->|(t & [A B] & ->)]; [cbn; ring|].
  rewrite t_neg, !t_map; [|split; auto|].
  - field. repeat split; auto. intro E. apply B. transitivity (- (- t - 1)); [ring|]. transitivity (- 0 : K); [f_equal; exact E|ring].
  - split; intro E.
    + apply B. transitivity (- (- t - 1)); [ring|]. rewrite E. ring.
    + apply A. transitivity (- (- t + 1)); [ring|]. rewrite E. ring.
Qed.

Lemma node_group : forall P Q R, smooth K P -> smooth K Q -> smooth K R ->
  add (add P Q) R = add P (add Q R) /\ add P Q = add Q P /\ add None P = P /\ add P None = P /\ add P (pneg P) = None.
Proof.
  intros P Q R HP HQ HR.
  assert (N0 : add P None = P) by (destruct P as [[? ?]|]; reflexivity).
  repeat split; auto; apply map_inj; auto using nadd_smooth, nneg_smooth.
  - rewrite !map_add by auto using nadd_smooth. ring.
  - rewrite !map_add by auto. ring.
  - exact I.
  - rewrite map_add by auto using nneg_smooth. transitivity (node_map K (pneg P) * node_map K P); [ring|].
    rewrite map_neg by auto. reflexivity.
Qed.

(** ** The code *)
Ltac split2 n a := destruct (obj_eqb_spec n a) as [? | ?]; [subst | ].
Ltac frame_tac := intros o i U N; lookup.
Lemma fofz_3' : (fofz 3 : K) = f3 K. Proof. unfold f3. cbn. ring. Qed.
Lemma fofz_2' : (fofz 2 : K) = f2 K. Proof. reflexivity. Qed.
Lemma fofz_1' : (fofz 1 : K) = 1. Proof. reflexivity. Qed.

Lemma sn_dbl_ok : forall c p st, user c -> user p -> inf st p = false -> sl st (p, 1%nat) <> 0 ->
  assigns K (sn_double_no_check K c p st) c st (add (cval st p) (cval st p)).
Proof.
  intros c p st Uc Up I Y. unfold sn_double_no_check, cval. rewrite I. cbn [nadd].
  rewrite !(feqb_refl K HK), (feqb_false K HK) by auto. cbn [negb andb]. unfold node_third.
  pose proof (dbl_nz K HK C2 _ Y) as D.
  assert (R : exists s', run (sn_double_prog K c p) (sl st) = Ok s' /\
     s' (c, 0%nat) = (let l := (f3 K * (sl st (p, 0%nat) * sl st (p, 0%nat)) + f2 K * sl st (p, 0%nat)) / (f2 K * sl st (p, 1%nat)) in l * l - sl st (p, 0%nat) - sl st (p, 0%nat) - 1) /\
     s' (c, 1%nat) = (let l := (f3 K * (sl st (p, 0%nat) * sl st (p, 0%nat)) + f2 K * sl st (p, 0%nat)) / (f2 K * sl st (p, 1%nat)) in
        l * (sl st (p, 0%nat) - (l * l - sl st (p, 0%nat) - sl st (p, 0%nat) - 1)) - sl st (p, 1%nat)) /\
     (forall o i, user o -> o <> c -> s' (o, i) = sl st (o, i))).
  { unfold sn_double_prog, lambda, e0, e1.
    assert (L : (fofz 3 * sl st (p, 0%nat) + fofz 2) * sl st (p, 0%nat) * finv (sl st (p, 1%nat) + sl st (p, 1%nat)) =
      (f3 K * (sl st (p, 0%nat) * sl st (p, 0%nat)) + f2 K * sl st (p, 0%nat)) / (f2 K * sl st (p, 1%nat))).
    { rewrite fofz_3', fofz_2'. replace (f2 K * sl st (p, 1%nat)) with (sl st (p, 1%nat) + sl st (p, 1%nat)) by (unfold f2; ring). field. auto. }
    split2 c p;
    (repeat slot_step; inv_step; rewrite (finvert_ok K HK) by auto; cbn [bind]; repeat slot_step;
      eexists; split; [reflexivity | split; [ | split]];
      [ etransitivity; [lookup | ]; rewrite L, fofz_1'; cbv zeta; ring
      | etransitivity; [lookup | ]; rewrite L, fofz_1'; cbv zeta; ring
      | frame_tac ]). }
  destruct R as (s' & R & X1 & Y1 & F). eapply by_run; eauto.
Qed.
Lemma sn_double_ok : forall c p st, user c -> user p -> assigns K (sn_double K c p st) c st (add (cval st p) (cval st p)).
Proof.
  intros c p st Uc Up. unfold sn_double. destruct (inf st p) eqn:I.
  - unfold cval. rewrite I. apply to_inf.
  - destruct (feqb (sl st (p, 1%nat)) 0) eqn:Y.
    + unfold cval. rewrite I. cbn [nadd]. rewrite !(feqb_refl K HK), Y. cbn [negb andb]. apply to_inf.
    + apply sn_dbl_ok; auto. apply (feqb_neq K HK); auto.
Qed.
Lemma sn_add_ok : forall c p q st, user c -> user p -> user q ->
  assigns K (sn_add K c p q st) c st (add (cval st p) (cval st q)).
Proof.
  intros c p q st Uc Up Uq. unfold sn_add.
  destruct (inf st p) eqn:Ip.
  { replace (add (cval st p) (cval st q)) with (cval st q) by (unfold cval; rewrite Ip; auto). apply set_ok; auto. }
  destruct (inf st q) eqn:Iq.
  { replace (add (cval st p) (cval st q)) with (cval st p) by (unfold cval; rewrite Ip, Iq; auto). apply set_ok; auto. }
  destruct (feqb (sl st (p, 0%nat)) (sl st (q, 0%nat))) eqn:X.
  - assert (X' := X). apply (feqb_eq K HK) in X'. destruct (feqb (sl st (p, 1%nat)) (sl st (q, 1%nat))) eqn:Y.
    + assert (Y' := Y). apply (feqb_eq K HK) in Y'.
      assert (E : cval st q = cval st p) by (unfold cval; rewrite Ip, Iq, X', Y'; auto). rewrite E.
      destruct (feqb (sl st (p, 1%nat)) 0) eqn:Z0.
      * unfold cval. rewrite Ip. cbn [nadd]. rewrite !(feqb_refl K HK), Z0. cbn [negb andb]. apply to_inf.
      * apply sn_dbl_ok; auto. apply (feqb_neq K HK); auto.
    + unfold cval. rewrite Ip, Iq. cbn [nadd]. rewrite X, Y. cbn [negb andb]. apply to_inf.
  - assert (X' := X). apply (feqb_neq K HK) in X'.
    unfold cval. rewrite Ip, Iq. cbn [nadd]. rewrite X. cbn [negb]. unfold node_third.
    assert (D : sl st (q, 0%nat) - sl st (p, 0%nat) <> 0) by (intro E; apply X'; symmetry; apply (f_sub_0 K HK); auto).
    assert (R : exists s', run (sn_chord_prog K c p q) (sl st) = Ok s' /\
     s' (c, 0%nat) = (let l := (sl st (q, 1%nat) - sl st (p, 1%nat)) / (sl st (q, 0%nat) - sl st (p, 0%nat)) in l * l - sl st (p, 0%nat) - sl st (q, 0%nat) - 1) /\
     s' (c, 1%nat) = (let l := (sl st (q, 1%nat) - sl st (p, 1%nat)) / (sl st (q, 0%nat) - sl st (p, 0%nat)) in
        l * (sl st (p, 0%nat) - (l * l - sl st (p, 0%nat) - sl st (q, 0%nat) - 1)) - sl st (p, 1%nat)) /\
     (forall o i, user o -> o <> c -> s' (o, i) = sl st (o, i))).
    { unfold sn_chord_prog, lambda, e0, e1.
      assert (L : forall u, u * finv (sl st (q, 0%nat) - sl st (p, 0%nat)) = u / (sl st (q, 0%nat) - sl st (p, 0%nat))) by (intro u; field; auto).
      assert (NPQ : p <> q) by (intro; subst; auto).
      split2 c p; [ | split2 c q];
      (repeat slot_step; inv_step; rewrite (finvert_ok K HK) by auto; cbn [bind]; repeat slot_step;
       eexists; split; [reflexivity | split; [ | split]];
       [etransitivity; [lookup | ]; rewrite L; cbv zeta; ring
       |etransitivity; [lookup | ]; rewrite L; cbv zeta; ring
       |frame_tac]). }
    destruct R as (s' & R & X1 & Y1 & F). eapply by_run; eauto.
Qed.

Lemma sn_mul_value_ok : forall P Q, sn_mul_value K P Q = Ok (add P Q).
Proof.
  intros P Q. unfold sn_mul_value.
  destruct (sn_add_ok (Reg 2) (Reg 0) (Reg 1) (load K P Q) (user_reg 2) (user_reg 0) (user_reg 1)) as (s & -> & V & _).
  cbn [bind]. rewrite V, load_0, load_1. auto.
Qed.

(** scalar multiplication through the multiplicative group *)
Definition smoothb (P : point) : bool :=
  match P with None => true | Some (x, y) => feqb (y * y) (x * x * x + x * x) && negb (feqb x 0 && feqb y 0) end.
Lemma smoothb_ok : forall P, smoothb P = true <-> smooth K P.
Proof.
  intros [[x y] | ]; cbn [smoothb smooth]; [ | tauto].
  rewrite andb_true_iff, (fl_eqb K HK), negb_true_iff, andb_false_iff.
  split; intros [A B]; (split; [exact A|]).
  - intros [-> ->]. rewrite (feqb_refl K HK) in B. destruct B; discriminate.
  - destruct (feqb x 0) eqn:X; [|auto]. destruct (feqb y 0) eqn:Y; [|auto].
    apply (feqb_eq K HK) in X. apply (feqb_eq K HK) in Y. tauto.
Qed.
Definition npoint : Type := { P : point | smoothb P = true }.
Lemma npoint_eq : forall P Q : npoint, proj1_sig P = proj1_sig Q -> P = Q.
Proof. intros [P HP] [Q HQ] E. cbn in E. subst. f_equal. apply Eqdep_dec.UIP_dec. decide equality. Qed.
Definition np_on (P : npoint) : smooth K (proj1_sig P) := proj1 (smoothb_ok _) (proj2_sig P).
Definition np_mk (P : point) (H : smooth K P) : npoint := exist _ P (proj2 (smoothb_ok P) H).
Definition ngroup : monoid := {| mcar := npoint; mone := np_mk None I;
  mmul := fun P Q : npoint => np_mk (add (proj1_sig P) (proj1_sig Q)) (nadd_smooth _ _ (np_on P) (np_on Q)) |}.
Lemma ngroup_laws : monoid_laws ngroup.
Proof.
  constructor.
  - intros P Q R. apply npoint_eq. cbn. symmetry. apply node_group; apply np_on.
  - intro P. apply npoint_eq. reflexivity.
  - intro P. apply npoint_eq. cbn. destruct (proj1_sig P) as [[? ?]|]; reflexivity.
Qed.
Definition nh (P : ngroup) : sn_monoid K := Ok (proj1_sig P).
Lemma nh_mul : forall P Q : ngroup, nh (mmul ngroup P Q) = mmul (sn_monoid K) (nh P) (nh Q).
Proof. intros P Q. unfold nh. cbn [mmul sn_monoid ngroup bind]. rewrite sn_mul_value_ok. reflexivity. Qed.
Lemma npow_nmul : forall n (P : ngroup), proj1_sig (npow P n) = nmul K n (proj1_sig P).
Proof. induction n; intros P; [reflexivity | ]. cbn [npow nmul]. rewrite <- IHn. reflexivity. Qed.
Lemma sn_pow_value : forall P n, smooth K P -> (0 <= n)%Z ->
  join (generic_pow_mpz (sn_monoid K) (Ok P) n) = Ok (nmul K (Z.to_nat n) P).
Proof.
  intros P n HP Hn. change (Ok P : sn_monoid K) with (nh (np_mk P HP)).
  rewrite (generic_pow_hom ngroup (sn_monoid K) nh) by (auto using nh_mul; reflexivity).
  rewrite (pow_correct ngroup) by (auto using ngroup_laws).
  cbn [rmap bind join]. unfold nh, zpow. f_equal. rewrite npow_nmul. reflexivity.
Qed.
Lemma nmul_smooth : forall n P, smooth K P -> smooth K (nmul K n P).
Proof. induction n; intros P H; cbn [nmul]; [exact I | ]. apply nadd_smooth; auto. Qed.
Lemma nmul_map : forall n P, smooth K P -> node_map K (nmul K n P) = npow (node_map K P : mul_monoid K) n.
Proof.
  induction n; intros P H; [reflexivity|]. cbn [nmul npow]. rewrite map_add by auto using nmul_smooth.
  rewrite IHn by auto. reflexivity.
Qed.

(** ** Histories *)
Definition nrep st (v : nat -> point) : Prop := forall n, v n = cval st (Reg n).
Definition all_smooth (v : nat -> point) : Prop := forall n, smooth K (v n).
Lemma nassigns_rep : forall m d st v P, nrep st v -> assigns K m (Reg d) st P ->
  exists st', m = Ok st' /\ nrep st' (nset K v d P).
Proof.
  intros m d st v P R (st' & E & V & F). exists st'. split; auto. intro n. unfold nset.
  destruct (Nat.eqb_spec n d) as [-> | N]; auto. rewrite R. symmetry.
  eapply frame_val; eauto; [apply user_reg | congruence].
Qed.
Lemma nset_on : forall v d P, all_smooth v -> smooth K P -> all_smooth (nset K v d P).
Proof. intros v d P A H n. unfold nset. destruct (Nat.eqb n d); auto. Qed.

Lemma s_step_ok : forall c st v, (forall d p n, c = SMulZ d p n -> (0 <= n)%Z) -> nrep st v -> all_smooth v ->
  exists st', s_step K st c = Ok (st', snd (nstep K v c)) /\ nrep st' (fst (nstep K v c)) /\ all_smooth (fst (nstep K v c)).
Proof.
  intros c st v HZ R A.
  assert (G : forall m d P, assigns K m (Reg d) st P -> smooth K P ->
    exists st', (st <- m ;; Ok (st, [])) = Ok (st', [] : list (bool + point)) /\ nrep st' (nset K v d P) /\ all_smooth (nset K v d P)).
  { intros m d P H HP. destruct (nassigns_rep m d st v P R H) as (st' & -> & R'). exists st'. split; [auto | split; auto].
    apply nset_on; auto. }
  destruct c; cbn [s_step nstep fst snd]; cbv zeta.
  - apply G; auto. rewrite R. apply set_ok; apply user_reg.
  - apply G; [apply to_inf | exact I].
  - apply G; [rewrite !R; apply sn_add_ok; apply user_reg | apply nadd_smooth; auto].
  - apply G; [rewrite !R; apply invert_ok; apply user_reg | apply nneg_smooth; auto].
  - apply G; [rewrite !R; apply sn_double_ok; apply user_reg | apply nadd_smooth; auto].
  - apply G; [|apply nmul_smooth; auto]. unfold sn_mul_mpz. rewrite <- R, sn_pow_value by eauto.
    cbn [bind]. apply store_ok, user_reg.
  - exists st. split; [ | split; auto]. rewrite R. unfold cval. destruct (inf st (Reg p)); reflexivity.
  - exists st. split; [ | split; auto]. rewrite R. auto.
Qed.
Theorem s_run_ok : forall hs st v, nonnegative hs -> nrep st v -> all_smooth v ->
  s_run K st hs = Ok (nrun K v hs) /\ forall P, In (Datatypes.inr P) (nrun K v hs) -> smooth K P.
Proof.
  induction hs as [ | c hs IH]; intros st v HS R A; [split; [reflexivity|intros ? []] | ]. cbn [s_run nrun]. cbv zeta.
  destruct (s_step_ok c st v) as (st' & -> & R' & A'); auto.
  { intros d p n E. apply (HS d p n). left. auto. }
  cbn [bind fst snd]. destruct (IH st' (fst (nstep K v c))) as [E V]; auto.
  { intros d p n H. apply (HS d p n). right. auto. }
  rewrite E. cbn [bind]. split; [reflexivity|]. intros P HP. apply in_app_or in HP. destruct HP as [HP|HP]; [|auto].
  destruct c; cbn in HP; try tauto; destruct HP as [HP|[]]; try discriminate. injection HP as <-. apply A.
Qed.

(** ** Random points *)
Section Random.
Variables (is_sqr : K -> bool) (sqrt : K -> res K).
Hypothesis SQ : forall t, is_sqr t = true <-> exists u, u * u = t.
Hypothesis RT : forall t, is_sqr t = true -> exists u, sqrt t = Ok u /\ u * u = t.
Lemma random_bad : forall xs, exists P, sn_random K is_sqr sqrt (0 :: xs) = Ok P /\ ~ smooth K P /\ P = Some (0, 0).
Proof.
  intros xs. unfold sn_random. cbn [sn_random_loop]. cbv zeta. rewrite (feqb_refl K HK).
  assert (Z : is_sqr 0 = true) by (apply SQ; exists 0; ring). rewrite Z. destruct (RT 0 Z) as (u & -> & U).
  assert (u = 0) as -> by (apply (f_integral K HK) in U; tauto). cbn [bind]. eexists; split; [reflexivity|].
  split; [|reflexivity]. intros [_ N]. apply N. auto.
Qed.
Lemma random_good : forall xs t, is_sqr t = false \/ (exists x xs', xs = x :: xs' /\ x <> 0) ->
  forall P, sn_random_loop K is_sqr sqrt xs t = Ok P -> smooth K P /\ P <> None.
Proof.
  induction xs as [|x xs IH]; intros t H P E; [discriminate E|]. cbn [sn_random_loop] in E. cbv zeta in E.
  destruct (feqb x 0) eqn:X.
  - destruct H as [H|(x' & xs' & [= -> ->] & N)]; [|apply (feqb_eq K HK) in X; contradiction].
    rewrite H in E. eapply IH; eauto.
  - apply (feqb_neq K HK) in X.
    destruct (is_sqr ((x * x + x) * x)) eqn:Q; [|eapply IH; eauto].
    destruct (RT _ Q) as (u & Eu & U). rewrite Eu in E. cbn [bind] in E. injection E as <-.
    split; [|discriminate]. split; [rewrite U; ring|]. tauto.
Qed.
End Random.
End F.
