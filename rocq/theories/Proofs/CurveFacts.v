(** The functions of ecc/curve.c on points. *)
From Coq Require Import ZArith List Bool Lia Ring Field.
From Verif.Base Require Import Outcome Algebra Slots.
From Verif.Spec Require Import Curve CurveCalls.
From Verif.Model Require Import GenericPow Curve.
From Verif.Proofs Require Import FieldFacts SlotFacts PowFacts PowWitness PowHom CurveGroup.
Import ListNotations.
Open Scope nat_scope.

Section F.
Variable K : fld.
Hypothesis HK : fld_laws K.
Add Field KFc : (fl_field K HK).
Notation "0" := f0. Notation "1" := f1.
Notation "x + y" := (fadd x y). Notation "x - y" := (fsub x y). Notation "x * y" := (fmul x y). Notation "- x" := (fopp x).
Notation "x / y" := (fdiv x y).
Variables a b : K.
Hypothesis C2 : f2 K <> 0.
Notation add := (padd K a).
Notation cst := (cst K).
Implicit Types (st : cst) (P Q : point K).

Lemma fofz_3 : (fofz 3 : K) = f3 K. Proof. unfold f3. cbn. ring. Qed.
Lemma dbl_nz : forall u : K, u <> 0 -> u + u <> 0.
Proof. intros u N E. apply (f_mul_nz K HK _ _ C2 N). unfold f2. rewrite <- E. ring. Qed.

(** c is assigned P; only c and temporaries change *)
Definition frame st st' (c : obj) : Prop :=
  forall o, user o -> o <> c -> inf st' o = inf st o /\ forall i, sl st' (o, i) = sl st (o, i).
Definition assigns (m : res cst) (c : obj) st P : Prop :=
  exists st', m = Ok st' /\ cval st' c = P /\ frame st st' c.
Lemma frame_val : forall st st' c o, frame st st' c -> user o -> o <> c -> cval st' o = cval st o.
Proof. intros st st' c o F U N. destruct (F o U N) as [I S]. unfold cval. rewrite I, !S. auto. Qed.
Lemma frame_trans : forall st1 st2 st3 c, frame st1 st2 c -> frame st2 st3 c -> frame st1 st3 c.
Proof.
  intros st1 st2 st3 c F G o U N. destruct (F o U N) as [I S], (G o U N) as [I' S']. split; [congruence | ].
  intro i. rewrite S', S. auto.
Qed.
Lemma set_inf_hit : forall st c f, inf (set_inf c f st) c = f.
Proof. intros. cbn. rewrite obj_eqb_refl. auto. Qed.
Lemma set_inf_frame : forall st c f, frame st (set_inf c f st) c.
Proof. intros st c f o U N. cbn. rewrite obj_eqb_neq by auto. auto. Qed.
Lemma to_inf : forall st c, assigns (Ok (set_inf c true st)) c st None.
Proof.
  intros st c. exists (set_inf c true st). split; [auto | split; [ | apply set_inf_frame]].
  unfold cval. rewrite set_inf_hit. auto.
Qed.
(** a program that ends with writing the coordinates *)
Lemma by_run : forall p st s' c u v, run p (sl st) = Ok s' -> s' (c, 0%nat) = u -> s' (c, 1%nat) = v ->
  (forall o i, user o -> o <> c -> s' (o, i) = sl st (o, i)) ->
  assigns (st <- crun K p st ;; Ok (set_inf c false st)) c st (Some (u, v)) /\
  assigns (crun K p (set_inf c false st)) c st (Some (u, v)).
Proof.
  intros p st s' c u v R X Y F. split.
  - unfold crun. rewrite R. cbn [bind]. eexists. split; [reflexivity | split].
    + unfold cval. rewrite set_inf_hit. cbn. rewrite X, Y. auto.
    + intros o U N. cbn. rewrite obj_eqb_neq by auto. split; auto.
  - unfold crun. cbn [sl set_inf]. rewrite R. cbn [bind]. eexists. split; [reflexivity | split].
    + unfold cval. cbn. rewrite obj_eqb_refl. cbn. rewrite X, Y. auto.
    + intros o U N. cbn. rewrite obj_eqb_neq by auto. split; auto.
Qed.
Ltac split2 n a := destruct (obj_eqb_spec n a) as [? | ?]; [subst | ].
Ltac coords := repeat slot_step; reflexivity.
Ltac frame_tac := intros o i U N; lookup.

Lemma set_ok : forall c p st, user c -> user p -> assigns (curve_set K c p st) c st (cval st p).
Proof.
  intros c p st Uc Up. unfold curve_set. unfold cval at 1. destruct (inf st p) eqn:I; [apply to_inf | ].
  split2 c p; (eapply by_run; [coords | lookup | lookup | frame_tac]).
Qed.
Lemma invert_ok : forall c p st, user c -> user p -> assigns (curve_invert K c p st) c st (pneg (cval st p)).
Proof.
  intros c p st Uc Up. unfold curve_invert. unfold cval at 1. destruct (inf st p) eqn:I; [apply to_inf | ]. cbn [pneg].
  split2 c p; (eapply by_run; [coords | lookup | lookup | frame_tac]).
Qed.
Lemma store_ok : forall c P st, user c -> assigns (store_value K c P st) c st P.
Proof.
  intros c [[u v] | ] st Uc; cbn [store_value]; [ | apply to_inf].
  eapply by_run; [coords | lookup | lookup | frame_tac].
Qed.

Lemma dbl_ok : forall c p st, user c -> user p -> inf st p = false -> sl st (p, 1%nat) <> 0 ->
  assigns (double_no_check K a c p st) c st (add (cval st p) (cval st p)).
Proof.
  intros c p st Uc Up I Y. unfold double_no_check, cval. rewrite I. cbn [padd].
  rewrite !(feqb_refl K HK), (feqb_false K HK) by auto. cbn [negb andb]. unfold third.
  pose proof (dbl_nz _ Y) as D.
  pose proof (f_mul_nz K HK _ _ C2 Y) as D2.
  rewrite <- fofz_3.
  assert (R : exists s', run (double_prog K a c p) (sl st) = Ok s' /\
     s' (c, 0%nat) = (let l := (fofz 3 * (sl st (p, 0%nat) * sl st (p, 0%nat)) + a) / (f2 K * sl st (p, 1%nat)) in l * l - sl st (p, 0%nat) - sl st (p, 0%nat)) /\
     s' (c, 1%nat) = (let l := (fofz 3 * (sl st (p, 0%nat) * sl st (p, 0%nat)) + a) / (f2 K * sl st (p, 1%nat)) in
        l * (sl st (p, 0%nat) - (l * l - sl st (p, 0%nat) - sl st (p, 0%nat))) - sl st (p, 1%nat)) /\
     (forall o i, user o -> o <> c -> s' (o, i) = sl st (o, i))).
  { unfold double_prog, lambda, e0, e1, e2.
    assert (L : forall u, u * finv (sl st (p, 1%nat) + sl st (p, 1%nat)) = u / (f2 K * sl st (p, 1%nat))).
    { intro u. replace (f2 K * sl st (p, 1%nat)) with (sl st (p, 1%nat) + sl st (p, 1%nat)) by (unfold f2; ring). field. auto. }
    split2 c p.
    - repeat slot_step. inv_step. rewrite (finvert_ok K HK) by auto. cbn [bind]. repeat slot_step.
      eexists. split; [reflexivity | split; [ | split]].
      + etransitivity; [lookup | ]. rewrite L. cbv zeta. generalize (fofz 3 : K). intro. ring.
      + etransitivity; [lookup | ]. rewrite L. cbv zeta. generalize (fofz 3 : K). intro. ring.
      + frame_tac.
    - repeat slot_step. inv_step. rewrite (finvert_ok K HK) by auto. cbn [bind]. repeat slot_step.
      eexists. split; [reflexivity | split; [ | split]].
      + etransitivity; [lookup | ]. rewrite L. cbv zeta. generalize (fofz 3 : K). intro. ring.
      + etransitivity; [lookup | ]. rewrite L. cbv zeta. generalize (fofz 3 : K). intro. ring.
      + frame_tac. }
  destruct R as (s' & R & X1 & Y1 & F). eapply by_run; eauto.
Qed.
Lemma double_ok : forall c p st, user c -> user p -> assigns (curve_double K a c p st) c st (add (cval st p) (cval st p)).
Proof.
  intros c p st Uc Up. unfold curve_double. destruct (inf st p) eqn:I.
  - unfold cval. rewrite I. apply to_inf.
  - destruct (feqb (sl st (p, 1%nat)) 0) eqn:Y.
    + unfold cval. rewrite I. cbn [padd]. rewrite !(feqb_refl K HK), Y. cbn [negb andb]. apply to_inf.
    + apply dbl_ok; auto. apply (feqb_neq K HK); auto.
Qed.
Lemma mul_ok : forall c p q st, user c -> user p -> user q ->
  assigns (curve_mul K a c p q st) c st (add (cval st p) (cval st q)).
Proof.
  intros c p q st Uc Up Uq. unfold curve_mul.
  destruct (inf st p) eqn:Ip.
  { replace (add (cval st p) (cval st q)) with (cval st q) by (unfold cval; rewrite Ip; auto). apply set_ok; auto. }
  destruct (inf st q) eqn:Iq.
  { replace (add (cval st p) (cval st q)) with (cval st p) by (unfold cval; rewrite Ip, Iq; auto). apply set_ok; auto. }
  destruct (feqb (sl st (p, 0%nat)) (sl st (q, 0%nat))) eqn:X.
  - assert (X' := X). apply (feqb_eq K HK) in X'. destruct (feqb (sl st (p, 1%nat)) (sl st (q, 1%nat))) eqn:Y.
    + assert (Y' := Y). apply (feqb_eq K HK) in Y'.
      assert (E : cval st q = cval st p) by (unfold cval; rewrite Ip, Iq, X', Y'; auto). rewrite E.
      destruct (feqb (sl st (p, 1%nat)) 0) eqn:Z0.
      * unfold cval. rewrite Ip. cbn [padd]. rewrite !(feqb_refl K HK), Z0. cbn [negb andb]. apply to_inf.
      * apply dbl_ok; auto. apply (feqb_neq K HK); auto.
    + unfold cval. rewrite Ip, Iq. cbn [padd]. rewrite X, Y. cbn [negb andb]. apply to_inf.
  - assert (X' := X). apply (feqb_neq K HK) in X'.
    unfold cval. rewrite Ip, Iq. cbn [padd]. rewrite X. cbn [negb]. unfold third.
    assert (D : sl st (q, 0%nat) - sl st (p, 0%nat) <> 0) by (intro E; apply X'; symmetry; apply (f_sub_0 K HK); auto).
    assert (R : exists s', run (chord_prog K c p q) (sl st) = Ok s' /\
     s' (c, 0%nat) = (let l := (sl st (q, 1%nat) - sl st (p, 1%nat)) / (sl st (q, 0%nat) - sl st (p, 0%nat)) in l * l - sl st (p, 0%nat) - sl st (q, 0%nat)) /\
     s' (c, 1%nat) = (let l := (sl st (q, 1%nat) - sl st (p, 1%nat)) / (sl st (q, 0%nat) - sl st (p, 0%nat)) in
        l * (sl st (p, 0%nat) - (l * l - sl st (p, 0%nat) - sl st (q, 0%nat))) - sl st (p, 1%nat)) /\
     (forall o i, user o -> o <> c -> s' (o, i) = sl st (o, i))).
    { unfold chord_prog, lambda, e0, e1, e2.
      assert (L : forall u, u * finv (sl st (q, 0%nat) - sl st (p, 0%nat)) = u / (sl st (q, 0%nat) - sl st (p, 0%nat))) by (intro u; field; auto).
      assert (NPQ : p <> q) by (intro; subst; auto).
      split2 c p; [ | split2 c q];
      (repeat slot_step; inv_step; rewrite (finvert_ok K HK) by auto; cbn [bind]; repeat slot_step;
       eexists; split; [reflexivity | split; [ | split]];
       [etransitivity; [lookup | ]; rewrite L; cbv zeta; ring
       |etransitivity; [lookup | ]; rewrite L; cbv zeta; ring
       |frame_tac]). }
    destruct R as (s' & R & X1 & Y1 & F). eapply by_run; eauto.
Qed.
Lemma u8 : user t8. Proof. apply user_tmp; lia. Qed.
(** composite functions also use the temporary point *)
Definition assigns8 (m : res cst) (c : obj) st P : Prop :=
  exists st', m = Ok st' /\ cval st' c = P /\
    (forall o, user o -> o <> c -> o <> t8 -> inf st' o = inf st o /\ forall i, sl st' (o, i) = sl st (o, i)).
Lemma a8 : forall m c st P, assigns m c st P -> assigns8 m c st P.
Proof. intros m c st P (st' & E & V & F). exists st'. repeat split; auto; apply F; auto. Qed.
Lemma div_ok : forall c p q st, user c -> user p -> user q -> p <> t8 ->
  assigns8 (curve_div K a c p q st) c st (add (cval st p) (pneg (cval st q))).
Proof.
  intros c p q st Uc Up Uq N8. pose proof u8 as U8. unfold curve_div. destruct (obj_eqb_spec c p) as [E | E].
  - subst. destruct (invert_ok t8 q st U8 Uq) as (s1 & -> & V1 & F1). cbn [bind].
    destruct (mul_ok p t8 p s1 Up U8 Up) as (s2 & -> & V2 & F2). exists s2. split; [auto | split].
    + rewrite V2, V1. rewrite (frame_val _ _ _ p F1) by auto. apply (add_comm K HK); auto.
    + intros o U N N'. destruct (F1 o U) as [I1 S1]; auto. destruct (F2 o U) as [I2 S2]; auto. split; [congruence | ].
      intro i. rewrite S2, S1. auto.
  - destruct (invert_ok c q st Uc Uq) as (s1 & -> & V1 & F1). cbn [bind].
    destruct (mul_ok c c p s1 Uc Uc Up) as (s2 & -> & V2 & F2). exists s2. split; [auto | split].
    + rewrite V2, V1. rewrite (frame_val _ _ _ p F1) by auto. apply (add_comm K HK); auto.
    + intros o U N N'. destruct (F1 o U) as [I1 S1]; auto. destruct (F2 o U) as [I2 S2]; auto. split; [congruence | ].
      intro i. rewrite S2, S1. auto.
Qed.

(** ** Values *)
Lemma load_0 : forall P Q, cval (load K P Q) (Reg 0) = P.
Proof. intros [[u v] | ] Q; reflexivity. Qed.
Lemma load_1 : forall P Q, cval (load K P Q) (Reg 1) = Q.
Proof. intros P [[u v] | ]; reflexivity. Qed.
Lemma mul_value_ok : forall P Q, mul_value K a P Q = Ok (add P Q).
Proof.
  intros P Q. unfold mul_value.
  destruct (mul_ok (Reg 2) (Reg 0) (Reg 1) (load K P Q) (user_reg 2) (user_reg 0) (user_reg 1)) as (s & -> & V & _).
  cbn [bind]. rewrite V, load_0, load_1. auto.
Qed.
Lemma double_value_ok : forall P, double_value K a P = mul_value K a P P.
Proof.
  intros P. rewrite mul_value_ok. unfold double_value.
  destruct (double_ok (Reg 2) (Reg 0) (load K P P) (user_reg 2) (user_reg 0)) as (s & -> & V & _).
  cbn [bind]. rewrite V, load_0. auto.
Qed.
Lemma is_valid_ok : forall st o, curve_is_valid_point K a b st o = true <-> on_curve K a b (cval st o).
Proof.
  intros st o. unfold curve_is_valid_point, cval. destruct (inf st o); cbn [on_curve]; [tauto | ]. cbv zeta.
  rewrite (fl_eqb K HK). unfold rhs.
  assert (E : (sl st (o, 0%nat) * sl st (o, 0%nat) + a) * sl st (o, 0%nat) + b =
    sl st (o, 0%nat) * sl st (o, 0%nat) * sl st (o, 0%nat) + a * sl st (o, 0%nat) + b) by ring.
  rewrite E. split; auto.
Qed.

(** ** The group *)
Section G.
Hypothesis SM : f2 K * f2 K * (a * a * a) + f3 K * f3 K * f3 K * (b * b) <> 0.
Notation on := (on_curve K a b).
Definition onb (P : point K) : bool := match P with None => true | Some (x, y) => feqb (y * y) (rhs K a b x) end.
Lemma onb_ok : forall P, onb P = true <-> on P.
Proof. intros [[x y] | ]; cbn [onb on_curve]; [apply (fl_eqb K HK) | tauto]. Qed.
Definition cpoint : Type := { P : point K | onb P = true }.
Lemma cpoint_eq : forall P Q : cpoint, proj1_sig P = proj1_sig Q -> P = Q.
Proof. intros [P HP] [Q HQ] E. cbn in E. subst. f_equal. apply Eqdep_dec.UIP_dec. decide equality. Qed.
Definition cp_on (P : cpoint) : on (proj1_sig P) := proj1 (onb_ok _) (proj2_sig P).
Definition cp_mk (P : point K) (H : on P) : cpoint := exist _ P (proj2 (onb_ok P) H).
Definition cp_add (P Q : cpoint) : cpoint := cp_mk (add (proj1_sig P) (proj1_sig Q)) (add_on K HK a b C2 _ _ (cp_on P) (cp_on Q)).
Definition cgroup : monoid := {| mcar := cpoint; mone := cp_mk None I; mmul := cp_add |}.
Lemma cgroup_laws : monoid_laws cgroup.
Proof.
  constructor.
  - intros P Q R. apply cpoint_eq. cbn. symmetry. apply (add_assoc K HK a b); auto using cp_on.
  - intro P. apply cpoint_eq. cbn. apply (add_0_l K a).
  - intro P. apply cpoint_eq. cbn. apply (add_0_r K a).
Qed.
Lemma cgroup_comm : m_commutative cgroup.
Proof. intros P Q. apply cpoint_eq. cbn. apply (add_comm K HK). Qed.
Definition h (P : cgroup) : point_monoid K a := Ok (proj1_sig P).
Lemma h_mul : forall P Q : cgroup, h (mmul cgroup P Q) = mmul (point_monoid K a) (h P) (h Q).
Proof. intros P Q. unfold h. cbn [mmul point_monoid cgroup bind]. rewrite mul_value_ok. reflexivity. Qed.
Lemma npow_pmul : forall n (P : cgroup), proj1_sig (npow P n) = pmul K a n (proj1_sig P).
Proof. induction n; intros P; [reflexivity | ]. cbn [npow pmul]. rewrite <- IHn. reflexivity. Qed.
Lemma zpow_pzmul : forall n (P : cgroup), (0 <= n)%Z -> proj1_sig (zpow P n) = pzmul K a n (proj1_sig P).
Proof. intros [ | p | p] P H; [reflexivity | | lia]. unfold zpow. rewrite npow_pmul. reflexivity. Qed.

Lemma pow_value : forall P n, on P -> (0 <= n)%Z -> join (generic_pow_mpz (point_monoid K a) (Ok P) n) = Ok (pzmul K a n P).
Proof.
  intros P n HP Hn. change (Ok P : point_monoid K a) with (h (cp_mk P HP)).
  rewrite (generic_pow_hom cgroup (point_monoid K a) h) by (auto using h_mul; reflexivity).
  rewrite (pow_correct cgroup) by (auto using cgroup_laws).
  cbn [rmap bind join]. unfold h. f_equal. rewrite zpow_pzmul by auto. reflexivity.
Qed.
Lemma pmul_on : forall n P, on P -> on (pmul K a n P).
Proof. induction n; intros P H; cbn [pmul]; [exact I | ]. apply add_on; auto. Qed.
Lemma pzmul_on : forall n P, on P -> on (pzmul K a n P).
Proof. intros [ | p | p] P H; cbn [pzmul]; [exact I | apply pmul_on; auto | apply neg_on; auto; apply pmul_on; auto]. Qed.
Lemma pow_ok : forall c p n st, user c -> on (cval st p) -> (0 <= n)%Z ->
  assigns (curve_pow_mpz K a c p n st) c st (pzmul K a n (cval st p)).
Proof. intros c p n st Uc HP Hn. unfold curve_pow_mpz. rewrite pow_value by auto. cbn [bind]. apply store_ok; auto. Qed.

Lemma peqb_ok : forall P Q : point K, peqb K P Q = true <-> P = Q.
Proof.
  intros [[x y] | ] [[z w] | ]; cbn [peqb]; try (split; [discriminate | congruence]); [ | tauto].
  rewrite andb_true_iff, !(fl_eqb K HK). split; [intros [? ?]; subst; auto | intro E; inversion E; auto].
Qed.
Lemma pzmul_0 : forall n, pzmul K a n None = None.
Proof.
  assert (E : forall n, pmul K a n None = None) by (induction n; cbn [pmul]; auto; rewrite IHn; auto).
  intros [ | p | p]; cbn [pzmul]; rewrite ?E; auto.
Qed.
Lemma cmp_ok : forall quotient p q st, (forall n, quotient = Some n -> (0 <= n)%Z) ->
  on (cval st (Reg p)) -> on (cval st (Reg q)) ->
  curve_cmp K a quotient (Reg p) (Reg q) st = Ok (negb (same_point K a quotient (cval st (Reg p)) (cval st (Reg q)))).
Proof.
  intros quotient p q st HQ Hp Hq. unfold curve_cmp. destruct (obj_eqb_spec (Reg p) (Reg q)) as [E | E].
  - inversion E; subst. do 2 f_equal. symmetry. destruct quotient as [n | ]; cbn [same_point].
    + rewrite (add_neg_r K HK) by auto. rewrite pzmul_0. reflexivity.
    + rewrite (proj2 (peqb_ok _ _) eq_refl). reflexivity.
  - destruct quotient as [n | ]; cbn [same_point].
    + destruct (div_ok t8 (Reg p) (Reg q) st u8 (user_reg p) (user_reg q)) as (s1 & -> & V1 & F1); [discriminate | ]. cbn [bind].
      assert (O1 : on (cval s1 t8)) by (rewrite V1; apply add_on; auto; apply neg_on; auto).
      destruct (pow_ok t8 t8 n s1 u8 O1 (HQ n eq_refl)) as (s2 & -> & V2 & F2).
      cbn [bind]. do 2 f_equal. rewrite V1 in V2. rewrite <- V2. unfold curve_is1, cval. destruct (inf s2 t8); reflexivity.
    + f_equal. unfold point_cmp, cval. destruct (inf st (Reg p)), (inf st (Reg q)); cbn [orb andb negb peqb]; auto.
      rewrite negb_andb. auto.
Qed.

(** ** Histories *)
Definition rep st (v : nat -> point K) : Prop := forall n, v n = cval st (Reg n).
Definition all_on (v : nat -> point K) : Prop := forall n, on (v n).
Lemma assigns_rep : forall m d st v P, rep st v -> assigns8 m (Reg d) st P ->
  exists st', m = Ok st' /\ rep st' (setp K v d P).
Proof.
  intros m d st v P R (st' & E & V & F). exists st'. split; auto. intro n. unfold setp.
  destruct (Nat.eqb_spec n d) as [-> | N]; auto. rewrite R. unfold cval.
  destruct (F (Reg n)) as [I S]; [apply user_reg | congruence | discriminate | ]. rewrite I, !S. auto.
Qed.
Lemma setp_on : forall v d P, all_on v -> on P -> all_on (setp K v d P).
Proof. intros v d P A H n. unfold setp. destruct (Nat.eqb n d); auto. Qed.

Lemma step_ok : forall quotient c st v, (forall n, quotient = Some n -> (0 <= n)%Z) ->
  (forall d p n, c = CMulZ d p n -> (0 <= n)%Z) -> rep st v -> all_on v ->
  exists st', c_step K a quotient st c = Ok (st', snd (pstep K a quotient v c)) /\
    rep st' (fst (pstep K a quotient v c)) /\ all_on (fst (pstep K a quotient v c)).
Proof.
  intros quotient c st v HQ HZ R A.
  assert (G : forall m d P, assigns8 m (Reg d) st P -> on P ->
    exists st', (st <- m ;; Ok (st, [])) = Ok (st', [] : list (bool + point K)) /\ rep st' (setp K v d P) /\ all_on (setp K v d P)).
  { intros m d P H HP. destruct (assigns_rep m d st v P R H) as (st' & -> & R'). exists st'. split; [auto | split; auto].
    apply setp_on; auto. }
  destruct c; cbn [c_step pstep fst snd]; cbv zeta.
  - apply G; auto. rewrite R. apply a8. apply set_ok; apply user_reg.
  - apply G; [apply a8, to_inf | exact I].
  - apply G; [rewrite !R; apply a8; apply mul_ok; apply user_reg | apply add_on; auto].
  - apply G; [rewrite !R; apply div_ok; [apply user_reg | apply user_reg | apply user_reg | discriminate] | apply add_on; auto; apply neg_on; auto].
  - apply G; [rewrite !R; apply a8; apply invert_ok; apply user_reg | apply neg_on; auto].
  - apply G; [rewrite !R; apply a8; apply double_ok; apply user_reg | apply add_on; auto].
  - apply G; [rewrite !R; apply a8; apply pow_ok; [apply user_reg | rewrite <- R; auto | eauto] | apply pzmul_on; auto].
  - exists st. split; [ | split; auto]. rewrite R. unfold curve_is1, cval. destruct (inf st (Reg p)); reflexivity.
  - exists st. split; [ | split; auto]. rewrite cmp_ok by (auto; rewrite <- R; auto). cbn [bind]. rewrite !R. auto.
  - exists st. split; [ | split; auto]. rewrite R. auto.
Qed.
Theorem run_ok : forall quotient hs st v, (forall n, quotient = Some n -> (0 <= n)%Z) ->
  scalars_ok hs -> rep st v -> all_on v ->
  c_run K a quotient st hs = Ok (prun K a quotient v hs).
Proof.
  induction hs as [ | c hs IH]; intros st v HQ HS R A; [reflexivity | ]. cbn [c_run prun]. cbv zeta.
  destruct (step_ok quotient c st v HQ) as (st' & -> & R' & A'); auto.
  { intros d p n E. apply (HS d p n). left. auto. }
  cbn [bind fst snd]. rewrite (IH st' (fst (pstep K a quotient v c)) HQ); auto.
  intros d p n E. apply (HS d p n). right. auto.
Qed.
(** every point shown is on the curve *)
Lemma step_on : forall quotient c v, all_on v -> all_on (fst (pstep K a quotient v c)) /\
  forall P, In (inr P) (snd (pstep K a quotient v c)) -> on P.
Proof.
  intros quotient c v A.
  destruct c; cbn [pstep fst snd]; (split; [ | intros P0 HIn; cbn [In] in HIn; try tauto]); auto;
    try (apply setp_on; auto).
  - exact I.
  - apply add_on; auto.
  - apply add_on; auto. apply neg_on; auto.
  - apply neg_on; auto.
  - apply add_on; auto.
  - apply pzmul_on; auto.
  - destruct HIn as [E | []]. discriminate.
  - destruct HIn as [E | []]. discriminate.
  - destruct HIn as [E | []]. inversion E. auto.
Qed.
Theorem run_on : forall quotient hs v, all_on v -> forall P, In (inr P) (prun K a quotient v hs) -> on P.
Proof.
  induction hs as [ | c hs IH]; intros v A P H; [contradiction | ]. cbn [prun] in H. cbv zeta in H.
  destruct (step_on quotient c v A) as [A' S]. apply in_app_or in H. destruct H; eauto.
Qed.

(** scalar multiplication laws *)
Notation zmul := (pzmul K a).
Lemma zmul_z : forall P (HP : on P) n, (0 <= n)%Z -> zmul n P = proj1_sig (zpow (cp_mk P HP : cgroup) n).
Proof. intros. rewrite zpow_pzmul by auto. reflexivity. Qed.
Lemma zmul_on' : forall P (HP : on P) n, (0 <= n)%Z -> cp_mk (zmul n P) (pzmul_on n P HP) = zpow (cp_mk P HP : cgroup) n.
Proof. intros. apply cpoint_eq. cbn. apply zmul_z; auto. Qed.
Lemma zmul_add : forall P m n, on P -> (0 <= m)%Z -> (0 <= n)%Z -> zmul (m + n) P = add (zmul m P) (zmul n P).
Proof.
  intros P m n HP Hm Hn. rewrite !(zmul_z P HP) by lia. rewrite (zpow_add cgroup cgroup_laws) by auto. reflexivity.
Qed.
Lemma zmul_mul : forall P m n, on P -> (0 <= m)%Z -> (0 <= n)%Z -> zmul (m * n) P = zmul m (zmul n P).
Proof.
  intros P m n HP Hm Hn. rewrite (zmul_z P HP) by lia. rewrite (zmul_z (zmul n P) (pzmul_on n P HP)) by auto.
  rewrite zmul_on' by auto. rewrite Z.mul_comm. rewrite (zpow_mul cgroup cgroup_laws) by auto. auto.
Qed.
Lemma zmul_dist : forall P Q n, on P -> on Q -> (0 <= n)%Z -> zmul n (add P Q) = add (zmul n P) (zmul n Q).
Proof.
  intros P Q n HP HQ Hn. rewrite (zmul_z (add P Q) (add_on K HK a b C2 _ _ HP HQ)), (zmul_z P HP), (zmul_z Q HQ) by auto.
  change (proj1_sig (zpow (cp_mk (add P Q) (add_on K HK a b C2 P Q HP HQ) : cgroup) n) =
    proj1_sig (mmul cgroup (zpow (cp_mk P HP : cgroup) n) (zpow (cp_mk Q HQ : cgroup) n))).
  rewrite <- (zpow_mul_base cgroup cgroup_laws cgroup_comm) by auto. do 2 f_equal. apply cpoint_eq. reflexivity.
Qed.
Lemma zmul_mod : forall P r n, on P -> (0 < r)%Z -> zmul r P = None -> (0 <= n)%Z -> zmul n P = zmul (n mod r) P.
Proof.
  intros P r n HP Hr E Hn. pose proof (Z.mod_pos_bound n r Hr). pose proof (Z.div_pos n r Hn Hr).
  rewrite (Z.div_mod n r) at 1 by lia. rewrite zmul_add by (auto; nia). rewrite Z.mul_comm, zmul_mul by (auto; lia).
  rewrite E, pzmul_0. apply (add_0_l K a).
Qed.
End G.
End F.
