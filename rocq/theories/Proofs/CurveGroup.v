(** The chord-and-tangent law is a commutative group law. *)
From Coq Require Import ZArith List Bool Lia Ring Field.
From Verif.Base Require Import Outcome Algebra Slots.
From Verif.Spec Require Import Curve.
From Verif.Proofs Require Import FieldFacts SlotFacts CurveAlgebra CurveCases1 CurveCases2.

Section S.
Variable K : fld.
Hypothesis HK : fld_laws K.
Add Field KFcg : (fl_field K HK).
Notation "0" := f0. Notation "1" := f1.
Notation "x + y" := (fadd x y). Notation "x - y" := (fsub x y). Notation "x * y" := (fmul x y). Notation "- x" := (fopp x).
Notation "x / y" := (fdiv x y).
Variables (a b : K).
Notation on := (on_curve K a b).
Notation add := (padd K a).
Hypothesis C2 : f2 K <> 0.

Lemma half_0 : forall y : K, y = - y -> y = 0.
Proof. intros y H. assert (E : f2 K * y = 0) by (unfold f2; transitivity (y - - y); [ring | rewrite <- H; ring]). destruct (f_integral K HK _ _ E); auto. contradiction. Qed.
Lemma same_x : forall x y1 y2, on (Some (x, y1)) -> on (Some (x, y2)) -> y1 = y2 \/ y1 = - y2.
Proof. intros x y1 y2 H1 H2. cbn [on_curve] in *. apply (f_sq_eq K HK). congruence. Qed.

(** How two finite points are added. *)
Inductive kind := KN | KD | KC.
Definition kindof (P Q : K * K) : kind :=
  if negb (feqb (fst P) (fst Q)) then KC
  else if feqb (snd P) (snd Q) && negb (feqb (snd P) 0) then KD else KN.
Lemma kind_sym : forall P Q, kindof P Q = kindof Q P.
Proof.
  intros [x1 y1] [x2 y2]. unfold kindof. cbn [fst snd].
  destruct (f_eq_dec K HK x1 x2) as [<- | N].
  - destruct (f_eq_dec K HK y1 y2) as [<- | N]; auto.
    rewrite (feqb_false K HK y1 y2), (feqb_false K HK y2 y1); auto.
  - rewrite (feqb_false K HK x1 x2), (feqb_false K HK x2 x1); auto.
Qed.
Definition chord (x1 y1 x2 y2 i l x3 y3 : K) : Prop :=
  (x2 - x1) * i = 1 /\ l = (y2 - y1) * i /\ x3 = l * l - x1 - x2 /\ y3 = (x1 - x3) * l - y1.
Definition tangent (x1 y1 x2 y2 i l x3 y3 : K) : Prop :=
  x1 = x2 /\ y1 = y2 /\ (y1 + y1) * i = 1 /\ l = ((1 + 1 + 1) * (x1 * x1) + a) * i /\ x3 = l * l - (x1 + x1) /\ y3 = (x1 - x3) * l - y1.
Definition added (k : kind) (P Q : K * K) (R : point K) : Prop :=
  match k with
  | KN => fst P = fst Q /\ snd P = - snd Q /\ R = None
  | KD => exists i l x3 y3, tangent (fst P) (snd P) (fst Q) (snd Q) i l x3 y3 /\ R = Some (x3, y3)
  | KC => exists i l x3 y3, chord (fst P) (snd P) (fst Q) (snd Q) i l x3 y3 /\ R = Some (x3, y3)
  end.
Lemma add_kind : forall P Q, on (Some P) -> on (Some Q) -> added (kindof P Q) P Q (add (Some P) (Some Q)).
Proof.
  intros [x1 y1] [x2 y2] HP HQ. unfold kindof, padd. cbn [fst snd].
  destruct (f_eq_dec K HK x1 x2) as [<- | N].
  - rewrite (feqb_refl K HK). cbn [negb]. destruct (f_eq_dec K HK y1 y2) as [<- | NY].
    + rewrite (feqb_refl K HK). cbn [andb]. destruct (f_eq_dec K HK y1 0) as [-> | Y0].
      * rewrite (feqb_refl K HK). cbn [negb added fst snd]. split; [auto | split; [ring | auto]].
      * rewrite (feqb_false K HK y1 0) by auto. cbn [negb added fst snd].
        assert (D : f2 K * y1 <> 0) by (apply f_mul_nz; auto).
        exists (finv (f2 K * y1)), ((f3 K * (x1 * x1) + a) / (f2 K * y1)). do 2 eexists. split; [ | reflexivity].
        unfold tangent. split; [auto | split; [auto | split; [ | split; [ | split; ring]]]].
        -- replace (y1 + y1) with (f2 K * y1) by (unfold f2; ring). field. split; auto.
        -- unfold f3. set (t := f2 K) in *. field. split; auto.
    + rewrite (feqb_false K HK y1 y2) by auto. cbn [andb added fst snd]. split; [auto | split; [ | auto]].
      destruct (same_x _ _ _ HP HQ); auto. contradiction.
  - rewrite (feqb_false K HK x1 x2) by auto. cbn [negb added fst snd].
    assert (D : x2 - x1 <> 0) by (intro E; apply N; symmetry; apply (f_sub_0 K HK); auto).
    exists (finv (x2 - x1)), ((y2 - y1) / (x2 - x1)). do 2 eexists. split; [ | reflexivity].
    unfold chord. split; [field; auto | split; [field; auto | split; ring]].
Qed.

Lemma neg_on : forall P, on P -> on (pneg P).
Proof. intros [[x y] | ] H; cbn [pneg on_curve] in *; auto. rewrite <- H. ring. Qed.
Lemma chord_line : forall x1 y1 x2 y2 i l x3 y3, chord x1 y1 x2 y2 i l x3 y3 -> y2 = l * (x2 - x1) + y1.
Proof. intros x1 y1 x2 y2 i l x3 y3 (I & L & _). rewrite L. transitivity ((y2 - y1) * ((x2 - x1) * i) + y1); [rewrite I; ring | ring]. Qed.
Lemma chord_a : forall x1 y1 x2 y2 i l x3 y3, on (Some (x1, y1)) -> on (Some (x2, y2)) -> chord x1 y1 x2 y2 i l x3 y3 ->
  a = l * (y1 + y2) - (x1 * x1 + x1 * x2 + x2 * x2).
Proof.
  intros x1 y1 x2 y2 i l x3 y3 H1 H2 (I & L & _). cbn [on_curve] in *. unfold rhs in *. rewrite L.
  transitivity ((y2 * y2 - y1 * y1) * i - (x1 * x1 + x1 * x2 + x2 * x2)); [ | ring]. rewrite H1, H2.
  transitivity (((x2 - x1) * i) * (x1 * x1 + x1 * x2 + x2 * x2 + a) - (x1 * x1 + x1 * x2 + x2 * x2)); [rewrite I; ring | ring].
Qed.
Lemma tangent_a : forall x1 y1 x2 y2 i l x3 y3, tangent x1 y1 x2 y2 i l x3 y3 -> a = l * (y1 + y1) - (1 + 1 + 1) * (x1 * x1).
Proof.
  intros x1 y1 x2 y2 i l x3 y3 (_ & _ & I & L & _). rewrite L.
  transitivity (((y1 + y1) * i) * ((1 + 1 + 1) * (x1 * x1) + a) - (1 + 1 + 1) * (x1 * x1)); [rewrite I; ring | ring].
Qed.
Lemma add_on : forall P Q, on P -> on Q -> on (add P Q).
Proof.
  intros [P | ] [Q | ] HP HQ; [ | destruct P; auto | exact HQ | exact I].
  pose proof (add_kind P Q HP HQ) as A. destruct P as [x1 y1], Q as [x2 y2]. destruct (kindof (x1, y1) (x2, y2)); cbn [added fst snd] in A.
  - destruct A as (_ & _ & ->). exact I.
  - destruct A as (i & l & x3 & y3 & T & ->). pose proof (tangent_a _ _ _ _ _ _ _ _ T) as Ha.
    destruct T as (_ & _ & _ & _ & X & Y). cbn [on_curve] in *. unfold rhs in *.
    assert (Hb : b = y1 * y1 - x1 * x1 * x1 - a * x1) by (rewrite HP; ring). rewrite Hb, Y, X, Ha. ring.
  - destruct A as (i & l & x3 & y3 & T & ->). pose proof (chord_a _ _ _ _ _ _ _ _ HP HQ T) as Ha.
    pose proof (chord_line _ _ _ _ _ _ _ _ T) as Hy.
    destruct T as (_ & _ & X & Y). cbn [on_curve] in *. unfold rhs in *.
    assert (Hb : b = y1 * y1 - x1 * x1 * x1 - a * x1) by (rewrite HP; ring). rewrite Hb, Y, X, Ha, Hy. ring.
Qed.
Lemma add_0_l : forall P, add None P = P. Proof. destruct P; auto. Qed.
Lemma add_0_r : forall P, add P None = P. Proof. destruct P as [[x y] | ]; auto. Qed.
Lemma add_comm : forall P Q, add P Q = add Q P.
Proof.
  intros [[x1 y1] | ] [[x2 y2] | ]; auto. cbn [padd].
  destruct (f_eq_dec K HK x1 x2) as [<- | N].
  - rewrite (feqb_refl K HK). cbn [negb]. destruct (f_eq_dec K HK y1 y2) as [<- | NY]; [auto | ].
    rewrite (feqb_false K HK y1 y2), (feqb_false K HK y2 y1) by auto. auto.
  - rewrite (feqb_false K HK x1 x2), (feqb_false K HK x2 x1) by auto. cbn [negb]. unfold third.
    assert (D : x2 - x1 <> 0) by (intro E; apply N; symmetry; apply (f_sub_0 K HK); auto).
    assert (D' : x1 - x2 <> 0) by (intro E; apply N; apply (f_sub_0 K HK); auto).
    set (l := (y2 - y1) / (x2 - x1)). assert (E : (y1 - y2) / (x1 - x2) = l) by (unfold l; field; auto). rewrite E.
    assert (L : y2 - y1 = l * (x2 - x1)) by (unfold l; field; auto).
    do 2 f_equal; [ring | ]. replace y2 with (y1 + l * (x2 - x1)) by (rewrite <- L; ring). ring.
Qed.
Lemma add_neg_r : forall P, add P (pneg P) = None.
Proof.
  intros [[x y] | ]; auto. cbn [padd pneg]. rewrite (feqb_refl K HK). cbn [negb].
  destruct (f_eq_dec K HK y (- y)) as [E | N].
  - rewrite (half_0 y E). rewrite !(feqb_refl K HK). rewrite andb_false_r. auto.
  - rewrite (feqb_false K HK y) by auto. auto.
Qed.
Lemma neg_neg : forall P : point K, pneg (pneg P) = P.
Proof. intros [[x y] | ]; auto. cbn [pneg]. do 2 f_equal. ring. Qed.

(** ** Associativity *)
Hypothesis SM : f2 K * f2 K * (a * a * a) + f3 K * f3 K * f3 K * (b * b) <> 0.
Definition dd : K := finv (f2 K * f2 K * (a * a * a) + f3 K * f3 K * f3 K * (b * b)).
Lemma Hdd : ((1 + 1) * (1 + 1) * (a * a * a) + (1 + 1 + 1) * (1 + 1 + 1) * (1 + 1 + 1) * (b * b)) * dd = 1.
Proof.
  change ((f2 K * f2 K * (a * a * a) + f3 K * f3 K * f3 K * (b * b)) * dd = 1). unfold dd.
  revert SM. generalize (f2 K * f2 K * (a * a * a) + f3 K * f3 K * f3 K * (b * b)). intros t H. field. auto.
Qed.

Definition okind (P Q : point K) : option kind := match P, Q with Some p, Some q => Some (kindof p q) | _, _ => None end.
Lemma okind_sym : forall P Q, okind P Q = okind Q P.
Proof. intros [p | ] [q | ]; cbn [okind]; auto. rewrite kind_sym. auto. Qed.
(** the combinations proved by exchanging the outer points *)
Definition bad (k1 k2 k3 k4 : option kind) : bool :=
  match k1, k2, k3, k4 with
  | Some KC, Some KD, Some KD, Some KD | Some KC, Some KC, Some KD, Some KD | Some KC, Some KC, Some KC, Some KD
  | Some KC, Some KD, Some KC, Some KD => true
  | _, _, _, _ => false
  end.
Definition kinds (A B C : point K) (f : option kind -> option kind -> option kind -> option kind -> bool) : bool :=
  f (okind A B) (okind (add A B) C) (okind B C) (okind A (add B C)).

Lemma pair_eq : forall x y u v : K, x = u /\ y = v -> Some (x, y) = Some (u, v). Proof. intros x y u v [-> ->]. auto. Qed.
Lemma CC2 : (1 + 1 : K) <> 0. Proof. exact C2. Qed.
Lemma off_0 : forall d : K, (exists i, d * i = 1) -> d <> 0.
Proof. intros d [i H] ->. apply (f_1_neq_0 K HK). rewrite <- H. ring. Qed.

Lemma case_DDCC : forall x1 y1 i1 l1 X1 Y1 i2 l2 X2 Y2 i3 l3 X3 Y3 i4 l4 X4 Y4 x2 y2 x3 y3,
  tangent x1 y1 x2 y2 i1 l1 X1 Y1 -> tangent X1 Y1 x3 y3 i2 l2 X2 Y2 -> chord x2 y2 x3 y3 i3 l3 X3 Y3 -> chord x1 y1 X3 Y3 i4 l4 X4 Y4 ->
  X2 = X4 /\ Y2 = Y4.
Proof.
  intros. pose proof (tangent_a _ _ _ _ _ _ _ _ H) as Ha.
  destruct H as (<- & <- & I1 & L1 & HX1 & HY1). destruct H0 as (<- & <- & I2 & L2 & HX2 & HY2).
  destruct H1 as (I3 & L3 & HX3 & HY3). destruct H2 as (I4 & L4 & HX4 & HY4).
  assert (E3 : l3 * (X1 - x1) = Y1 - y1) by (rewrite L3; transitivity ((Y1 - y1) * ((X1 - x1) * i3)); [ring | rewrite I3; ring]).
  assert (E4' : l4 * (X3 - x1) = Y3 - y1) by (rewrite L4; transitivity ((Y3 - y1) * ((X3 - x1) * i4)); [ring | rewrite I4; ring]).
  assert (N3 : X1 - x1 <> 0) by (apply off_0; eauto). assert (N4 : X3 - x1 <> 0) by (apply off_0; eauto).
  assert (D4 : (X3 - x1) * ((X1 - x1) * (X1 - x1)) = (Y1 - y1) * (Y1 - y1) - (x1 + x1 + X1) * ((X1 - x1) * (X1 - x1))).
  { rewrite <- E3, HX3. ring. }
  eapply (ddcc K HK x1 y1 l1 X1 Y1 l2 X2 Y2 l3 X3 Y3 l4 X4 Y4 a (Y1 + Y1) (X1 - x1)
            ((Y1 - y1) * (Y1 - y1) - (x1 + x1 + X1) * ((X1 - x1) * (X1 - x1)))); try reflexivity; try assumption.
  - rewrite L2. transitivity (((1 + 1 + 1) * (X1 * X1) + a) * ((Y1 + Y1) * i2)); [ring | rewrite I2; ring].
  - rewrite <- D4. transitivity ((l4 * (X3 - x1)) * ((X1 - x1) * (X1 - x1))); [ring | ]. rewrite E4', HY3. ring.
  - apply off_0; eauto.
  - rewrite <- D4. apply f_mul_nz; auto. apply f_mul_nz; auto.
Qed.
Lemma case_CDCC : forall x1 y1 i1 l1 X1 Y1 i2 l2 X2 Y2 i3 l3 X3 Y3 i4 l4 X4 Y4 x2 y2 x3 y3,
  on (Some (x1, y1)) -> on (Some (x2, y2)) ->
  chord x1 y1 x2 y2 i1 l1 X1 Y1 -> tangent X1 Y1 x3 y3 i2 l2 X2 Y2 -> chord x2 y2 x3 y3 i3 l3 X3 Y3 -> chord x1 y1 X3 Y3 i4 l4 X4 Y4 ->
  X2 = X4 /\ Y2 = Y4.
Proof.
  intros x1 y1 i1 l1 X1 Y1 i2 l2 X2 Y2 i3 l3 X3 Y3 i4 l4 X4 Y4 x2 y2 x3 y3 HA HB H H0 H1 H2.
  pose proof (chord_a _ _ _ _ _ _ _ _ HA HB H) as Ha. pose proof (chord_line _ _ _ _ _ _ _ _ H) as Hl.
  destruct H as (I1 & L1 & HX1 & HY1). destruct H0 as (<- & <- & I2 & L2 & HX2 & HY2).
  destruct H1 as (I3 & L3 & HX3 & HY3). destruct H2 as (I4 & L4 & HX4 & HY4).
  assert (E3 : l3 * (X1 - x2) = Y1 - y2) by (rewrite L3; transitivity ((Y1 - y2) * ((X1 - x2) * i3)); [ring | rewrite I3; ring]).
  assert (E4' : l4 * (X3 - x1) = Y3 - y1) by (rewrite L4; transitivity ((Y3 - y1) * ((X3 - x1) * i4)); [ring | rewrite I4; ring]).
  assert (N3 : X1 - x2 <> 0) by (apply off_0; eauto). assert (N4 : X3 - x1 <> 0) by (apply off_0; eauto).
  assert (D4 : (X3 - x1) * ((X1 - x2) * (X1 - x2)) = (Y1 - y2) * (Y1 - y2) - (x1 + x2 + X1) * ((X1 - x2) * (X1 - x2))).
  { rewrite <- E3, HX3. ring. }
  eapply (cdcc K HK x1 y1 x2 y2 l1 X1 Y1 l2 X2 Y2 l3 X3 Y3 l4 X4 Y4 a (Y1 + Y1) (X1 - x2)
            ((Y1 - y2) * (Y1 - y2) - (x1 + x2 + X1) * ((X1 - x2) * (X1 - x2)))); try reflexivity; try assumption.
  - rewrite L2. transitivity (((1 + 1 + 1) * (X1 * X1) + a) * ((Y1 + Y1) * i2)); [ring | rewrite I2; ring].
  - rewrite <- D4. transitivity ((l4 * (X3 - x1)) * ((X1 - x2) * (X1 - x2))); [ring | ]. rewrite E4'. ring.
  - apply off_0; eauto.
  - rewrite <- D4. apply f_mul_nz; auto. apply f_mul_nz; auto.
Qed.

Ltac open_T := repeat match goal with
  | H : tangent _ _ _ _ _ _ _ _ |- _ => destruct H as (? & ? & ? & ? & ? & ?)
  | H : chord _ _ _ _ _ _ _ _ |- _ => destruct H as (? & ? & ? & ?)
  end.
Lemma assoc_good : forall A B C, on A -> on B -> on C -> kinds A B C bad = false -> add (add A B) C = add A (add B C).
Proof.
  intros [[x1 y1] | ] [[x2 y2] | ] [[x3 y3] | ] HA HB HC G; rewrite ?add_0_l, ?add_0_r; auto.
  unfold kinds in G. cbn [okind] in G.
  pose proof (add_kind _ _ HA HB) as K1. pose proof (add_on _ _ HA HB) as HD.
  pose proof (add_kind _ _ HB HC) as K3. pose proof (add_on _ _ HB HC) as HF.
  pose proof HA as HA'. pose proof HB as HB'. pose proof HC as HC'. cbn [on_curve] in HA', HB', HC'. unfold rhs in HA', HB', HC'.
  pose proof CC2 as C2'. pose proof Hdd as Hdd'.
  destruct (kindof (x1, y1) (x2, y2)) eqn:Q1; cbn [added fst snd] in K1;
    [destruct K1 as (K1a & K1b & K1) | destruct K1 as (i1 & l1 & X1 & Y1 & K1' & K1) | destruct K1 as (i1 & l1 & X1 & Y1 & K1' & K1)];
  (destruct (kindof (x2, y2) (x3, y3)) eqn:Q3; cbn [added fst snd] in K3;
    [destruct K3 as (K3a & K3b & K3) | destruct K3 as (i3 & l3 & X3 & Y3 & K3' & K3) | destruct K3 as (i3 & l3 & X3 & Y3 & K3' & K3)]);
  rewrite ?K1, ?K3 in *; rewrite ?add_0_l, ?add_0_r; cbn [okind] in G.
  - (* N N *)
    open_T; apply pair_eq; eapply c_NoNo with (x1 := x1) (x2 := x2) (x3 := x3) (y1 := y1) (y2 := y2) (y3 := y3); eassumption.
  - (* N D *)
    pose proof (add_kind _ _ HA HF) as K4. destruct (kindof (x1, y1) (X3, Y3)) eqn:Q4; cbn [added fst snd] in K4;
      [destruct K4 as (K4a & K4b & ->) | destruct K4 as (i4 & l4 & X4 & Y4 & K4' & ->) | destruct K4 as (i4 & l4 & X4 & Y4 & K4' & ->)].
    + open_T; exfalso; apply (f_1_neq_0 K HK); eapply c_NoDN with (X3 := X3) (Y3 := Y3) (i3 := i3) (l3 := l3) (x1 := x1) (x2 := x2) (x3 := x3) (y1 := y1) (y2 := y2) (y3 := y3); eassumption.
    + open_T; apply pair_eq; eapply c_NoDD with (X3 := X3) (X4 := X4) (Y3 := Y3) (Y4 := Y4) (i3 := i3) (i4 := i4) (l3 := l3) (l4 := l4) (x1 := x1) (x2 := x2) (x3 := x3) (y1 := y1) (y2 := y2) (y3 := y3); eassumption.
    + open_T; apply pair_eq; eapply c_NoDC with (X3 := X3) (X4 := X4) (Y3 := Y3) (Y4 := Y4) (i3 := i3) (i4 := i4) (l3 := l3) (l4 := l4) (x1 := x1) (x2 := x2) (x3 := x3) (y1 := y1) (y2 := y2) (y3 := y3); eassumption.
  - (* N C *)
    pose proof (add_kind _ _ HA HF) as K4. destruct (kindof (x1, y1) (X3, Y3)) eqn:Q4; cbn [added fst snd] in K4;
      [destruct K4 as (K4a & K4b & ->) | destruct K4 as (i4 & l4 & X4 & Y4 & K4' & ->) | destruct K4 as (i4 & l4 & X4 & Y4 & K4' & ->)].
    + open_T; exfalso; apply (f_1_neq_0 K HK); eapply c_NoCN with (X3 := X3) (Y3 := Y3) (i3 := i3) (l3 := l3) (x1 := x1) (x2 := x2) (x3 := x3) (y1 := y1) (y2 := y2) (y3 := y3); eassumption.
    + open_T; apply pair_eq; eapply c_NoCD with (X3 := X3) (X4 := X4) (Y3 := Y3) (Y4 := Y4) (i3 := i3) (i4 := i4) (l3 := l3) (l4 := l4) (x1 := x1) (x2 := x2) (x3 := x3) (y1 := y1) (y2 := y2) (y3 := y3); eassumption.
    + open_T; apply pair_eq; eapply c_NoCC with (X3 := X3) (X4 := X4) (Y3 := Y3) (Y4 := Y4) (i3 := i3) (i4 := i4) (l3 := l3) (l4 := l4) (x1 := x1) (x2 := x2) (x3 := x3) (y1 := y1) (y2 := y2) (y3 := y3); eassumption.
  - (* D N *)
    pose proof (add_kind _ _ HD HC) as K2. destruct (kindof (X1, Y1) (x3, y3)) eqn:Q2; cbn [added fst snd] in K2;
      [destruct K2 as (K2a & K2b & ->) | destruct K2 as (i2 & l2 & X2 & Y2 & K2' & ->) | destruct K2 as (i2 & l2 & X2 & Y2 & K2' & ->)].
    + open_T; exfalso; apply (f_1_neq_0 K HK); eapply c_DNNo with (X1 := X1) (Y1 := Y1) (i1 := i1) (l1 := l1) (x1 := x1) (x2 := x2) (x3 := x3) (y1 := y1) (y2 := y2) (y3 := y3); eassumption.
    + open_T; apply pair_eq; eapply c_DDNo with (X1 := X1) (X2 := X2) (Y1 := Y1) (Y2 := Y2) (i1 := i1) (i2 := i2) (l1 := l1) (l2 := l2) (x1 := x1) (x2 := x2) (x3 := x3) (y1 := y1) (y2 := y2) (y3 := y3); eassumption.
    + open_T; apply pair_eq; eapply c_DCNo with (X1 := X1) (X2 := X2) (Y1 := Y1) (Y2 := Y2) (i1 := i1) (i2 := i2) (l1 := l1) (l2 := l2) (x1 := x1) (x2 := x2) (x3 := x3) (y1 := y1) (y2 := y2) (y3 := y3); eassumption.
  - (* D D *)
    pose proof (add_kind _ _ HD HC) as K2. destruct (kindof (X1, Y1) (x3, y3)) eqn:Q2; cbn [added fst snd] in K2;
      [destruct K2 as (K2a & K2b & ->) | destruct K2 as (i2 & l2 & X2 & Y2 & K2' & ->) | destruct K2 as (i2 & l2 & X2 & Y2 & K2' & ->)].
    +
      pose proof (add_kind _ _ HA HF) as K4. destruct (kindof (x1, y1) (X3, Y3)) eqn:Q4; cbn [added fst snd] in K4;
        [destruct K4 as (K4a & K4b & ->) | destruct K4 as (i4 & l4 & X4 & Y4 & K4' & ->) | destruct K4 as (i4 & l4 & X4 & Y4 & K4' & ->)].
      * reflexivity.
      * open_T; exfalso; apply (f_1_neq_0 K HK); eapply c_DNDD with (X1 := X1) (X3 := X3) (X4 := X4) (Y1 := Y1) (Y3 := Y3) (Y4 := Y4) (i1 := i1) (i3 := i3) (i4 := i4) (l1 := l1) (l3 := l3) (l4 := l4) (x1 := x1) (x2 := x2) (x3 := x3) (y1 := y1) (y2 := y2) (y3 := y3); eassumption.
      * open_T; exfalso; apply (f_1_neq_0 K HK); eapply c_DNDC with (X1 := X1) (X3 := X3) (X4 := X4) (Y1 := Y1) (Y3 := Y3) (Y4 := Y4) (i1 := i1) (i3 := i3) (i4 := i4) (l1 := l1) (l3 := l3) (l4 := l4) (x1 := x1) (x2 := x2) (x3 := x3) (y1 := y1) (y2 := y2) (y3 := y3); eassumption.
    +
      pose proof (add_kind _ _ HA HF) as K4. destruct (kindof (x1, y1) (X3, Y3)) eqn:Q4; cbn [added fst snd] in K4;
        [destruct K4 as (K4a & K4b & ->) | destruct K4 as (i4 & l4 & X4 & Y4 & K4' & ->) | destruct K4 as (i4 & l4 & X4 & Y4 & K4' & ->)].
      * open_T; exfalso; apply (f_1_neq_0 K HK); eapply c_DDDN with (X1 := X1) (X2 := X2) (X3 := X3) (Y1 := Y1) (Y2 := Y2) (Y3 := Y3) (i1 := i1) (i2 := i2) (i3 := i3) (l1 := l1) (l2 := l2) (l3 := l3) (x1 := x1) (x2 := x2) (x3 := x3) (y1 := y1) (y2 := y2) (y3 := y3); eassumption.
      * open_T; apply pair_eq; eapply c_DDDD with (X1 := X1) (X2 := X2) (X3 := X3) (X4 := X4) (Y1 := Y1) (Y2 := Y2) (Y3 := Y3) (Y4 := Y4) (i1 := i1) (i2 := i2) (i3 := i3) (i4 := i4) (l1 := l1) (l2 := l2) (l3 := l3) (l4 := l4) (x1 := x1) (x2 := x2) (x3 := x3) (y1 := y1) (y2 := y2) (y3 := y3); eassumption.
      * open_T; apply pair_eq; eapply c_DDDC with (X1 := X1) (X2 := X2) (X3 := X3) (X4 := X4) (Y1 := Y1) (Y2 := Y2) (Y3 := Y3) (Y4 := Y4) (i1 := i1) (i2 := i2) (i3 := i3) (i4 := i4) (l1 := l1) (l2 := l2) (l3 := l3) (l4 := l4) (x1 := x1) (x2 := x2) (x3 := x3) (y1 := y1) (y2 := y2) (y3 := y3); eassumption.
    +
      pose proof (add_kind _ _ HA HF) as K4. destruct (kindof (x1, y1) (X3, Y3)) eqn:Q4; cbn [added fst snd] in K4;
        [destruct K4 as (K4a & K4b & ->) | destruct K4 as (i4 & l4 & X4 & Y4 & K4' & ->) | destruct K4 as (i4 & l4 & X4 & Y4 & K4' & ->)].
      * open_T; exfalso; apply (f_1_neq_0 K HK); eapply c_DCDN with (X1 := X1) (X2 := X2) (X3 := X3) (Y1 := Y1) (Y2 := Y2) (Y3 := Y3) (i1 := i1) (i2 := i2) (i3 := i3) (l1 := l1) (l2 := l2) (l3 := l3) (x1 := x1) (x2 := x2) (x3 := x3) (y1 := y1) (y2 := y2) (y3 := y3); eassumption.
      * open_T; apply pair_eq; eapply c_DCDD with (X1 := X1) (X2 := X2) (X3 := X3) (X4 := X4) (Y1 := Y1) (Y2 := Y2) (Y3 := Y3) (Y4 := Y4) (i1 := i1) (i2 := i2) (i3 := i3) (i4 := i4) (l1 := l1) (l2 := l2) (l3 := l3) (l4 := l4) (x1 := x1) (x2 := x2) (x3 := x3) (y1 := y1) (y2 := y2) (y3 := y3); eassumption.
      * open_T; apply pair_eq; eapply c_DCDC with (X1 := X1) (X2 := X2) (X3 := X3) (X4 := X4) (Y1 := Y1) (Y2 := Y2) (Y3 := Y3) (Y4 := Y4) (i1 := i1) (i2 := i2) (i3 := i3) (i4 := i4) (l1 := l1) (l2 := l2) (l3 := l3) (l4 := l4) (x1 := x1) (x2 := x2) (x3 := x3) (y1 := y1) (y2 := y2) (y3 := y3); eassumption.
  - (* D C *)
    pose proof (add_kind _ _ HD HC) as K2. destruct (kindof (X1, Y1) (x3, y3)) eqn:Q2; cbn [added fst snd] in K2;
      [destruct K2 as (K2a & K2b & ->) | destruct K2 as (i2 & l2 & X2 & Y2 & K2' & ->) | destruct K2 as (i2 & l2 & X2 & Y2 & K2' & ->)].
    +
      pose proof (add_kind _ _ HA HF) as K4. destruct (kindof (x1, y1) (X3, Y3)) eqn:Q4; cbn [added fst snd] in K4;
        [destruct K4 as (K4a & K4b & ->) | destruct K4 as (i4 & l4 & X4 & Y4 & K4' & ->) | destruct K4 as (i4 & l4 & X4 & Y4 & K4' & ->)].
      * reflexivity.
      * open_T; exfalso; apply (f_1_neq_0 K HK); eapply c_DNCD with (X1 := X1) (X3 := X3) (X4 := X4) (Y1 := Y1) (Y3 := Y3) (Y4 := Y4) (i1 := i1) (i3 := i3) (i4 := i4) (l1 := l1) (l3 := l3) (l4 := l4) (x1 := x1) (x2 := x2) (x3 := x3) (y1 := y1) (y2 := y2) (y3 := y3); eassumption.
      * open_T; exfalso; apply (f_1_neq_0 K HK); eapply c_DNCC with (X1 := X1) (X3 := X3) (X4 := X4) (Y1 := Y1) (Y3 := Y3) (Y4 := Y4) (i1 := i1) (i3 := i3) (i4 := i4) (l1 := l1) (l3 := l3) (l4 := l4) (x1 := x1) (x2 := x2) (x3 := x3) (y1 := y1) (y2 := y2) (y3 := y3); eassumption.
    +
      pose proof (add_kind _ _ HA HF) as K4. destruct (kindof (x1, y1) (X3, Y3)) eqn:Q4; cbn [added fst snd] in K4;
        [destruct K4 as (K4a & K4b & ->) | destruct K4 as (i4 & l4 & X4 & Y4 & K4' & ->) | destruct K4 as (i4 & l4 & X4 & Y4 & K4' & ->)].
      * open_T; exfalso; apply (f_1_neq_0 K HK); eapply c_DDCN with (X1 := X1) (X2 := X2) (X3 := X3) (Y1 := Y1) (Y2 := Y2) (Y3 := Y3) (i1 := i1) (i2 := i2) (i3 := i3) (l1 := l1) (l2 := l2) (l3 := l3) (x1 := x1) (x2 := x2) (x3 := x3) (y1 := y1) (y2 := y2) (y3 := y3); eassumption.
      * open_T; apply pair_eq; eapply c_DDCD with (X1 := X1) (X2 := X2) (X3 := X3) (X4 := X4) (Y1 := Y1) (Y2 := Y2) (Y3 := Y3) (Y4 := Y4) (i1 := i1) (i2 := i2) (i3 := i3) (i4 := i4) (l1 := l1) (l2 := l2) (l3 := l3) (l4 := l4) (x1 := x1) (x2 := x2) (x3 := x3) (y1 := y1) (y2 := y2) (y3 := y3); eassumption.
      * apply pair_eq. eapply case_DDCC; [exact K1' | exact K2' | exact K3' | exact K4'].
    +
      pose proof (add_kind _ _ HA HF) as K4. destruct (kindof (x1, y1) (X3, Y3)) eqn:Q4; cbn [added fst snd] in K4;
        [destruct K4 as (K4a & K4b & ->) | destruct K4 as (i4 & l4 & X4 & Y4 & K4' & ->) | destruct K4 as (i4 & l4 & X4 & Y4 & K4' & ->)].
      * open_T; exfalso; apply (f_1_neq_0 K HK); eapply c_DCCN with (X1 := X1) (X2 := X2) (X3 := X3) (Y1 := Y1) (Y2 := Y2) (Y3 := Y3) (i1 := i1) (i2 := i2) (i3 := i3) (l1 := l1) (l2 := l2) (l3 := l3) (x1 := x1) (x2 := x2) (x3 := x3) (y1 := y1) (y2 := y2) (y3 := y3); eassumption.
      * open_T; apply pair_eq; eapply c_DCCD with (X1 := X1) (X2 := X2) (X3 := X3) (X4 := X4) (Y1 := Y1) (Y2 := Y2) (Y3 := Y3) (Y4 := Y4) (i1 := i1) (i2 := i2) (i3 := i3) (i4 := i4) (l1 := l1) (l2 := l2) (l3 := l3) (l4 := l4) (x1 := x1) (x2 := x2) (x3 := x3) (y1 := y1) (y2 := y2) (y3 := y3); eassumption.
      * open_T; apply pair_eq; eapply c_DCCC with (X1 := X1) (X2 := X2) (X3 := X3) (X4 := X4) (Y1 := Y1) (Y2 := Y2) (Y3 := Y3) (Y4 := Y4) (i1 := i1) (i2 := i2) (i3 := i3) (i4 := i4) (l1 := l1) (l2 := l2) (l3 := l3) (l4 := l4) (x1 := x1) (x2 := x2) (x3 := x3) (y1 := y1) (y2 := y2) (y3 := y3); eassumption.
  - (* C N *)
    pose proof (add_kind _ _ HD HC) as K2. destruct (kindof (X1, Y1) (x3, y3)) eqn:Q2; cbn [added fst snd] in K2;
      [destruct K2 as (K2a & K2b & ->) | destruct K2 as (i2 & l2 & X2 & Y2 & K2' & ->) | destruct K2 as (i2 & l2 & X2 & Y2 & K2' & ->)].
    + open_T; exfalso; apply (f_1_neq_0 K HK); eapply c_CNNo with (X1 := X1) (Y1 := Y1) (i1 := i1) (l1 := l1) (x1 := x1) (x2 := x2) (x3 := x3) (y1 := y1) (y2 := y2) (y3 := y3); eassumption.
    + open_T; apply pair_eq; eapply c_CDNo with (X1 := X1) (X2 := X2) (Y1 := Y1) (Y2 := Y2) (i1 := i1) (i2 := i2) (l1 := l1) (l2 := l2) (x1 := x1) (x2 := x2) (x3 := x3) (y1 := y1) (y2 := y2) (y3 := y3); eassumption.
    + open_T; apply pair_eq; eapply c_CCNo with (X1 := X1) (X2 := X2) (Y1 := Y1) (Y2 := Y2) (i1 := i1) (i2 := i2) (l1 := l1) (l2 := l2) (x1 := x1) (x2 := x2) (x3 := x3) (y1 := y1) (y2 := y2) (y3 := y3); eassumption.
  - (* C D *)
    pose proof (add_kind _ _ HD HC) as K2. destruct (kindof (X1, Y1) (x3, y3)) eqn:Q2; cbn [added fst snd] in K2;
      [destruct K2 as (K2a & K2b & ->) | destruct K2 as (i2 & l2 & X2 & Y2 & K2' & ->) | destruct K2 as (i2 & l2 & X2 & Y2 & K2' & ->)].
    +
      pose proof (add_kind _ _ HA HF) as K4. destruct (kindof (x1, y1) (X3, Y3)) eqn:Q4; cbn [added fst snd] in K4;
        [destruct K4 as (K4a & K4b & ->) | destruct K4 as (i4 & l4 & X4 & Y4 & K4' & ->) | destruct K4 as (i4 & l4 & X4 & Y4 & K4' & ->)].
      * reflexivity.
      * open_T; exfalso; apply (f_1_neq_0 K HK); eapply c_CNDD with (X1 := X1) (X3 := X3) (X4 := X4) (Y1 := Y1) (Y3 := Y3) (Y4 := Y4) (i1 := i1) (i3 := i3) (i4 := i4) (l1 := l1) (l3 := l3) (l4 := l4) (x1 := x1) (x2 := x2) (x3 := x3) (y1 := y1) (y2 := y2) (y3 := y3); eassumption.
      * open_T; exfalso; apply (f_1_neq_0 K HK); eapply c_CNDC with (X1 := X1) (X3 := X3) (X4 := X4) (Y1 := Y1) (Y3 := Y3) (Y4 := Y4) (i1 := i1) (i3 := i3) (i4 := i4) (l1 := l1) (l3 := l3) (l4 := l4) (x1 := x1) (x2 := x2) (x3 := x3) (y1 := y1) (y2 := y2) (y3 := y3); eassumption.
    +
      pose proof (add_kind _ _ HA HF) as K4. destruct (kindof (x1, y1) (X3, Y3)) eqn:Q4; cbn [added fst snd] in K4;
        [destruct K4 as (K4a & K4b & ->) | destruct K4 as (i4 & l4 & X4 & Y4 & K4' & ->) | destruct K4 as (i4 & l4 & X4 & Y4 & K4' & ->)].
      * open_T; exfalso; apply (f_1_neq_0 K HK); eapply c_CDDN with (X1 := X1) (X2 := X2) (X3 := X3) (Y1 := Y1) (Y2 := Y2) (Y3 := Y3) (i1 := i1) (i2 := i2) (i3 := i3) (l1 := l1) (l2 := l2) (l3 := l3) (x1 := x1) (x2 := x2) (x3 := x3) (y1 := y1) (y2 := y2) (y3 := y3); eassumption.
      * discriminate G.
      * open_T; apply pair_eq; eapply c_CDDC with (X1 := X1) (X2 := X2) (X3 := X3) (X4 := X4) (Y1 := Y1) (Y2 := Y2) (Y3 := Y3) (Y4 := Y4) (i1 := i1) (i2 := i2) (i3 := i3) (i4 := i4) (l1 := l1) (l2 := l2) (l3 := l3) (l4 := l4) (x1 := x1) (x2 := x2) (x3 := x3) (y1 := y1) (y2 := y2) (y3 := y3); eassumption.
    +
      pose proof (add_kind _ _ HA HF) as K4. destruct (kindof (x1, y1) (X3, Y3)) eqn:Q4; cbn [added fst snd] in K4;
        [destruct K4 as (K4a & K4b & ->) | destruct K4 as (i4 & l4 & X4 & Y4 & K4' & ->) | destruct K4 as (i4 & l4 & X4 & Y4 & K4' & ->)].
      * open_T; exfalso; apply (f_1_neq_0 K HK); eapply c_CCDN with (X1 := X1) (X2 := X2) (X3 := X3) (Y1 := Y1) (Y2 := Y2) (Y3 := Y3) (i1 := i1) (i2 := i2) (i3 := i3) (l1 := l1) (l2 := l2) (l3 := l3) (x1 := x1) (x2 := x2) (x3 := x3) (y1 := y1) (y2 := y2) (y3 := y3); eassumption.
      * discriminate G.
      * open_T; apply pair_eq; eapply c_CCDC with (X1 := X1) (X2 := X2) (X3 := X3) (X4 := X4) (Y1 := Y1) (Y2 := Y2) (Y3 := Y3) (Y4 := Y4) (i1 := i1) (i2 := i2) (i3 := i3) (i4 := i4) (l1 := l1) (l2 := l2) (l3 := l3) (l4 := l4) (x1 := x1) (x2 := x2) (x3 := x3) (y1 := y1) (y2 := y2) (y3 := y3); eassumption.
  - (* C C *)
    pose proof (add_kind _ _ HD HC) as K2. destruct (kindof (X1, Y1) (x3, y3)) eqn:Q2; cbn [added fst snd] in K2;
      [destruct K2 as (K2a & K2b & ->) | destruct K2 as (i2 & l2 & X2 & Y2 & K2' & ->) | destruct K2 as (i2 & l2 & X2 & Y2 & K2' & ->)].
    +
      pose proof (add_kind _ _ HA HF) as K4. destruct (kindof (x1, y1) (X3, Y3)) eqn:Q4; cbn [added fst snd] in K4;
        [destruct K4 as (K4a & K4b & ->) | destruct K4 as (i4 & l4 & X4 & Y4 & K4' & ->) | destruct K4 as (i4 & l4 & X4 & Y4 & K4' & ->)].
      * reflexivity.
      * open_T; exfalso; apply (f_1_neq_0 K HK); eapply c_CNCD with (X1 := X1) (X3 := X3) (X4 := X4) (Y1 := Y1) (Y3 := Y3) (Y4 := Y4) (i1 := i1) (i3 := i3) (i4 := i4) (l1 := l1) (l3 := l3) (l4 := l4) (x1 := x1) (x2 := x2) (x3 := x3) (y1 := y1) (y2 := y2) (y3 := y3); eassumption.
      * open_T; exfalso; apply (f_1_neq_0 K HK); eapply c_CNCC with (X1 := X1) (X3 := X3) (X4 := X4) (Y1 := Y1) (Y3 := Y3) (Y4 := Y4) (i1 := i1) (i3 := i3) (i4 := i4) (l1 := l1) (l3 := l3) (l4 := l4) (x1 := x1) (x2 := x2) (x3 := x3) (y1 := y1) (y2 := y2) (y3 := y3); eassumption.
    +
      pose proof (add_kind _ _ HA HF) as K4. destruct (kindof (x1, y1) (X3, Y3)) eqn:Q4; cbn [added fst snd] in K4;
        [destruct K4 as (K4a & K4b & ->) | destruct K4 as (i4 & l4 & X4 & Y4 & K4' & ->) | destruct K4 as (i4 & l4 & X4 & Y4 & K4' & ->)].
      * open_T; exfalso; apply (f_1_neq_0 K HK); eapply c_CDCN with (X1 := X1) (X2 := X2) (X3 := X3) (Y1 := Y1) (Y2 := Y2) (Y3 := Y3) (i1 := i1) (i2 := i2) (i3 := i3) (l1 := l1) (l2 := l2) (l3 := l3) (x1 := x1) (x2 := x2) (x3 := x3) (y1 := y1) (y2 := y2) (y3 := y3); eassumption.
      * discriminate G.
      * apply pair_eq. eapply case_CDCC; [exact HA | exact HB | exact K1' | exact K2' | exact K3' | exact K4'].
    +
      pose proof (add_kind _ _ HA HF) as K4. destruct (kindof (x1, y1) (X3, Y3)) eqn:Q4; cbn [added fst snd] in K4;
        [destruct K4 as (K4a & K4b & ->) | destruct K4 as (i4 & l4 & X4 & Y4 & K4' & ->) | destruct K4 as (i4 & l4 & X4 & Y4 & K4' & ->)].
      * open_T; exfalso; apply (f_1_neq_0 K HK); eapply c_CCCN with (X1 := X1) (X2 := X2) (X3 := X3) (Y1 := Y1) (Y2 := Y2) (Y3 := Y3) (i1 := i1) (i2 := i2) (i3 := i3) (l1 := l1) (l2 := l2) (l3 := l3) (x1 := x1) (x2 := x2) (x3 := x3) (y1 := y1) (y2 := y2) (y3 := y3); eassumption.
      * discriminate G.
      * open_T; apply pair_eq; eapply c_CCCC with (X1 := X1) (X2 := X2) (X3 := X3) (X4 := X4) (Y1 := Y1) (Y2 := Y2) (Y3 := Y3) (Y4 := Y4) (i1 := i1) (i2 := i2) (i3 := i3) (i4 := i4) (l1 := l1) (l2 := l2) (l3 := l3) (l4 := l4) (x1 := x1) (x2 := x2) (x3 := x3) (y1 := y1) (y2 := y2) (y3 := y3); eassumption.
Qed.

Lemma kinds_swap : forall A B C, kinds A B C bad = true ->
  kinds C B A bad = false \/ (okind A B = Some KC /\ okind (add A B) C = Some KD /\ okind B C = Some KC /\ okind A (add B C) = Some KD).
Proof.
  intros A B C H. unfold kinds in *. rewrite (okind_sym C B), (okind_sym B A), (okind_sym (add C B)), (okind_sym C), (add_comm C B), (add_comm B A).
  destruct (okind A B) as [[ | | ] | ]; cbn [bad] in H; try discriminate H;
  destruct (okind (add A B) C) as [[ | | ] | ]; cbn [bad] in H; try discriminate H;
  destruct (okind B C) as [[ | | ] | ]; cbn [bad] in H; try discriminate H;
  destruct (okind A (add B C)) as [[ | | ] | ]; cbn [bad] in H; try discriminate H; auto.
Qed.
Lemma okind_D : forall P Q, on P -> on Q -> okind P Q = Some KD -> P = Q.
Proof.
  intros [[x1 y1] | ] [[x2 y2] | ] HP HQ H; try discriminate H. cbn [okind] in H. inversion H as [E].
  pose proof (add_kind _ _ HP HQ) as A. rewrite E in A. cbn [added fst snd] in A. destruct A as (i & l & x3 & y3 & (-> & -> & _) & _). auto.
Qed.
Lemma okind_neg : forall P, okind P (pneg P) = Some KN \/ okind P (pneg P) = None.
Proof.
  intros [[x y] | ]; auto. left. cbn [pneg okind]. f_equal. unfold kindof. cbn [fst snd]. rewrite (feqb_refl K HK). cbn [negb].
  destruct (f_eq_dec K HK y (- y)) as [E | N].
  - rewrite (half_0 y E). rewrite !(feqb_refl K HK). rewrite andb_false_r. auto.
  - rewrite (feqb_false K HK y) by auto. auto.
Qed.
(** cancellation, from the good cases *)
Lemma cancel_r : forall P Q, on P -> on Q -> add (add P Q) (pneg Q) = P.
Proof.
  intros P Q HP HQ. rewrite assoc_good; auto.
  - rewrite add_neg_r. apply add_0_r.
  - apply neg_on; auto.
  - unfold kinds. destruct (okind_neg Q) as [-> | ->]; destruct (okind P Q) as [[ | | ] | ]; auto; cbn [bad];
      destruct (okind (add P Q) (pneg Q)) as [[ | | ] | ]; auto.
Qed.
Lemma pneg_fix : forall x y : K, Some (x, y) = pneg (Some (x, y)) -> y = 0.
Proof. intros x y H. cbn [pneg] in H. injection H as E. apply half_0. exact E. Qed.

Theorem add_assoc : forall A B C, on A -> on B -> on C -> add (add A B) C = add A (add B C).
Proof.
  intros A B C HA HB HC. destruct (kinds A B C bad) eqn:BK; [ | apply assoc_good; auto].
  destruct (kinds_swap A B C BK) as [SW | (Q1 & Q2 & Q3 & Q4)].
  - pose proof (assoc_good C B A HC HB HA SW) as E. rewrite (add_comm C B), (add_comm B A) in E.
    rewrite (add_comm (add A B) C), (add_comm A (add B C)). auto.
  - pose proof (okind_D _ _ (add_on _ _ HA HB) HC Q2) as EC. pose proof (okind_D _ _ HA (add_on _ _ HB HC) Q4) as EA.
    (* A = B + C and C = A + B force B = -B *)
    assert (EB : B = pneg B).
    { transitivity (add (add B C) (pneg C)); [symmetry; apply cancel_r; auto | ].
      transitivity (add (add (pneg B) C) (pneg C)); [ | apply cancel_r; auto; apply neg_on; auto].
      f_equal. rewrite <- EA. rewrite (add_comm (pneg B) C), <- EC. symmetry. apply cancel_r; auto. }
    destruct A as [[x1 y1] | ], B as [[x2 y2] | ], C as [[x3 y3] | ]; try discriminate Q1; try discriminate Q3.
    apply pneg_fix in EB.
    pose proof (add_kind _ _ HA HB) as K1. pose proof (add_kind _ _ HB HC) as K3.
    cbn [okind] in Q1, Q3. inversion Q1 as [R1]. inversion Q3 as [R3]. rewrite R1 in K1. rewrite R3 in K3. cbn [added fst snd] in K1, K3.
    destruct K1 as (i1 & l1 & X1 & Y1 & K1' & K1). destruct K3 as (i3 & l3 & X3 & Y3 & K3' & K3).
    pose proof (add_on _ _ HA HB) as HD. pose proof (add_on _ _ HB HC) as HF.
    rewrite K1, K3 in *. cbn [okind] in Q2, Q4. inversion Q2 as [R2]. inversion Q4 as [R4].
    pose proof (add_kind _ _ HD HC) as K2. rewrite R2 in K2. pose proof (add_kind _ _ HA HF) as K4. rewrite R4 in K4.
    cbn [added fst snd] in K2, K4. destruct K2 as (i2 & l2 & X2 & Y2 & K2' & ->). destruct K4 as (i4 & l4 & X4 & Y4 & K4' & ->).
    pose proof HA as HA'. pose proof HB as HB'. pose proof HC as HC'. cbn [on_curve] in HA', HB', HC'. unfold rhs in HA', HB', HC'.
    pose proof CC2 as C2'. pose proof Hdd as Hdd'.
    open_T; apply pair_eq; eapply c_CDCD with (X1 := X1) (X2 := X2) (X3 := X3) (X4 := X4) (Y1 := Y1) (Y2 := Y2) (Y3 := Y3) (Y4 := Y4) (i1 := i1) (i2 := i2) (i3 := i3) (i4 := i4) (l1 := l1) (l2 := l2) (l3 := l3) (l4 := l4) (x1 := x1) (x2 := x2) (x3 := x3) (y1 := y1) (y2 := y2) (y3 := y3); eassumption.
Qed.
End S.
