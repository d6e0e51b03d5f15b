(** gf32m and gf33m on any implementation of a field of characteristic 3, and
    the final exponentiation of the eta_T pairing. *)
From Coq Require Import ZArith List Bool Lia Arith Ring Field Znumtheory.
From Verif.Base Require Import Outcome Algebra Slots.
From Verif.Spec Require Import FiniteField Polynomials Quadratic Extension Ternary TernaryTower.
From Verif.Model Require Import GF3m GF3Tower EtaT3.
From Verif.Proofs Require Import PowFacts FieldFacts SlotFacts RootFacts QuadFacts ExtFacts BilinearZ TowerAlgebra TowerFields.
Import ListNotations.
Open Scope nat_scope.

(** [rep c x]: c stores the element x of K; r returns such a c. *)
Definition stores {A : Type} {K : Type} (rep : A -> K -> Prop) (r : res A) (x : K) : Prop := exists c, r = Ok c /\ rep c x.
Lemma stores_bind : forall A B (K L : Type) (ra : A -> K -> Prop) (rb : B -> L -> Prop) r k x y,
  stores ra r x -> (forall c, ra c x -> stores rb (k c) y) -> stores rb (bind r k) y.
Proof. intros A B K L ra rb r k x y (c & -> & R) H. cbn [bind]. auto. Qed.
Lemma stores_ok : forall A (K : Type) (ra : A -> K -> Prop) c x, ra c x -> stores ra (Ok c) x.
Proof. intros. exists c. auto. Qed.
Lemma rep_eq : forall A (K : Type) (ra : A -> K -> Prop) c x y, ra c x -> x = y -> ra c y. Proof. intros. subst. auto. Qed.

(** The operations of F compute those of K. *)
Record implements (F : gfops) (K : fld) (rep : car F -> K -> Prop) : Prop := {
  i_0 : stores rep o_set0 f0;
  i_1 : stores rep o_set1 f1;
  i_add : forall a b x y, rep a x -> rep b y -> stores rep (o_add a b) (fadd x y);
  i_sub : forall a b x y, rep a x -> rep b y -> stores rep (o_sub a b) (fsub x y);
  i_mul : forall a b x y, rep a x -> rep b y -> stores rep (o_mul a b) (fmul x y);
  i_cubic : forall a x, rep a x -> stores rep (o_cubic a) (fmul x (fmul x x));
  i_cmp : forall a b x y, rep a x -> rep b y -> exists r, o_cmp a b = Ok r /\ (r = 0%Z <-> x = y) }.
Definition implements_neg (F : gfops) (K : fld) (rep : car F -> K -> Prop) : Prop :=
  forall p a x, rep a x -> stores rep (o_neg p a) (fopp x).
Definition implements_inv (F : gfops) (K : fld) (rep : car F -> K -> Prop) : Prop :=
  forall a x, rep a x -> x <> f0 -> stores rep (o_invert a) (finv x).

Ltac step I N :=
  eapply stores_bind;
  [ first [ eapply (i_mul _ _ _ I); eassumption | eapply (i_add _ _ _ I); eassumption | eapply (i_sub _ _ _ I); eassumption
          | eapply (i_cubic _ _ _ I); eassumption | eapply N; eassumption | exact (i_0 _ _ _ I) | exact (i_1 _ _ _ I) ]
  | let c := fresh "c" in let R := fresh "R" in intros c R; cbv beta ].

Section T.
Variables (F : gfops) (K : fld) (rep : car F -> K -> Prop).
Hypothesis HK : fld_laws K.
Hypothesis C3 : fadd (fadd f1 f1) f1 = (f0 : K).
Hypothesis I : implements F K rep.
Let RK : ring_theory (f0 : K) f1 fadd fmul fsub fopp eq := F_R (fl_field K HK).
Add Ring KR3t : RK (morphism (t_morph K RK C3), constants [t_const]).
Local Notation "x + y" := (@fadd K x y). Local Notation "x * y" := (@fmul K x y). Local Notation "x - y" := (@fsub K x y). Local Notation "- x" := (@fopp K x).

Definition rep2 (a : car (gf32m_ops F)) (x : GF32m K) : Prop := rep (fst a) (fst x) /\ rep (snd a) (snd x).
Definition rep3 (a : car (gf33m_ops F)) (x : GF33m K) : Prop := rep (g_0 a) (vcoef x 0) /\ rep (g_1 a) (vcoef x 1) /\ rep (g_2 a) (vcoef x 2).

Lemma cmp_two : forall (x y x' y' : K), (x = x' /\ y = y') <-> (x, y) = (x', y').
Proof. intros. split; [intros (-> & ->); auto | intro H; inversion H; auto]. Qed.
Lemma impl2 : implements_neg F K rep -> implements (gf32m_ops F) (GF32m K) rep2.
Proof.
  intro N. constructor.
  - cbn [gf32m_ops o_set0]. unfold gf32m_set0. do 2 step I N. apply stores_ok. split; auto.
  - cbn [gf32m_ops o_set1]. unfold gf32m_set1. do 2 step I N. apply stores_ok. split; auto.
  - intros a b x y (A & B) (A' & B'). cbn [gf32m_ops o_add]. unfold gf32m_add. do 2 step I N. apply stores_ok. split; auto.
  - intros a b x y (A & B) (A' & B'). cbn [gf32m_ops o_sub]. unfold gf32m_sub. do 2 step I N. apply stores_ok. split; auto.
  - intros [a0 a1] [b0 b1] [x0 x1] [y0 y1] (A & B) (A' & B'). cbn [fst snd] in *. cbn [gf32m_ops o_mul]. unfold gf32m_mult.
    do 8 step I N. apply stores_ok. split; eapply rep_eq; try eassumption; cbn -[fadd fmul fsub fopp f1]; change (@fmul (GF32m K)) with (qmul K (- f1)); cbn [qmul fst snd]; ring.
  - intros [a0 a1] [x0 x1] (A & B). cbn [fst snd] in *. cbn [gf32m_ops o_cubic]. unfold gf32m_cubic. cbn [fst snd].
    do 3 step I N. apply stores_ok. split; eapply rep_eq; try eassumption; change (@fmul (GF32m K)) with (qmul K (- f1)); cbn [qmul fst snd]; ring.
  - intros [a0 a1] [b0 b1] [x0 x1] [y0 y1] (A & B) (A' & B'). cbn [fst snd] in *. cbn [gf32m_ops o_cmp]. unfold gf32m_cmp. cbn [fst snd].
    destruct (i_cmp _ _ _ I _ _ _ _ A A') as (r & E & R). rewrite E. cbn [bind]. destruct (Z.eqb_spec r 0) as [Z | Z]; cbn [negb].
    + destruct (i_cmp _ _ _ I _ _ _ _ B B') as (r' & E' & R'). rewrite E'. cbn [bind]. eexists. split; [reflexivity | ].
      destruct (Z.eqb_spec r' 0) as [Z' | Z']; cbn [negb].
      * split; auto. intros _. apply cmp_two. split; [apply R | apply R']; auto.
      * split; [discriminate | ]. intro H. inversion H. tauto.
    + eexists. split; [reflexivity | ]. split; [discriminate | ]. intro H. inversion H. tauto.
Qed.
Lemma neg2 : implements_neg F K rep -> implements_neg (gf32m_ops F) (GF32m K) rep2.
Proof. intros N p a x (A & B). cbn [gf32m_ops o_neg]. unfold gf32m_neg. do 2 step I N. apply stores_ok. split; auto. Qed.
Lemma mul3_coefs : forall (x y : GF33m K), let x0 := vcoef x 0 in let x1 := vcoef x 1 in let x2 := vcoef x 2 in
  let y0 := vcoef y 0 in let y1 := vcoef y 1 in let y2 := vcoef y 2 in
  vcoef (fmul x y) 0 = x0 * y0 + (x1 * y2 + x2 * y1) /\ vcoef (fmul x y) 1 = x0 * y1 + x1 * y0 + (x1 * y2 + x2 * y1) + x2 * y2 /\
  vcoef (fmul x y) 2 = x0 * y2 + x1 * y1 + x2 * y0 + x2 * y2.
Proof. intros. rewrite (elt3_eta K x), (elt3_eta K y), (elt3_mul K HK C3). split; [ | split]; reflexivity. Qed.
Lemma cube3_coefs : forall (x : GF33m K), let x0 := vcoef x 0 in let x1 := vcoef x 1 in let x2 := vcoef x 2 in let e := fmul x (fmul x x) in
  vcoef e 0 = x0 * (x0 * x0) + x1 * (x1 * x1) + x2 * (x2 * x2) /\ vcoef e 1 = x1 * (x1 * x1) - x2 * (x2 * x2) /\ vcoef e 2 = x2 * (x2 * x2).
Proof. intros. unfold e. rewrite (elt3_eta K x), (elt3_cube K HK C3). split; [ | split]; reflexivity. Qed.
Lemma coefs3_eq : forall x y : GF33m K, vcoef x 0 = vcoef y 0 -> vcoef x 1 = vcoef y 1 -> vcoef x 2 = vcoef y 2 -> x = y.
Proof. intros x y A B C. rewrite (elt3_eta K x), (elt3_eta K y). congruence. Qed.
Lemma impl3 : implements (gf33m_ops F) (GF33m K) rep3.
Proof.
  pose (N := i_0 _ _ _ I). constructor.
  - cbn [gf33m_ops o_set0]. unfold gf33m_set0. do 3 step I N. apply stores_ok. split; [ | split]; auto.
  - cbn [gf33m_ops o_set1]. unfold gf33m_set1. do 3 step I N. apply stores_ok. split; [ | split]; auto.
  - intros a b x y (A & B & C) (A' & B' & C'). cbn [gf33m_ops o_add]. unfold gf33m_add. do 3 step I N. apply stores_ok. split; [ | split]; auto.
  - intros a b x y (A & B & C) (A' & B' & C'). cbn [gf33m_ops o_sub]. unfold gf33m_sub. do 3 step I N. apply stores_ok. split; [ | split]; auto.
  - intros [a0 a1 a2] [b0 b1 b2] x y (A & B & C) (A' & B' & C'). cbn [g_0 g_1 g_2] in *. cbn [gf33m_ops o_mul]. unfold gf33m_mult.
    destruct (mul3_coefs x y) as (E0 & E1 & E2). do 23 step I N. apply stores_ok. unfold rep3. cbn [g_0 g_1 g_2]. rewrite E0, E1, E2.
    split; [ | split]; (eapply rep_eq; [eassumption | ring]).
  - intros [a0 a1 a2] x (A & B & C). cbn [g_0 g_1 g_2] in *. cbn [gf33m_ops o_cubic]. unfold gf33m_cubic. cbn [g_0 g_1 g_2].
    do 6 step I N. apply stores_ok. unfold rep3. cbn [g_0 g_1 g_2]. destruct (cube3_coefs x) as (E0 & E1 & E2). rewrite E0, E1, E2.
    split; [ | split]; (eapply rep_eq; [eassumption | ring]).
  - intros [a0 a1 a2] [b0 b1 b2] x y (A & B & C) (A' & B' & C'). cbn [g_0 g_1 g_2] in *. cbn [gf33m_ops o_cmp]. unfold gf33m_cmp. cbn [g_0 g_1 g_2].
    destruct (i_cmp _ _ _ I _ _ _ _ A A') as (r & E & R). rewrite E. cbn [bind]. destruct (Z.eqb_spec r 0) as [Z | Z]; cbn [negb].
    + destruct (i_cmp _ _ _ I _ _ _ _ B B') as (r' & E' & R'). rewrite E'. cbn [bind]. destruct (Z.eqb_spec r' 0) as [Z' | Z']; cbn [negb].
      * destruct (i_cmp _ _ _ I _ _ _ _ C C') as (r2 & E2 & R2). rewrite E2. cbn [bind]. eexists. split; [reflexivity | ]. destruct (Z.eqb_spec r2 0) as [Z2 | Z2]; cbn [negb].
        -- split; auto. intros _. apply coefs3_eq; tauto.
        -- split; [discriminate | ]. intros <-. tauto.
      * eexists. split; [reflexivity | ]. split; [discriminate | ]. intros <-. tauto.
    + eexists. split; [reflexivity | ]. split; [discriminate | ]. intros <-. tauto.
Qed.
(** Inversion, when z^3 - z - 1 is irreducible. *)
Definition norm3 (a b c : K) : K := (a - c) * (a * a) + (b - a) * (b * b) + (c - (b - a)) * (c * c).
Lemma norm3_mul : forall a b c a' b' c' : K,
  norm3 (a * a' + (b * c' + c * b')) (a * b' + b * a' + (b * c' + c * b') + c * c') (a * c' + b * b' + c * a' + c * c') = norm3 a b c * norm3 a' b' c'.
Proof. intros. unfold norm3. ring. Qed.
Lemma norm3_nz : irreducible (z3_z_1 K) -> forall x : GF33m K, x <> f0 -> norm3 (vcoef x 0) (vcoef x 1) (vcoef x 2) <> f0.
Proof.
  intros Irr x NZ E. assert (HL : fld_laws (GF33m K)) by exact (Ext_laws K HK 3 (z3_z_1 K) (z_monic K) lt03 Irr).
  assert (W : fmul (finv x) x = (f1 : GF33m K)) by exact (Finv_l (fl_field _ HL) x NZ). destruct (mul3_coefs (finv x) x) as (E0 & E1 & E2). cbv zeta in *. rewrite W in E0, E1, E2.
  pose proof (norm3_mul (vcoef (finv x) 0) (vcoef (finv x) 1) (vcoef (finv x) 2) (vcoef x 0) (vcoef x 1) (vcoef x 2)) as M.
  rewrite <- E0, <- E1, <- E2, E in M. apply (f_1_neq_0 K HK). change (norm3 f1 f0 f0 = norm3 (vcoef (finv x) 0) (vcoef (finv x) 1) (vcoef (finv x) 2) * f0) in M.
  transitivity (norm3 f1 f0 f0); [unfold norm3; ring | rewrite M; ring].
Qed.
Lemma inv3 : irreducible (z3_z_1 K) -> implements_inv F K rep -> implements_inv (gf33m_ops F) (GF33m K) rep3.
Proof.
  intros Irr V. pose (N := i_0 _ _ _ I). assert (HL : fld_laws (GF33m K)) by exact (Ext_laws K HK 3 (z3_z_1 K) (z_monic K) lt03 Irr).
  intros [a0 a1 a2] x (A & B & C) NZ. cbn [g_0 g_1 g_2] in *. cbn [gf33m_ops o_invert]. unfold gf33m_invert.
  do 11 step I N. pose proof (norm3_nz Irr x NZ) as D. set (x0 := vcoef x 0) in *. set (x1 := vcoef x 1) in *. set (x2 := vcoef x 2) in *.
  match goal with H : rep ?c ((x0 - x2) * _ + _ + _) |- _ => change (rep c (norm3 x0 x1 x2)) in H end.
  eapply stores_bind; [eapply V; eassumption | intros]. do 13 step I N. apply stores_ok.
  set (d := finv (norm3 x0 x1 x2)) in *.
  set (y := (elt3 ((x0 * x0 + x2 * x2 - x0 * x2 - x1 * (x1 + x2)) * d) ((x2 * x2 - x0 * x1) * d) ((x1 * x1 - x0 * x2 - x2 * x2) * d) : GF33m K)).
  assert (Y : y = finv x).
  { assert (P : fmul y x = f1).
    { rewrite (elt3_eta K x). fold x0 x1 x2. unfold y. rewrite (elt3_mul K HK C3), (elt3_1 K).
      pose proof (Finv_l (fl_field K HK) (norm3 x0 x1 x2) D) as U. fold d in U. f_equal; [ | unfold norm3; ring ..].
      rewrite <- U. unfold norm3. ring. }
    apply (f_cancel (GF33m K) HL x); auto. rewrite !(Rmul_comm (F_R (fl_field (GF33m K) HL)) x), P. symmetry. exact (Finv_l (fl_field (GF33m K) HL) x NZ). }
  rewrite <- Y. split; [ | split]; assumption.
Qed.
End T.
