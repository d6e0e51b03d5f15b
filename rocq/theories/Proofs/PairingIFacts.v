(** Type I: points, scalars, random points, products and bilinearity of the
    stored pairing. *)
From Coq Require Import ZArith List Bool Lia Arith Ring Field.
From Verif.Base Require Import Outcome Array Algebra Slots.
From Verif.Spec Require Import FiniteField Polynomials Curve Quadratic Extension Ternary TernaryTower TernaryValues EtaT TernaryPoints.
From Verif.Model Require Import GenericPow GF3m GF3Tower EtaT3 PairingI.
From Verif.Proofs Require Import PowFacts PowWitness PowRel FieldFacts CurveGroup CurveFacts BilinearZ GF3mBits GF3mPoly GF3mMain TowerAlgebra TowerFields TowerFacts EtaFinal EtaLoop EtaMain TernaryCurve EtaInst.
From Verif.Model Require Import EtaT3 PairingI.
Import ListNotations.
Open Scope nat_scope.

Section P.
Variables (F : gfops) (K : fld) (rep : car F -> K -> Prop).
Hypothesis HK : fld_laws K.
Hypothesis C3 : fadd (fadd f1 f1) f1 = (f0 : K).
Hypothesis I : implements F K rep.
Hypothesis N : implements_neg F K rep.
Hypothesis V : implements_inv F K rep.
Let RK : ring_theory (f0 : K) f1 fadd fmul fsub fopp eq := F_R (fl_field K HK).
Add Field KF3p : (fl_field K HK) (morphism (t_morph K RK C3), constants [t_const]).
Definition rep_pt (a : pt F) (P : point K) : Prop :=
  match a, P with None, None => True | Some (c, d), Some (x, y) => rep c x /\ rep d y | _, _ => False end.
Local Notation "x + y" := (fadd x y). Local Notation "x - y" := (fsub x y). Local Notation "x * y" := (fmul x y). Local Notation "- x" := (fopp x).

Lemma cmpP : forall a b P Q, rep_pt a P -> rep_pt b Q -> exists r, point_cmp F a b = Ok r /\ (r = 0%Z <-> P = Q).
Proof.
  intros [[c d] | ] [[c' d'] | ] [[x y] | ] [[x' y'] | ]; cbn [rep_pt]; try contradiction.
  - intros (A & B) (A' & B'). cbn [point_cmp].
    destruct (i_cmp _ _ _ I _ _ _ _ A A') as (r & E & R). rewrite E. cbn [bind]. destruct (Z.eqb_spec r 0) as [Z | Z]; cbn [negb].
    + destruct (i_cmp _ _ _ I _ _ _ _ B B') as (r' & E' & R'). rewrite E'. cbn [bind]. eexists. split; [reflexivity | ].
      apply R in Z. destruct (Z.eqb_spec r' 0) as [Z' | Z']; cbn [negb].
      * apply R' in Z'. subst. tauto.
      * split; [discriminate | ]. intro H. inversion H. elim Z'. apply R'. auto.
    + exists 1%Z. split; [auto | ]. split; [discriminate | ]. intro H. inversion H. elim Z. apply R. auto.
  - intros. exists 1%Z. split; [auto | ]. split; discriminate.
  - intros. exists 1%Z. split; [auto | ]. split; discriminate.
  - intros. exists 0%Z. split; [auto | ]. tauto.
Qed.
Lemma negP : forall a P, rep_pt a P -> stores rep_pt (point_invert F a) (pneg P).
Proof.
  intros [[c d] | ] [[x y] | ]; cbn [rep_pt]; try contradiction.
  - intros (A & B). cbn [point_invert]. step I N. apply stores_ok. split; auto.
  - intros _. apply stores_ok. exact Logic.I.
Qed.
Lemma chord_y : forall x1 y1 x2 y2 l : K, l * (x2 - x1) = y2 - y1 -> (y1 + y2) - l * (l * l) = l * (x1 - (l * l - x1 - x2)) - y1.
Proof. intros x1 y1 x2 y2 l H. assert (E : y2 = y1 + l * (x2 - x1)) by (rewrite H; ring). rewrite E. ring. Qed.
Lemma addP : forall a b P Q, rep_pt a P -> rep_pt b Q -> tp_on K P -> tp_on K Q -> stores rep_pt (point_add F a b) (tp_add K P Q).
Proof.
  intros [[c1 d1] | ] [[c2 d2] | ] [[x1 y1] | ] [[x2 y2] | ]; cbn [rep_pt]; try contradiction; try (intros; apply stores_ok; cbn; auto; fail).
  intros (A1 & B1) (A2 & B2) O1 O2. cbn [point_add].
  set (ch := bind (o_sub c2 c1) _).
  assert (CH : x1 <> x2 -> stores rep_pt ch (third K (fdiv (y2 - y1) (x2 - x1)) x1 y1 x2)).
  { intro D. assert (D' : x2 - x1 <> f0) by (intro E; apply D; symmetry; apply (f_sub_0 K HK); auto).
    unfold ch. step I N. eapply stores_bind; [eapply V; eassumption | intros v1 R1; cbv beta].
    do 8 step I N. apply stores_ok. rewrite third_eq. cbn [rep_pt].
    split; (eapply rep_eq; [eassumption | ]).
    - rewrite (Fdiv_def (fl_field K HK)). ring.
    - rewrite (Fdiv_def (fl_field K HK)). set (l := (y2 - y1) * finv (x2 - x1)).
      refine (chord_y x1 y1 x2 y2 l _). unfold l. field. exact D'. }
  destruct (i_cmp _ _ _ I _ _ _ _ A1 A2) as (r & E & R). rewrite E. cbn [bind].
  destruct (Z.eqb_spec r 0) as [Zr | Zr]; cbn [negb].
  2:{ assert (D : x1 <> x2) by (intro X; apply Zr; apply R; auto). unfold tp_add. rewrite (add_diff K HK) by auto. apply CH; auto. }
  apply R in Zr. clear E R r CH. subst x2.
  eapply stores_bind; [eapply N; exact B2 | intros ny2 R2; cbv beta].
  destruct (i_cmp _ _ _ I _ _ _ _ B1 R2) as (r & E & R). rewrite E. cbn [bind]. clear E.
  destruct (Z.eqb_spec r 0) as [Zr | Zr].
  { apply R in Zr. apply stores_ok. assert (X : tp_add K (Some (x1, y1)) (Some (x1, y2)) = None).
    { unfold tp_add. replace y2 with (- y1) by (rewrite Zr; ring). apply (add_opp K HK C3). }
    rewrite X. exact Logic.I. }
  assert (NE : y1 <> - y2) by (intro X; apply Zr; apply R; auto). clear R Zr r.
  assert (Y : y1 = y2).
  { destruct (f_eq_dec K HK y1 y2) as [X | X]; auto. exfalso.
    assert (M : (y1 - y2) * (y1 + y2) = f0).
    { pose proof (on_eq K HK C3 _ _ O1) as E1. pose proof (on_eq K HK C3 _ _ O2) as E2.
      transitivity (y1 * y1 - y2 * y2); [ring | rewrite E1, E2; ring]. }
    destruct (f_integral K HK _ _ M) as [G | G].
    - apply X. apply (f_sub_0 K HK). exact G.
    - apply NE. transitivity ((y1 + y2) - y2); [ring | rewrite G; ring]. }
  subst y2. destruct (i_cmp _ _ _ I _ _ _ _ B1 B2) as (r & E & R). rewrite E. cbn [bind].
  assert (Zr : r = 0%Z) by (apply R; auto). subst r. cbn [Z.eqb negb].
  assert (NZ : y1 <> f0) by (intro X; apply NE; rewrite X; ring).
  eapply stores_bind; [eapply V; eassumption | intros v0 R0; cbv beta]. do 4 step I N.
  eapply stores_bind; [eapply N; eassumption | intros y3 RY; cbv beta]. apply stores_ok.
  unfold tp_add. rewrite (add_same K HK C3) by auto. rewrite third_eq. cbn [rep_pt].
  split; (eapply rep_eq; [eassumption | ]); rewrite (Fdiv_def (fl_field K HK)); ring.
Qed.
Lemma res_pow_rel : forall (A X : Type) (ra : A -> X -> Prop) (one : res A) (mul : A -> A -> res A) (G : monoid) (f : G -> X), monoid_laws G ->
  stores ra one (f (mone G)) -> (forall a b (x y : G), ra a (f x) -> ra b (f y) -> stores ra (mul a b) (f (mmul G x y))) ->
  forall a (x : G) n, (0 <= n)%Z -> ra a (f x) -> stores ra (res_pow one mul a n) (f (zpow x n)).
Proof.
  intros A X ra one mul G f HG R1 RM a x n Hn Ha. unfold res_pow.
  pose proof (pow_rel (res_monoid one mul) G (fun u g => stores ra u (f g)) R1) as T.
  specialize (T ltac:(intros u v g g' (c & -> & Hc) (c' & -> & Hc'); cbn [res_monoid mmul bind]; auto) (Ok a) x n (stores_ok _ _ _ _ _ Ha)).
  rewrite (pow_correct G) in T by auto. destruct (generic_pow_mpz (res_monoid one mul) (Ok a) n); cbn in T; try contradiction. exact T.
Qed.
Lemma powP : forall a P n, (0 <= n)%Z -> rep_pt a P -> tp_on K P -> stores rep_pt (res_pow (Ok None) (point_add F) a n) (tp_mul K n P).
Proof.
  intros a P n Hn Ha HP. pose proof (t_elliptic K HK C3) as EL.
  set (G := cgroup K HK (fopp f1) f1 (proj1 EL)).
  pose proof (res_pow_rel _ _ rep_pt (Ok None) (point_add F) G (fun g => proj1_sig g) (cgroup_laws K HK (fopp f1) f1 (proj1 EL) (proj2 EL))) as T.
  specialize (T (stores_ok _ _ rep_pt None None Logic.I)).
  specialize (T ltac:(intros a' b' x y Ha' Hb'; exact (addP a' b' _ _ Ha' Hb' (cp_on K HK _ _ x) (cp_on K HK _ _ y)))).
  specialize (T a (cp_mk K HK (fopp f1) f1 P HP) n Hn Ha). unfold G in T. rewrite (zpow_pzmul K HK (fopp f1) f1) in T by auto. exact T.
Qed.
Lemma powF : forall a x n, (0 <= n)%Z -> rep a x -> stores rep (res_pow o_set1 o_mul a n) (fpow x n).
Proof.
  intros a x n Hn Ha.
  exact (res_pow_rel _ _ rep o_set1 o_mul (mul_monoid K) (fun g => g) (mul_monoid_laws K HK) (i_1 _ _ _ I)
    (fun a b x y A B => i_mul _ _ _ I a b x y A B) a x n Hn Ha).
Qed.
End P.
