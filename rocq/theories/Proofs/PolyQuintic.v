(** Quintics without roots and quadratic factors. *)
From Coq Require Import ZArith List Bool Lia Arith Ring Field Setoid Morphisms.
From Verif.Base Require Import Outcome Array Algebra Slots.
From Verif.Spec Require Import Polynomials.
From Verif.Proofs Require Import FieldFacts PolyAlgebra PolyRoots.
Import ListNotations.
Open Scope nat_scope.

Section P.
Variable K : fld.
Hypothesis HK : fld_laws K.
Add Field KFq5 : (fl_field K HK).
Existing Instance eqp_equiv.
Declare Scope kscope. Delimit Scope kscope with k.
Notation "0" := (@f0 K) : kscope. Notation "1" := (@f1 K) : kscope.
Notation "x + y" := (@fadd K x y) : kscope. Notation "x * y" := (@fmul K x y) : kscope. Notation "x - y" := (@fsub K x y) : kscope.
Notation "x / y" := (@fdiv K x y) : kscope.
Notation "- x" := (@fopp K x) : kscope.
Notation poly := (list K).
Section Q.
Variables b c : K.
(** the remainder modulo X^2 + bX + c *)
Fixpoint qev (f : poly) : K * K := match f with [] => (0, 0)%k | a :: f' => let '(u, v) := qev f' in (a - c * v, u - b * v)%k end.
Lemma qev_zero : forall f, eqp f [] -> qev f = (0, 0)%k.
Proof.
  induction f as [ | a f IH]; intros E; [reflexivity | ]. cbn [qev]. rewrite IH.
  - pose proof (E O) as E0. cbn in E0. rewrite E0. f_equal; ring.
  - intro i. specialize (E (S i)). rewrite coef_cons, coef_nil in E. rewrite coef_nil. auto.
Qed.
Lemma qev_eqp : forall f g, eqp f g -> qev f = qev g.
Proof.
  induction f as [ | a f IH]; intros g E.
  - symmetry. apply qev_zero. symmetry. auto.
  - destruct g as [ | b' g]; [apply (qev_zero (a :: f)); auto | ]. cbn [qev]. rewrite (IH g).
    + pose proof (E O) as E0. cbn in E0. rewrite E0. auto.
    + intro i. specialize (E (S i)). rewrite !coef_cons in E. auto.
Qed.
Lemma qev_scalp : forall d f, qev (scalp K d f) = (d * fst (qev f), d * snd (qev f))%k.
Proof. intros d f. unfold scalp. induction f as [ | a f IH]; cbn [map qev]; [cbn; f_equal; ring | rewrite IH; destruct (qev f); cbn [fst snd]; f_equal; ring]. Qed.
Lemma qev_addp : forall f g, qev (addp K f g) = (fst (qev f) + fst (qev g), snd (qev f) + snd (qev g))%k.
Proof.
  induction f as [ | a f IH]; intros g; [cbn [addp qev fst snd]; destruct (qev g); cbn [fst snd]; f_equal; ring | ].
  destruct g as [ | d g]; [cbn [addp qev]; destruct (qev f); cbn [fst snd]; f_equal; ring | ].
  cbn [addp qev]. rewrite IH. destruct (qev f), (qev g). cbn [fst snd]. f_equal; ring.
Qed.
Definition qmul (x y : K * K) : K * K := let '(u, v) := x in let '(u', v') := y in (u * u' - c * (v * v'), u * v' + u' * v - b * (v * v'))%k.
Lemma qev_mulp : forall f g, qev (mulp K f g) = qmul (qev f) (qev g).
Proof.
  induction f as [ | a f IH]; intros g; cbn [mulp qev]; [destruct (qev g); cbn; f_equal; ring | ]. rewrite qev_addp, qev_scalp. cbn [qev]. rewrite IH.
  destruct (qev f), (qev g). cbn [qmul fst snd]. f_equal; ring.
Qed.
End Q.
Theorem quintic_irreducible : forall m, normal m -> length m = 6 -> (forall x, peval K m x <> 0%k) -> (forall b c, qev b c m <> (0, 0)%k) -> irreducible m.
Proof.
  intros m N L R R2. assert (Zm : m <> []) by (intro E; subst m; cbn in L; lia).
  split.
  - intro C. apply (normal_lead K m N Zm). apply C. lia.
  - intros f g E. assert (Ep : eqp m (mulp K f g)) by (intro i; rewrite E, (coef_mulp K HK); auto).
    assert (Zf : trim f <> []). { intro X. apply (trim_nil_iff K HK) in X. apply (R f0). rewrite (peval_eqp K HK _ _ _ Ep), (peval_mulp K HK), (peval_zero K HK f) by auto. ring. }
    assert (Zg : trim g <> []). { intro X. apply (trim_nil_iff K HK) in X. apply (R f0). rewrite (peval_eqp K HK _ _ _ Ep), (peval_mulp K HK), (peval_zero K HK g) by auto. ring. }
    assert (Et : eqp m (mulp K (trim f) (trim g))).
    { intro i. rewrite Ep, !(coef_mulp K HK). unfold conv. apply sum_ext. intros. rewrite !(coef_trim K HK). auto. }
    pose proof (mul_length K HK (trim f) (trim g) m (trim_normal K HK f) (trim_normal K HK g) N Zf Zg Et) as Lm.
    assert (Df : forall h, length (trim h) = 2 -> exists x, peval K (trim h) x = 0%k) by (intros h Lh; apply (linear_root K HK); auto; apply (trim_normal K HK)).
    assert (Dq : forall h, length (trim h) = 3 -> exists b c, qev b c (trim h) = (0, 0)%k).
    { intros h Lh. pose proof (trim_normal K HK h) as TN. destruct (trim h) as [ | c' [ | b' [ | a' [ | ]]]]; try discriminate Lh.
      assert (A : a' <> 0%k) by (apply TN; discriminate). exists (b' / a')%k, (c' / a')%k. cbn [qev]. f_equal; field; auto. }
    destruct (le_lt_dec (length (trim f)) 1) as [A | A].
    { left. intros i Hi. rewrite <- (coef_trim K HK). apply coef_over. lia. }
    destruct (le_lt_dec (length (trim g)) 1) as [B | B].
    { right. intros i Hi. rewrite <- (coef_trim K HK). apply coef_over. lia. }
    exfalso. assert (X : length (trim f) = 2 \/ length (trim g) = 2 \/ length (trim f) = 3 \/ length (trim g) = 3) by lia.
    destruct X as [X | [X | [X | X]]].
    1, 2: destruct (Df _ X) as [x Hx]; apply (R x); rewrite (peval_eqp K HK _ _ _ Et), (peval_mulp K HK), Hx; ring.
    all: destruct (Dq _ X) as (b & c & Hx); apply (R2 b c); rewrite (qev_eqp b c _ _ Et), qev_mulp, Hx; unfold qmul; match goal with |- context [qev ?x ?y ?z] => destruct (qev x y z) end; apply f_equal2; ring.
Qed.
End P.
