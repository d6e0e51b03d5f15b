(** Evaluation of polynomials; cubics and quadratics without roots. *)
From Coq Require Import ZArith List Bool Lia Arith Ring Field Setoid Morphisms.
From Verif.Base Require Import Outcome Array Algebra Slots.
From Verif.Spec Require Import Polynomials.
From Verif.Proofs Require Import FieldFacts PolyAlgebra.
Import ListNotations.
Open Scope nat_scope.

Section P.
Variable K : fld.
Hypothesis HK : fld_laws K.
Add Field KFv : (fl_field K HK).
Existing Instance eqp_equiv.
Declare Scope kscope. Delimit Scope kscope with k.
Notation "0" := (@f0 K) : kscope. Notation "1" := (@f1 K) : kscope.
Notation "x + y" := (@fadd K x y) : kscope. Notation "x * y" := (@fmul K x y) : kscope. Notation "x - y" := (@fsub K x y) : kscope.
Notation "x / y" := (@fdiv K x y) : kscope.
Notation "- x" := (@fopp K x) : kscope.
Notation poly := (list K).
Fixpoint peval (f : poly) (x : K) : K := match f with [] => 0%k | a :: f' => (a + x * peval f' x)%k end.
Lemma peval_zero : forall f x, eqp f [] -> peval f x = 0%k.
Proof.
  induction f as [ | a f IH]; intros x E; [reflexivity | ]. cbn [peval]. rewrite IH.
  - pose proof (E O) as E0. cbn in E0. rewrite E0. ring.
  - intro i. specialize (E (S i)). rewrite coef_cons, coef_nil in E. rewrite coef_nil. auto.
Qed.
Lemma peval_eqp : forall f g x, eqp f g -> peval f x = peval g x.
Proof.
  induction f as [ | a f IH]; intros g x E.
  - symmetry. apply peval_zero. symmetry. auto.
  - destruct g as [ | b g]; [apply (peval_zero (a :: f)); auto | ]. cbn [peval]. rewrite (IH g).
    + pose proof (E O) as E0. cbn in E0. rewrite E0. auto.
    + intro i. specialize (E (S i)). rewrite !coef_cons in E. auto.
Qed.
Lemma peval_scalp : forall c f x, peval (scalp K c f) x = (c * peval f x)%k.
Proof. intros c f x. unfold scalp. induction f as [ | a f IH]; cbn [map peval]; [ring | rewrite IH; ring]. Qed.
Lemma peval_addp : forall f g x, peval (addp K f g) x = (peval f x + peval g x)%k.
Proof.
  induction f as [ | a f IH]; intros g x; [cbn [addp peval]; ring | ]. destruct g as [ | b g]; [cbn [addp peval]; ring | ].
  cbn [addp peval]. rewrite IH. ring.
Qed.
Lemma peval_mulp : forall f g x, peval (mulp K f g) x = (peval f x * peval g x)%k.
Proof. induction f as [ | a f IH]; intros g x; cbn [mulp peval]; [ring | ]. rewrite peval_addp, peval_scalp. cbn [peval]. rewrite IH. ring. Qed.
Lemma linear_root : forall f, normal f -> length f = 2 -> exists x, peval f x = 0%k.
Proof.
  intros [ | a [ | b [ | c f]]] N E; try discriminate E. assert (B : b <> 0%k) by (apply N; discriminate).
  exists (- (a / b))%k. cbn [peval]. field. auto.
Qed.
Theorem no_roots_irreducible : forall m, normal m -> length m = 3 \/ length m = 4 -> (forall x, peval m x <> 0%k) -> irreducible m.
Proof.
  intros m N L R. assert (Zm : m <> []) by (intro E; subst m; cbn in L; lia).
  split.
  - intro C. assert (Ln : coef m (length m - 1) = 0%k) by (apply C; lia). apply (N Zm). unfold coef in Ln.
    rewrite <- Ln. clear. destruct m as [ | a m]; auto. revert a. induction m as [ | b m IH]; intro a; [reflexivity | ].
    specialize (IH b). cbn [length] in *. replace (S (S (length m)) - 1) with (S (length m)) by lia. replace (S (length m) - 1) with (length m) in IH by lia. cbn [nth]. exact IH.
  - intros f g E. assert (Ep : eqp m (mulp K f g)) by (intro i; rewrite E, (coef_mulp K HK); auto).
    assert (Zf : trim f <> []). { intro X. apply (trim_nil_iff K HK) in X. apply (R f0). rewrite (peval_eqp _ _ _ Ep), peval_mulp, (peval_zero f) by auto. ring. }
    assert (Zg : trim g <> []). { intro X. apply (trim_nil_iff K HK) in X. apply (R f0). rewrite (peval_eqp _ _ _ Ep), peval_mulp, (peval_zero g) by auto. ring. }
    assert (Et : eqp m (mulp K (trim f) (trim g))).
    { intro i. rewrite Ep, !(coef_mulp K HK). unfold conv. apply sum_ext. intros. rewrite !(coef_trim K HK). auto. }
    pose proof (mul_length K HK (trim f) (trim g) m (trim_normal K HK f) (trim_normal K HK g) N Zf Zg Et) as Lm.
    assert (Df : forall h, length (trim h) = 2 -> exists x, peval (trim h) x = 0%k) by (intros h Lh; apply linear_root; auto; apply (trim_normal K HK)).
    destruct (le_lt_dec (length (trim f)) 1) as [A | A].
    { left. intros i Hi. rewrite <- (coef_trim K HK). apply coef_over. lia. }
    destruct (le_lt_dec (length (trim g)) 1) as [B | B].
    { right. intros i Hi. rewrite <- (coef_trim K HK). apply coef_over. lia. }
    exfalso. assert (X : length (trim f) = 2 \/ length (trim g) = 2) by lia. destruct X as [X | X]; destruct (Df _ X) as [x Hx]; apply (R x); rewrite (peval_eqp _ _ _ Et), peval_mulp, Hx; ring.
Qed.
End P.
