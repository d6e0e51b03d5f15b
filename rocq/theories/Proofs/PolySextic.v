(** X^6 + alpha is irreducible if -alpha is neither a square nor a cube. *)
From Coq Require Import ZArith List Bool Lia Arith Ring Field Setoid Morphisms.
From Verif.Base Require Import Outcome Array Algebra Slots.
From Verif.Spec Require Import Polynomials FiniteField.
From Verif.Proofs Require Import FieldFacts PolyAlgebra PolyRoots PolyQuintic.
Import ListNotations.
Open Scope nat_scope.

Section P.
Variable K : fld.
Hypothesis HK : fld_laws K.
Add Field KFq6 : (fl_field K HK).
Existing Instance eqp_equiv.
Declare Scope kscope. Delimit Scope kscope with k.
Notation "0" := (@f0 K) : kscope. Notation "1" := (@f1 K) : kscope.
Notation "x + y" := (@fadd K x y) : kscope. Notation "x * y" := (@fmul K x y) : kscope. Notation "x - y" := (@fsub K x y) : kscope.
Notation "x / y" := (@fdiv K x y) : kscope.
Notation "- x" := (@fopp K x) : kscope.
Notation poly := (list K).
Lemma trip : forall a b c a' b' c' : K, a = a' -> b = b' -> c = c' -> (a, b, c) = (a', b', c').
Proof. intros. subst. auto. Qed.
Section Q.
Variables b c d : K.
(** the remainder modulo X^3 + bX^2 + cX + d *)
Fixpoint cev (f : poly) : K * K * K := match f with [] => (0, 0, 0)%k | a :: f' => let '(u, v, w) := cev f' in (a - d * w, u - c * w, v - b * w)%k end.
Lemma cev_zero : forall f, eqp f [] -> cev f = (0, 0, 0)%k.
Proof.
  induction f as [ | a f IH]; intros E; [reflexivity | ]. cbn [cev]. rewrite IH.
  - pose proof (E O) as E0. cbn in E0. rewrite E0. apply trip; ring.
  - intro i. specialize (E (S i)). rewrite coef_cons, coef_nil in E. rewrite coef_nil. auto.
Qed.
Lemma cev_eqp : forall f g, eqp f g -> cev f = cev g.
Proof.
  induction f as [ | a f IH]; intros g E.
  - symmetry. apply cev_zero. symmetry. auto.
  - destruct g as [ | b' g]; [apply (cev_zero (a :: f)); auto | ]. cbn [cev]. rewrite (IH g).
    + pose proof (E O) as E0. cbn in E0. rewrite E0. auto.
    + intro i. specialize (E (S i)). rewrite !coef_cons in E. auto.
Qed.
Definition cadd (x y : K * K * K) : K * K * K := let '(u, v, w) := x in let '(u', v', w') := y in (u + u', v + v', w + w')%k.
Definition cscal (a : K) (y : K * K * K) : K * K * K := let '(u', v', w') := y in (a * u', a * v', a * w')%k.
Definition cshift (x : K * K * K) : K * K * K := let '(u, v, w) := x in (0 - d * w, u - c * w, v - b * w)%k.
Lemma cev_scalp : forall e f, cev (scalp K e f) = cscal e (cev f).
Proof. intros e f. unfold scalp. induction f as [ | a f IH]; cbn [map cev]; [cbn; apply trip; ring | rewrite IH; destruct (cev f) as [[u v] w]; cbn [cscal]; apply trip; ring]. Qed.
Lemma cev_addp : forall f g, cev (addp K f g) = cadd (cev f) (cev g).
Proof.
  induction f as [ | a f IH]; intros g; [cbn [addp cev]; destruct (cev g) as [[u v] w]; cbn [cadd]; apply trip; ring | ].
  destruct g as [ | e g]; [cbn [addp cev]; destruct (cev f) as [[u v] w]; cbn [cadd]; apply trip; ring | ].
  cbn [addp cev]. rewrite IH. destruct (cev f) as [[u v] w], (cev g) as [[u' v'] w']. cbn [cadd]. apply trip; ring.
Qed.
Definition cmul (x y : K * K * K) : K * K * K := let '(u, v, w) := x in cadd (cscal u y) (cshift (cadd (cscal v y) (cshift (cscal w y)))).
Lemma cev_mulp : forall f g, cev (mulp K f g) = cmul (cev f) (cev g).
Proof.
  induction f as [ | a f IH]; intros g; cbn [mulp cev]; [destruct (cev g) as [[u v] w]; cbn; apply trip; ring | ]. rewrite cev_addp, cev_scalp. cbn [cev]. rewrite IH.
  destruct (cev f) as [[u v] w], (cev g) as [[u' v'] w']. cbn [cmul cadd cscal cshift]. apply trip; ring.
Qed.
Lemma cmul_0_l : forall y, cmul (0, 0, 0)%k y = (0, 0, 0)%k. Proof. intros [[u v] w]. cbn [cmul cadd cscal cshift]. apply trip; ring. Qed.
End Q.
Theorem no_small_factor_irreducible : forall m, normal m -> length m = 7 -> (forall x, peval K m x <> 0%k) -> (forall b c, qev K b c m <> (0, 0)%k) -> (forall b c d, cev b c d m <> (0, 0, 0)%k) -> irreducible m.
Proof.
  intros m N L R R2 R3. assert (Zm : m <> []) by (intro E; subst m; cbn in L; lia).
  split.
  - intro C. apply (normal_lead K m N Zm). apply C. lia.
  - intros f g E. assert (Ep : eqp m (mulp K f g)) by (intro i; rewrite E, (coef_mulp K HK); auto).
    assert (Zf : trim f <> []). { intro X. apply (trim_nil_iff K HK) in X. apply (R f0). rewrite (peval_eqp K HK _ _ _ Ep), (peval_mulp K HK), (peval_zero K HK f) by auto. ring. }
    assert (Zg : trim g <> []). { intro X. apply (trim_nil_iff K HK) in X. apply (R f0). rewrite (peval_eqp K HK _ _ _ Ep), (peval_mulp K HK), (peval_zero K HK g) by auto. ring. }
    assert (Et : eqp m (mulp K (trim f) (trim g))).
    { intro i. rewrite Ep, !(coef_mulp K HK). unfold conv. apply sum_ext. intros. rewrite !(coef_trim K HK). auto. }
    pose proof (mul_length K HK (trim f) (trim g) m (trim_normal K HK f) (trim_normal K HK g) N Zf Zg Et) as Lm.
    assert (Df : forall h, length (trim h) = 2 -> exists x, peval K (trim h) x = 0%k) by (intros h Lh; apply (linear_root K HK); auto; apply (trim_normal K HK)).
    assert (Dq : forall h, length (trim h) = 3 -> exists b c, qev K b c (trim h) = (0, 0)%k).
    { intros h Lh. pose proof (trim_normal K HK h) as TN. destruct (trim h) as [ | c' [ | b' [ | a' [ | ]]]]; try discriminate Lh.
      assert (A : a' <> 0%k) by (apply TN; discriminate). exists (b' / a')%k, (c' / a')%k. cbn [qev]. f_equal; field; auto. }
    assert (Dc : forall h, length (trim h) = 4 -> exists b c d, cev b c d (trim h) = (0, 0, 0)%k).
    { intros h Lh. pose proof (trim_normal K HK h) as TN. destruct (trim h) as [ | d' [ | c' [ | b' [ | a' [ | ]]]]]; try discriminate Lh.
      assert (A : a' <> 0%k) by (apply TN; discriminate). exists (b' / a')%k, (c' / a')%k, (d' / a')%k. cbn [cev]. apply trip; field; auto. }
    destruct (le_lt_dec (length (trim f)) 1) as [A | A].
    { left. intros i Hi. rewrite <- (coef_trim K HK). apply coef_over. lia. }
    destruct (le_lt_dec (length (trim g)) 1) as [B | B].
    { right. intros i Hi. rewrite <- (coef_trim K HK). apply coef_over. lia. }
    exfalso. assert (X : length (trim f) = 2 \/ length (trim g) = 2 \/ length (trim f) = 3 \/ length (trim g) = 3 \/ length (trim f) = 4) by lia.
    destruct X as [X | [X | [X | [X | X]]]].
    1, 2: destruct (Df _ X) as [x Hx]; apply (R x); rewrite (peval_eqp K HK _ _ _ Et), (peval_mulp K HK), Hx; ring.
    1, 2: destruct (Dq _ X) as (b & c & Hx); apply (R2 b c); rewrite (qev_eqp K HK b c _ _ Et), (qev_mulp K HK), Hx; unfold qmul; match goal with |- context [qev K ?x ?y ?z] => destruct (qev K x y z) end; apply f_equal2; ring.
    destruct (Dc _ X) as (b & c & d & Hx). apply (R3 b c d). rewrite (cev_eqp b c d _ _ Et), cev_mulp, Hx. apply cmul_0_l.
Qed.
Variable alpha : K.
Local Notation N := (- alpha)%k.
Hypothesis NS : ~ is_square N.
Hypothesis NC : forall x, (x * x * x)%k <> N.
Local Notation m := [alpha; f0; f0; f0; f0; f0; f1].
Lemma alpha_eq : alpha = (- N)%k. Proof. ring. Qed.
Lemma eq_N : forall x, (x + alpha = 0)%k -> x = N. Proof. intros x E. transitivity (x + alpha - alpha)%k; [ring | rewrite E; ring]. Qed.
Theorem sextic_irreducible : irreducible m.
Proof.
  assert (NZ : N <> 0%k) by (intro E; apply NS; exists 0%k; rewrite E; ring).
  apply no_small_factor_irreducible; auto.
  - intros _. cbn. apply (f_1_neq_0 K HK).
  - intros x E. apply (NC (x * x)%k). apply eq_N. rewrite <- E. cbn. ring.
  - intros b c E. cbn [qev] in E. injection E as E0 E1.
    (* X^6 = A1 X + B1 *)
    assert (S2 : (N * N = c * c * c * (c * c * c))%k).
    { match type of E1 with ?x = _ => set (A1 := x) in * end. match type of E0 with ?x = _ => set (B1 := (x - alpha)%k) in * end.
      assert (B : B1 = N) by (unfold B1; rewrite E0; ring). rewrite <- B.
      transitivity (c * c * c * (c * c * c) + A1 * (b * B1 - c * A1))%k; [unfold B1, A1; ring | rewrite E1; ring]. }
    apply (f_sq_eq K HK) in S2. destruct S2 as [S2 | S2].
    + apply (NC c). auto.
    + apply (NC (- c)%k). rewrite S2. ring.
  - intros b c d E. cbn [cev] in E. injection E as E0 E1 E2.
    match type of E2 with ?x = _ => set (A1 := x) in * end. match type of E1 with ?x = _ => set (B1 := x) in * end. match type of E0 with ?x = _ => set (C1 := (x - alpha)%k) in * end.
    assert (B : C1 = N) by (unfold C1; rewrite E0; ring).
    (* the norm of C1 + B1 X + A1 X^2 is d^6 *)
    assert (S3 : (N * N * N = d * d * (d * d) * (d * d))%k).
    { rewrite <- B. transitivity (d * d * (d * d) * (d * d) - (0 - C1 * C1 * B1 * b + C1 * C1 * A1 * (b * b - (1 + 1) * c) + C1 * B1 * B1 * c - C1 * B1 * A1 * (b * c - (1 + 1 + 1) * d)
        + C1 * A1 * A1 * (c * c - (1 + 1) * b * d) - B1 * B1 * B1 * d + B1 * B1 * A1 * b * d - B1 * A1 * A1 * c * d + A1 * A1 * A1 * d * d))%k; [unfold C1, B1, A1; ring | rewrite E1, E2; ring]. }
    assert (DZ : d <> 0%k). { intros ->. assert (Z3 : (N * N * N = 0)%k) by (rewrite S3; ring). destruct (f_integral K HK _ _ Z3) as [Z | Z]; auto. destruct (f_integral K HK _ _ Z); auto. }
    (* N / d^2 is a cube root of 1, so its own inverse's square *)
    apply NS. exists (N * N / (d * d * d))%k. transitivity (N * (N * N * N) / (d * d * (d * d) * (d * d)))%k; [field; auto | rewrite S3; field; auto].
Qed.
End P.
