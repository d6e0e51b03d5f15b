(** If x^6 + alpha is irreducible, so is x^6 + alpha^5. *)
From Coq Require Import ZArith List Bool Lia Arith Ring Field Setoid Morphisms.
From Verif.Base Require Import Outcome Array Algebra Slots.
From Verif.Spec Require Import FiniteField Polynomials Extension Twist.
From Verif.Proofs Require Import FieldFacts PowFacts PolyAlgebra PolyFacts ExtFacts PolymodFacts ExtFrobenius SexticExt.
Import ListNotations.
Open Scope nat_scope.

Section V.
Variables K M : fld.
Hypothesis HK : fld_laws K.
Hypothesis HM : fld_laws M.
Variable h : K -> M.
Hypothesis Hh : embedding K M h.
Add Field KFv5 : (fl_field K HK).
Add Field MFv5 : (fl_field M HM).
Existing Instance eqp_equiv.
(** the value of a polynomial over K at an element of M *)
Fixpoint hval (f : list K) (x : M) : M := match f with [] => f0 | a :: f' => fadd (h a) (fmul x (hval f' x)) end.
Lemma hval_zero : forall f x, eqp f [] -> hval f x = f0.
Proof.
  induction f as [ | a f IH]; intros x E; [reflexivity | ]. cbn [hval]. rewrite IH.
  - pose proof (E O) as E0. cbn in E0. rewrite E0, (em_0 _ _ _ Hh). ring.
  - intro i. specialize (E (S i)). rewrite coef_cons, coef_nil in E. rewrite coef_nil. auto.
Qed.
Lemma hval_eqp : forall f g x, eqp f g -> hval f x = hval g x.
Proof.
  induction f as [ | a f IH]; intros g x E.
  - symmetry. apply hval_zero. symmetry. auto.
  - destruct g as [ | b g]; [apply (hval_zero (a :: f)); auto | ]. cbn [hval]. rewrite (IH g).
    + pose proof (E O) as E0. cbn in E0. rewrite E0. auto.
    + intro i. specialize (E (S i)). rewrite !coef_cons in E. auto.
Qed.
Lemma hval_scalp : forall c f x, hval (scalp K c f) x = fmul (h c) (hval f x).
Proof. intros c f x. unfold scalp. induction f as [ | a f IH]; cbn [map hval]; [ring | rewrite IH, (em_mul _ _ _ Hh); ring]. Qed.
Lemma hval_addp : forall f g x, hval (addp K f g) x = fadd (hval f x) (hval g x).
Proof.
  induction f as [ | a f IH]; intros g x; [cbn [addp hval]; ring | ]. destruct g as [ | b g]; [cbn [addp hval]; ring | ].
  cbn [addp hval]. rewrite IH, (em_add _ _ _ Hh). ring.
Qed.
Lemma hval_mulp : forall f g x, hval (mulp K f g) x = fmul (hval f x) (hval g x).
Proof. induction f as [ | a f IH]; intros g x; cbn [mulp hval]; [ring | ]. rewrite hval_addp, hval_scalp. cbn [hval]. rewrite IH, (em_0 _ _ _ Hh). ring. Qed.
Lemma hval6 : forall f x, length f <= 6 -> hval f x =
  fadd (h (coef f 0)) (fmul x (fadd (h (coef f 1)) (fmul x (fadd (h (coef f 2)) (fmul x (fadd (h (coef f 3)) (fmul x (fadd (h (coef f 4)) (fmul x (h (coef f 5))))))))))).
Proof.
  intros f x L. rewrite (hval_eqp f [coef f 0; coef f 1; coef f 2; coef f 3; coef f 4; coef f 5]).
  - cbn [hval]. ring.
  - intros i. do 6 (destruct i as [ | i]; [reflexivity | ]). rewrite !coef_over; auto; cbn; lia.
Qed.
Lemma five_identity : forall w s c0 c1 c2 c3 c4 c5 : M, fmul (fmul (fmul w w) w) (fmul (fmul w w) w) = s ->
  let y := fmul w (fmul w (fmul w (fmul w w))) in
  fadd (fadd (fadd (fadd (fadd c0 (fmul (fmul c5 (fmul (fmul s s) (fmul s s))) w)) (fmul (fmul c4 (fmul s (fmul s s))) (fmul w w))) (fmul (fmul c3 (fmul s s)) (fmul (fmul w w) w)))
    (fmul (fmul c2 s) (fmul (fmul w w) (fmul w w)))) (fmul c1 (fmul (fmul (fmul w w) (fmul w w)) w)) =
  fadd c0 (fmul y (fadd c1 (fmul y (fadd c2 (fmul y (fadd c3 (fmul y (fadd c4 (fmul y c5))))))))).
Proof. intros w s c0 c1 c2 c3 c4 c5 <- y. unfold y. ring. Qed.
Lemma five_root_identity : forall w a : M, fmul (fmul (fmul w w) w) (fmul (fmul w w) w) = fopp a ->
  let y := fmul w (fmul w (fmul w (fmul w w))) in
  fadd (fmul a (fmul a (fmul a (fmul a a)))) (fmul y (fadd f0 (fmul y (fadd f0 (fmul y (fadd f0 (fmul y (fadd f0 (fmul y (fadd f0 (fmul y (fadd f1 (fmul y f0))))))))))))) = f0.
Proof.
  intros w a H y. assert (A : a = fopp (fmul (fmul (fmul w w) w) (fmul (fmul w w) w))) by (rewrite H; ring).
  rewrite A. unfold y. ring.
Qed.
Lemma h_opp : forall x, h (fopp x) = fopp (h x).
Proof.
  intro x. assert (S : fadd (h (fopp x)) (h x) = f0) by (rewrite <- (em_add _ _ _ Hh), <- (em_0 _ _ _ Hh); f_equal; ring).
  transitivity (fsub (fadd (h (fopp x)) (h x)) (h x)); [ring | ]. rewrite S. ring.
Qed.
Lemma prod0 : forall c x : K, x <> f0 -> fmul c x = f0 -> c = f0.
Proof. intros c x N E. destruct (f_integral K HK _ _ E); auto. contradiction. Qed.
End V.

Section S.
Existing Instance eqp_equiv.
Variable L : fld.
Hypothesis HL : fld_laws L.
Local Instance mulp_proper5 : Proper (eqp ==> eqp ==> eqp) (mulp L) := mulp_proper L HL.
Add Field LF5 : (fl_field L HL).
Variable alpha : L.
Notation m := [alpha; f0; f0; f0; f0; f0; f1].
Hypothesis Hi : irreducible m.
Local Notation E := (Ext L 6 m).
Let HE : fld_laws E := sx_laws L HL alpha Hi.
Local Notation cv := (cvec L 6 m).
Let Hcv : embedding L E cv := sx_cv L HL alpha.
Local Notation w := (sx_w L alpha).
Let Hw := sx_w6 L HL alpha Hi.
Notation y := (@fmul E w (@fmul E w (@fmul E w (@fmul E w w)))).
Lemma alpha_nz : alpha <> f0.
Proof.
  intros Z. pose proof Hi as [_ H]. destruct (H [f0; f1] [f0; f0; f0; f0; f0; f1]) as [C | C].
  - intro i. rewrite Z, <- (coef_mulp L HL). cbn [mulp scalp map addp].
    do 8 (destruct i as [ | i]; [unfold coef; cbn [nth]; ring | ]). rewrite !coef_over; auto; cbn; lia.
  - apply (f_1_neq_0 L HL). exact (C 1 ltac:(lia)).
  - apply (f_1_neq_0 L HL). exact (C 5 ltac:(lia)).
Qed.
Lemma five_zero : forall f : list L, length f <= 6 -> hval L E cv f y = f0 -> eqp f [].
Proof.
  intros f Lf V. rewrite (hval6 L E HE cv Hcv) in V by auto.
  assert (XS : exists s, s = fopp alpha) by (eexists; reflexivity). destruct XS as (s & Es). set (c := coef f) in *.
  pose (t := fun i => match i with 0 => c 0 | 1 => fmul (c 5) (fmul (fmul s s) (fmul s s)) | 2 => fmul (c 4) (fmul s (fmul s s)) | 3 => fmul (c 3) (fmul s s) | 4 => fmul (c 2) s | _ => c 1 end).
  assert (T : mkvec 6 t = @f0 E).
  { rewrite (sx_mk L HL alpha Hi). cbn [t]. rewrite !(em_mul _ _ _ Hcv). rewrite <- V.
    apply (five_identity E HE). rewrite Hw, Es. reflexivity. }
  assert (TI : forall i, i < 6 -> t i = f0).
  { intros i H. assert (A : vcoef (@mkvec L 6 t) i = vcoef (@f0 E) i) by (rewrite T; reflexivity).
    rewrite vcoef_mk in A. cbn [f0 Ext] in A. rewrite vcoef_mk in A. destruct (Nat.ltb_spec i 6); [auto | lia]. }
  assert (Ns : s <> f0) by (rewrite Es; apply (f_opp_nz L HL), alpha_nz).
  intro i. rewrite coef_nil. change (c i = f0). destruct i as [ | [ | [ | [ | [ | [ | i]]]]]].
  - exact (TI 0 ltac:(lia)).
  - exact (TI 5 ltac:(lia)).
  - exact (prod0 L HL _ _ Ns (TI 4 ltac:(lia))).
  - refine (prod0 L HL _ _ _ (TI 3 ltac:(lia))). repeat apply (f_mul_nz L HL); auto.
  - refine (prod0 L HL _ _ _ (TI 2 ltac:(lia))). repeat apply (f_mul_nz L HL); auto.
  - refine (prod0 L HL _ _ _ (TI 1 ltac:(lia))). repeat apply (f_mul_nz L HL); auto.
  - apply coef_over. lia.
Qed.
Notation a5 := (fmul alpha (fmul alpha (fmul alpha (fmul alpha alpha)))).
Notation m5 := [a5; f0; f0; f0; f0; f0; f1].
Lemma five_root : hval L E cv m5 y = f0.
Proof.
  cbn [hval]. rewrite !(em_0 _ _ _ Hcv), (em_1 _ _ _ Hcv), !(em_mul _ _ _ Hcv).
  apply (five_root_identity E HE). rewrite Hw. apply (h_opp L E HL HE cv Hcv).
Qed.
Theorem five_irreducible : irreducible m5.
Proof.
  assert (N5 : normal m5) by (intros _; cbn; apply (f_1_neq_0 L HL)).
  split.
  - intro C. apply (f_1_neq_0 L HL). exact (C 6 ltac:(lia)).
  - intros f g F. assert (Ep : eqp m5 (mulp L f g)) by (intro i; rewrite F, (coef_mulp L HL); auto).
    assert (NZ : ~ eqp m5 []) by (intro Z; apply (f_1_neq_0 L HL); exact (Z 6)).
    assert (Zf : trim f <> []). { intro X. apply (trim_nil_iff L HL) in X. apply NZ. rewrite Ep, X. reflexivity. }
    assert (Zg : trim g <> []). { intro X. apply (trim_nil_iff L HL) in X. apply NZ. rewrite Ep, X. apply (mulp_nil_r L); auto. }
    assert (Et : eqp m5 (mulp L (trim f) (trim g))).
    { intro i. rewrite Ep, !(coef_mulp L HL). unfold conv. apply sum_ext. intros. rewrite !(coef_trim L HL). auto. }
    pose proof (mul_length L HL (trim f) (trim g) m5 (trim_normal L HL f) (trim_normal L HL g) N5 Zf Zg Et) as Lm. cbn [length] in Lm.
    destruct (le_lt_dec (length (trim f)) 1) as [A | A].
    { left. intros i H. rewrite <- (coef_trim L HL). apply coef_over. lia. }
    destruct (le_lt_dec (length (trim g)) 1) as [B | B].
    { right. intros i H. rewrite <- (coef_trim L HL). apply coef_over. lia. }
    exfalso. pose proof five_root as R. rewrite (hval_eqp L E HE cv Hcv _ _ _ Et), (hval_mulp L E HE cv Hcv) in R.
    assert (TN : forall h : list L, trim h <> [] -> ~ eqp (trim h) []).
    { intros h Zh Q. apply (trim_nil_iff L HL) in Q. apply Zh. rewrite <- Q. symmetry. apply (trim_of_normal L HL). apply (trim_normal L HL). }
    destruct (f_integral E HE _ _ R) as [V | V]; apply five_zero in V; try lia; [exact (TN f Zf V) | exact (TN g Zg V)].
Qed.
End S.
