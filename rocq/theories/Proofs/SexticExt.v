(** M[X]/(X^6 + alpha) as an instance of SexticFacts.v. *)
From Coq Require Import ZArith List Bool Lia Arith Ring Field Setoid Morphisms.
From Verif.Base Require Import Outcome Algebra.
From Verif.Spec Require Import FiniteField Polynomials Extension Quadratic Curve Twist.
From Verif.Model Require Import Poly PairingA Miller PairingD.
From Verif.Proofs Require Import PowFacts FieldFacts PolyAlgebra PolyFacts ExtFacts PolymodFacts Embed Frobenius ExtFrobenius.
Import ListNotations.
Open Scope nat_scope.

Section L.
Variable L : fld.
Hypothesis HL : fld_laws L.
Add Field LFse : (fl_field L HL).
Lemma sum6 : forall (c : nat -> L) w, Frobenius.sum L 6 (fun i => fmul (c i) (pw L w i)) =
  fadd (fadd (fadd (fadd (fadd (c 0) (fmul (c 1) w)) (fmul (c 2) (fmul w w))) (fmul (c 3) (fmul (fmul w w) w))) (fmul (c 4) (fmul (fmul w w) (fmul w w)))) (fmul (c 5) (fmul (fmul (fmul w w) (fmul w w)) w)).
Proof. intros. cbn [Frobenius.sum]. unfold pw. cbn [npow]. cbn [mmul mone mul_monoid]. ring. Qed.
Lemma pw6 : forall w : L, fmul (fmul (fmul w w) w) (fmul (fmul w w) w) = fmul w (pw L w 5).
Proof. intros. unfold pw. cbn [npow]. cbn [mmul mone mul_monoid]. ring. Qed.
Lemma pw3 : forall w : L, fmul (fmul w w) w = pw L w 3.
Proof. intros. unfold pw. cbn [npow]. cbn [mmul mone mul_monoid]. ring. Qed.
End L.
Section S.
Variable M : fld.
Hypothesis HM : fld_laws M.
Add Field MFse : (fl_field M HM).
Variable alpha : M.
Local Notation m := [alpha; f0; f0; f0; f0; f0; f1].
Local Notation E := (Ext M 6 m).
Existing Instance eqp_equiv.
Local Instance mulp_properx : Proper (eqp ==> eqp ==> eqp) (mulp M) := mulp_proper M HM.
Local Instance cong_equivx k : Equivalence (cong k) := cong_equiv M HM k.
Local Instance eqp_congx k : subrelation (@eqp M) (cong k) := eqp_cong M HM k.
Hypothesis Hi : irreducible (m : list M).
Lemma sx_monic : monic (m : list M) 6. Proof. split; reflexivity. Qed.
Definition sx_laws : fld_laws E := Ext_laws M HM 6 m sx_monic ltac:(lia) Hi.
Local Notation cv := (cvec M 6 m).
Definition sx_w : E := unitv M 6 m 1.
Lemma sx_cv : embedding M E cv. Proof. apply (cvec_embedding M HM 6 m sx_monic). lia. Qed.
Lemma sx_mk : forall f, (mkvec 6 f : E) =
  fadd (fadd (fadd (fadd (fadd (cv (f 0)) (fmul (cv (f 1)) sx_w)) (fmul (cv (f 2)) (fmul sx_w sx_w))) (fmul (cv (f 3)) (fmul (fmul sx_w sx_w) sx_w))) (fmul (cv (f 4)) (fmul (fmul sx_w sx_w) (fmul sx_w sx_w)))) (fmul (cv (f 5)) (fmul (fmul (fmul sx_w sx_w) (fmul sx_w sx_w)) sx_w)).
Proof.
  intros f. rewrite (expand M HM 6 m sx_monic ltac:(lia) (mkvec 6 f)). change (xelem M 6 m) with sx_w.
  etransitivity; [apply (sum6 E sx_laws (fun i => cv (vcoef (mkvec 6 f : E) i)) sx_w) | ]. reflexivity.
Qed.
Lemma sx_mk_co : forall x : E, mkvec 6 (vcoef x) = x.
Proof. intros x. apply vec_ext. intros i H. rewrite vcoef_mk. destruct (Nat.ltb_spec i 6); [reflexivity | lia]. Qed.
Lemma sx_co_w : forall c, vcoef (fmul (cv c) sx_w : E) 1 = c.
Proof.
  intros. rewrite (cvec_mul M HM 6 m sx_monic ltac:(lia)). rewrite vcoef_mk. cbn [Nat.ltb Nat.leb]. unfold sx_w, unitv. rewrite vcoef_mk. cbn [Nat.ltb Nat.leb Nat.eqb]. ring.
Qed.
Lemma sx_w6 : fmul (fmul (fmul sx_w sx_w) sx_w) (fmul (fmul sx_w sx_w) sx_w) = cv (fopp alpha).
Proof.
  rewrite (pw6 E sx_laws). change sx_w with (xelem M 6 m). rewrite (x_pow M HM 6 m sx_monic) by lia.
  apply (vec_cong M HM 6 m sx_monic). rewrite (E_mul M HM 6 m sx_monic) by lia. rewrite (cvec_eqp M 6 m) by lia.
  change (xelem M 6 m) with (unitv M 6 m 1). rewrite (vl_unit M 6 m ltac:(lia) 1 ltac:(lia)), (vl_unit M 6 m ltac:(lia) 5 ltac:(lia)).
  apply (cong_mulp M HM). exists [f1]. intro j. rewrite (coef_addp M HM). unfold mono. cbn [repeat app].
  assert (E1 : eqp (mulp M [f0; f1] [f0; f0; f0; f0; f0; f1]) [f0; f0; f0; f0; f0; f0; f1]).
  { pose proof (cons_split M HM f0 [f0; f0; f0; f0; f0; f1]) as C. intro i. rewrite C. rewrite (coef_addp M HM). assert (Z : coef [f0 : M] i = f0) by (destruct i; [reflexivity | apply coef_nil]). rewrite Z. ring. }
  rewrite E1. assert (E2 : coef (mulp M [f1] m) j = coef m j) by (rewrite <- (scalp_mulp M HM), (coef_scalp M HM); ring). rewrite E2.
  destruct j as [ | [ | [ | [ | [ | [ | [ | j]]]]]]]; cbn; try ring.
Qed.
Lemma sx_w3 : fmul (fmul sx_w sx_w) sx_w = unitv M 6 m 3.
Proof.
  transitivity (pw E sx_w 3); [apply (pw3 E sx_laws) | ]. change sx_w with (xelem M 6 m). apply (x_pow M HM 6 m sx_monic); lia.
Qed.
Lemma sx_vc_opp : forall (x : E) i, i < 6 -> vcoef (fopp x) i = fopp (vcoef x i).
Proof. intros x i H. cbn [fopp Ext]. rewrite vcoef_mk. destruct (Nat.ltb_spec i 6); [reflexivity | lia]. Qed.
Lemma sx_ns : ~ is_square (fopp alpha).
Proof.
  intros (s & Es). assert (S6 := sx_w6). rewrite <- Es, (em_mul _ _ _ sx_cv) in S6.
  apply (f_sq_eq E sx_laws) in S6. rewrite sx_w3 in S6.
  assert (H3 : vcoef (unitv M 6 m 3 : E) 3 = f1) by (unfold unitv; rewrite vcoef_mk; reflexivity).
  assert (C3 : vcoef (cv s : E) 3 = f0) by (rewrite (vc_cv M 6 m ltac:(lia)); reflexivity).
  apply (f_1_neq_0 M HM). rewrite <- H3. destruct S6 as [-> | ->]; [exact C3 | ]. rewrite sx_vc_opp by lia. rewrite C3. ring.
Qed.
End S.
