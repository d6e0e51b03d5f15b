(** Curves and field embeddings. *)
From Coq Require Import ZArith List Bool Lia Ring Field.
From Verif.Base Require Import Outcome Algebra Slots.
From Verif.Spec Require Import Curve Tate Twist.
From Verif.Proofs Require Import PowFacts FieldFacts SlotFacts CurveGroup.

Section S.
Variables K M : fld.
Hypothesis HK : fld_laws K.
Hypothesis HM : fld_laws M.
Add Field KFe1 : (fl_field K HK).
Add Field KFe2 : (fl_field M HM).
Variable h : K -> M.
Hypothesis Hh : embedding K M h.
Lemma e_0 : h f0 = f0. Proof. apply Hh. Qed.
Lemma e_1 : h f1 = f1. Proof. apply Hh. Qed.
Lemma e_add : forall x y, h (fadd x y) = fadd (h x) (h y). Proof. apply Hh. Qed.
Lemma e_mul : forall x y, h (fmul x y) = fmul (h x) (h y). Proof. apply Hh. Qed.
Lemma e_opp : forall x, h (fopp x) = fopp (h x).
Proof.
  intros x. transitivity (fsub (fadd (h (fopp x)) (h x)) (h x)); [ring | ]. rewrite <- e_add.
  replace (fadd (fopp x) x) with (f0 : K) by ring. rewrite e_0. ring.
Qed.
Lemma e_sub : forall x y, h (fsub x y) = fsub (h x) (h y).
Proof. intros. replace (fsub x y) with (fadd x (fopp y)) by ring. rewrite e_add, e_opp. ring. Qed.
Lemma e_nz : forall x, x <> f0 -> h x <> f0.
Proof.
  intros x N E. apply (f_1_neq_0 M HM). rewrite <- e_1. replace (f1 : K) with (fmul x (finv x)) by (field; auto). rewrite e_mul, E. ring.
Qed.
Lemma e_inj : forall x y, h x = h y -> x = y.
Proof.
  intros x y E. destruct (f_eq_dec K HK x y); auto. exfalso. apply (e_nz (fsub x y)).
  - intro F. apply n. apply (f_sub_0 K HK). auto.
  - rewrite e_sub, E. ring.
Qed.
Lemma e_div : forall x y, y <> f0 -> h (fdiv x y) = fdiv (h x) (h y).
Proof.
  intros x y N. assert (N' := e_nz y N). transitivity (fdiv (fmul (h (fdiv x y)) (h y)) (h y)); [field; auto | ].
  rewrite <- e_mul. f_equal. f_equal. field. auto.
Qed.
Lemma e_eqb : forall x y, feqb (h x) (h y) = feqb x y.
Proof.
  intros x y. destruct (f_eq_dec K HK x y) as [-> | N]; [rewrite (feqb_refl K HK), (feqb_refl M HM); auto | ].
  rewrite (feqb_false K HK _ _ N). apply (feqb_false M HM). intro E. apply N. apply e_inj; auto.
Qed.
Lemma e_f2 : h (f2 K) = f2 M. Proof. unfold f2. rewrite e_add, e_1. reflexivity. Qed.
Lemma e_f3 : h (f3 K) = f3 M. Proof. unfold f3. rewrite !e_add, e_1. reflexivity. Qed.
Local Notation hp := (epoint h).
Variable a : K.
Lemma e_on : forall b P, on_curve K a b P -> on_curve M (h a) (h b) (hp P).
Proof.
  intros b [[x y] | ] H; cbn in *; auto. unfold rhs in *. rewrite <- !e_mul, <- !e_add, H. reflexivity.
Qed.
Lemma e_neg : forall P, hp (pneg P) = pneg (hp P).
Proof. intros [[x y] | ]; cbn; auto. rewrite e_opp. reflexivity. Qed.
Hypothesis C2 : f2 K <> f0.
Lemma e_third : forall l x1 y1 x2, hp (third K l x1 y1 x2) = third M (h l) (h x1) (h y1) (h x2).
Proof. intros. unfold third. cbn. rewrite !e_sub, !e_mul, !e_sub, !e_mul. reflexivity. Qed.
Lemma e_padd : forall P Q, hp (padd K a P Q) = padd M (h a) (hp P) (hp Q).
Proof.
  intros [[x1 y1] | ] [[x2 y2] | ]; try reflexivity. cbn [padd epoint]. rewrite !e_eqb.
  replace (feqb (h y1) f0) with (feqb y1 f0) by (rewrite <- e_0, e_eqb; auto).
  destruct (feqb x1 x2) eqn:E; cbn [negb].
  - destruct (feqb y1 y2 && negb (feqb y1 f0)) eqn:Y; [ | reflexivity].
    apply andb_prop in Y. destruct Y as [_ Y]. apply negb_true_iff in Y. apply (feqb_neq K HK) in Y.
    fold (epoint h (third K (fdiv (fadd (fmul (f3 K) (fmul x1 x1)) a) (fmul (f2 K) y1)) x1 y1 x2)).
    rewrite e_third, e_div by (apply (f_mul_nz K HK); auto). rewrite e_add, !e_mul, e_f3, e_f2. reflexivity.
  - apply (feqb_neq K HK) in E. fold (epoint h (third K (fdiv (fsub y2 y1) (fsub x2 x1)) x1 y1 x2)).
    rewrite e_third, e_div by (intro F; apply E; symmetry; apply (f_sub_0 K HK); auto). rewrite !e_sub. reflexivity.
Qed.
Lemma e_slope : forall x1 y1 x2 y2, (x1 <> x2 \/ y1 <> f0) -> h (slope K a x1 y1 x2 y2) = slope M (h a) (h x1) (h y1) (h x2) (h y2).
Proof.
  intros x1 y1 x2 y2 H. unfold slope. rewrite e_eqb. destruct (feqb x1 x2) eqn:E.
  - apply (feqb_eq K HK) in E. destruct H as [H | H]; [contradiction | ].
    rewrite e_div by (apply (f_mul_nz K HK); auto). rewrite e_add, !e_mul, e_f3, e_f2. reflexivity.
  - apply (feqb_neq K HK) in E. rewrite e_div by (intro F; apply E; symmetry; apply (f_sub_0 K HK); auto). rewrite !e_sub. reflexivity.
Qed.
Lemma e_pmul : forall n P, hp (pmul K a n P) = pmul M (h a) n (hp P).
Proof. induction n; intros P; cbn [pmul]; auto. rewrite e_padd, IHn. reflexivity. Qed.
Lemma e_pzmul : forall n P, hp (pzmul K a n P) = pzmul M (h a) n (hp P).
Proof. intros [ | p | p] P; cbn [pzmul]; auto; rewrite ?e_neg, e_pmul; reflexivity. Qed.
Lemma e_point_inj : forall P Q, hp P = hp Q -> P = Q.
Proof.
  intros [[x1 y1] | ] [[x2 y2] | ] E; cbn in E; try discriminate; auto. injection E as E1 E2. apply e_inj in E1. apply e_inj in E2. congruence.
Qed.
Lemma e_elliptic : forall b, elliptic K a b -> elliptic M (h a) (h b).
Proof.
  intros b (_ & HS). split.
  - rewrite <- e_f2. apply e_nz; auto.
  - rewrite <- e_f2, <- e_f3, <- !e_mul, <- e_add. apply e_nz; auto.
Qed.
End S.
