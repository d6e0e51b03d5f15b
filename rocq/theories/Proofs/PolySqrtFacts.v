(** polymod_is_sqr and polymod_sqrt. *)
From Coq Require Import ZArith Znumtheory List Bool Lia Arith Ring Field Setoid Morphisms.
From Verif.Base Require Import Outcome Gmp Array Algebra Slots.
From Verif.Spec Require Import FiniteField Polynomials Quadratic.
From Verif.Model Require Import GenericPow Poly PolyTests.
From Verif.Proofs Require Import GmpFacts FieldFacts PowFacts RootFacts PolyAlgebra PolyFacts SlotFacts Frobenius.
Import ListNotations.
Open Scope nat_scope.

Section S.
Variable K : fld.
Hypothesis HK : fld_laws K.
Add Field KFps : (fl_field K HK).
Existing Instance eqp_equiv.
Variable q : Z.
Hypothesis HO : has_order K q.
Hypothesis Hodd : Z.odd q = true.
Notation h := ((q - 1) / 2)%Z.

Lemma h_pos : (1 <= h /\ q = 2 * h + 1)%Z.
Proof.
  pose proof (order_gt_1 K HK q HO). pose proof (Z.div_mod q 2 ltac:(lia)) as D. rewrite Zmod_odd, Hodd in D.
  assert (E : ((q - 1) / 2)%Z = (q / 2)%Z) by (symmetry; apply Z.div_unique with 0%Z; lia). rewrite E. lia.
Qed.
Lemma generic_pow_f : forall (x : K) n, (0 <= n)%Z -> generic_pow_mpz (mul_monoid K) x n = Ok (fpow x n).
Proof. intros. apply (generic_pow_spec (mul_monoid K) (mul_monoid_laws K HK)). auto. Qed.
Lemma fpow_0 : forall n, (1 <= n)%Z -> fpow (f0 : K) n = f0.
Proof. intros n Hn. unfold fpow, zpow. destruct (Z.to_nat n) eqn:E; [lia | ]. cbn [npow mul_monoid mmul]. ring. Qed.
Theorem is_sqr_ok : forall e : K, exists b, polymod_is_sqr K q e = Ok b /\ (b = true <-> e <> f0 /\ is_square e).
Proof.
  intro e. unfold polymod_is_sqr. pose proof h_pos. rewrite generic_pow_f by lia. cbn [bind]. eexists. split; [reflexivity | ].
  rewrite (fl_eqb K HK). destruct (f_eq_dec K HK e f0) as [-> | Z].
  - rewrite fpow_0 by lia. split; [intro Q; exfalso; apply (f_1_neq_0 K HK); auto | tauto].
  - rewrite (euler_f K HK q HO Hodd e Z). tauto.
Qed.

(** ** Powers modulo X^2 - a *)
Section A.
Variable a : K.
Notation Q := (Quad K a).
Lemma Q_monoid : monoid_laws (mul_monoid Q).
Proof.
  split.
  - intros [x1 x2] [y1 y2] [z1 z2]. cbn. unfold qmul. cbn. apply (f_equal2 (@pair K K)); ring.
  - intros [x1 x2]. cbn. unfold qmul. cbn. apply (f_equal2 (@pair K K)); ring.
  - intros [x1 x2]. cbn. unfold qmul. cbn. apply (f_equal2 (@pair K K)); ring.
Qed.
Definition pr (s : list K) : Q := (coef s 0, coef s 1).
Definition small (s : list K) : Prop := normal s /\ length s <= 2.
Lemma coef_mul_small : forall f g : list K, length f <= 2 -> length g <= 2 ->
  coef (mulp K f g) 0 = fmul (coef f 0) (coef g 0) /\ coef (mulp K f g) 1 = fadd (fmul (coef f 0) (coef g 1)) (fmul (coef f 1) (coef g 0)) /\
  coef (mulp K f g) 2 = fmul (coef f 1) (coef g 1) /\ forall i, 3 <= i -> coef (mulp K f g) i = f0.
Proof.
  intros f g Lf Lg. destruct f as [ | f0' [ | f1' [ | ? ?]]]; cbn [length] in Lf; try lia; destruct g as [ | g0 [ | g1 [ | ? ?]]]; cbn [length] in Lg; try lia;
  (split; [cbn; ring | ]; split; [cbn; ring | ]; split; [cbn; ring | ]; intros [ | [ | [ | i]]] Hi; try lia; cbn; destruct i; auto).
Qed.
Lemma fold_ok : forall f g : list K, small f -> small g -> exists t, (s <- mul_value K f g ;; fold_square K a s) = Ok t /\ small t /\ pr t = fmul (f := Q) (pr f) (pr g).
Proof.
  intros f g [Nf Lf] [Ng Lg]. destruct (mul_value_ok K HK f g) as (s & E & Ns & Es). rewrite E. cbn [bind].
  destruct (coef_mul_small f g Lf Lg) as (C0 & C1 & C2 & C3). rewrite <- Es in C0, C1, C2. 
  assert (Ls : length s <= 3) by (apply (normal_length K); auto; intros i Hi; rewrite Es; apply C3; auto).
  unfold fold_square. destruct (Z.eqb_spec (poly_degree K s) 2) as [D | D]; unfold poly_degree in D.
  - destruct s as [ | s0 [ | s1 [ | s2 [ | ? ?]]]]; cbn [length] in D; try lia.
    cbn in C0, C1, C2. 
    set (u := [fadd s0 (fmul s2 a); s1]). exists (trim u). split; [transitivity (poly_remove_leading_zeroes K u); [reflexivity | apply (remove_ok K HK)] | ].
    assert (Eu : u = [fadd s0 (fmul s2 a); s1]) by reflexivity. split.
    + split; [apply (trim_normal K HK) | ]. pose proof (trim_length K HK u) as L. rewrite Eu in L at 2. cbn in L. auto.
    + unfold pr. rewrite !(coef_trim K HK), Eu. cbn. unfold qmul. cbn. rewrite C0, C1, C2. apply (f_equal2 (@pair K K)); ring.
  - assert (L2 : length s <= 2) by lia. exists s. split; auto. split; [split; auto | ]. assert (Z2 : coef s 2 = f0) by (apply coef_over; lia).
    unfold pr. cbn. unfold qmul. cbn. rewrite C0, C1. rewrite Z2 in C2. rewrite <- C2. apply (f_equal2 (@pair K K)); ring.
Qed.
Lemma bit_split : forall z i, (0 <= z)%Z -> Z.to_nat (z mod 2 ^ Z.of_nat (S i)) = (if mpz_tstbit z (Z.of_nat i) then 1 else 0) * 2 ^ i + Z.to_nat (z mod 2 ^ Z.of_nat i).
Proof.
  intros z i Hz. unfold mpz_tstbit. rewrite Z.testbit_spec' with (a := z) (n := Z.of_nat i) || idtac.
  rewrite Nat2Z.inj_succ, Z.pow_succ_r by lia. pose proof (Z.pow_pos_nonneg 2 (Z.of_nat i) ltac:(lia) ltac:(lia)) as P.
  rewrite (Z.mul_comm 2), Z.rem_mul_r by lia. pose proof (Z.testbit_spec' z (Z.of_nat i) ltac:(lia)) as T.
  pose proof (Z.mod_pos_bound z (2 ^ Z.of_nat i) P). rewrite <- T.
  apply Nat2Z.inj. rewrite Nat2Z.inj_add, Nat2Z.inj_mul, Nat2Z.inj_pow, !Z2Nat.id by (destruct (Z.testbit z (Z.of_nat i)); cbn [Z.b2z]; lia).
  change (Z.of_nat 2) with 2%Z. destruct (Z.testbit z (Z.of_nat i)); cbn [Z.b2z]; lia.
Qed.
Lemma sqrt_power_ok : forall i z r s k, (0 <= z)%Z -> small r -> small s -> pr s = npow (pr r : mul_monoid Q) k ->
  exists t, sqrt_power K i z a r s = Ok t /\ small t /\
    pr t = npow (pr r : mul_monoid Q) (k * 2 ^ i + Z.to_nat (z mod 2 ^ Z.of_nat i)).
Proof.
  pose proof Q_monoid as QM. induction i as [ | i IH]; intros z r s k Hz Hr Hs Hk.
  - exists s. split; auto. split; auto. change (Z.of_nat 0) with 0%Z. rewrite Z.pow_0_r, Z.mod_1_r. cbn [Z.to_nat Nat.pow].
    replace (k * 1 + 0) with k by lia. auto.
  - cbn [sqrt_power]. destruct (fold_ok s s Hs Hs) as (s1 & E1 & S1 & P1). 
    destruct (mul_value K s s) as [m | | | ]; try discriminate E1. cbn [bind] in *. rewrite E1. cbn [bind].
    rewrite bit_split by auto. set (b := if mpz_tstbit z (Z.of_nat i) then 1 else 0).
    assert (P1' : pr s1 = npow (pr r : mul_monoid Q) (k + k)) by (rewrite (npow_add (mul_monoid Q) QM), <- Hk; exact P1).
    assert (H2 : exists s2, (if mpz_tstbit z (Z.of_nat i) then s' <- mul_value K s1 r ;; fold_square K a s' else Ok s1) = Ok s2 /\ small s2 /\
      pr s2 = npow (pr r : mul_monoid Q) (k + k + b)).
    { unfold b. destruct (mpz_tstbit z (Z.of_nat i)).
      - destruct (fold_ok s1 r S1 Hr) as (s2 & E2 & S2 & P2). exists s2. split; auto. split; auto. rewrite P2, P1'.
        transitivity (mmul (mul_monoid Q) (npow (pr r : mul_monoid Q) (k + k)) (npow (pr r : mul_monoid Q) 1)); [ | symmetry; apply (npow_add _ QM)].
        apply (f_equal (mmul (mul_monoid Q) _)). symmetry. apply (m_1_r _ QM).
      - exists s1. split; auto. split; auto. rewrite Nat.add_0_r. exact P1'. }
    destruct H2 as (s2 & E2 & S2 & P2). rewrite E2. cbn [bind]. destruct (IH z r s2 (k + k + b) Hz Hr S2 P2) as (t & Et & St & Pt). exists t. split; auto. split; auto.
    rewrite Pt. f_equal. cbn [Nat.pow]. lia.
Qed.
(** the power computed for a drawn x *)
Lemma power_drawn : forall x : K, exists t, sqrt_power K (Z.to_nat (sizeinbase2 h)) h a [x; f1] [f1] = Ok t /\ small t /\
  pr t = npow ((x, f1) : mul_monoid Q) (Z.to_nat h).
Proof.
  intro x. pose proof h_pos as [Hh _]. pose proof (sizeinbase2_bound h ltac:(lia)) as B. pose proof (sizeinbase2_pos h).
  destruct (sqrt_power_ok (Z.to_nat (sizeinbase2 h)) h [x; f1] [f1] 0) as (t & E & S & P); try lia.
  - split; [intros _; cbn; apply (f_1_neq_0 K HK) | cbn; lia].
  - split; [intros _; cbn; apply (f_1_neq_0 K HK) | cbn; lia].
  - reflexivity.
  - exists t. split; auto. split; auto. rewrite P, Z2Nat.id by lia. rewrite Z.mod_small by lia. reflexivity.
Qed.
(** evaluation at a root of X^2 - a *)
Definition ev (b : K) (v : Q) : K := fadd (fst v) (fmul (snd v) b).
Lemma ev_pow : forall b (v : Q) n, fmul b b = a -> ev b (npow (v : mul_monoid Q) n) = npow (ev b v : mul_monoid K) n.
Proof.
  intros b v n Hb. induction n as [ | n IH].
  - cbn [npow mul_monoid mone]. unfold ev. cbn. ring.
  - cbn [npow mul_monoid mmul]. rewrite <- IH. generalize (npow (v : mul_monoid Q) n). intros [w1 w2]. destruct v as [v1 v2].
    unfold ev. cbn. unfold qmul. cbn. rewrite <- Hb. ring.
Qed.
End A.

Lemma fpow_npow : forall (x : K) z, fpow x z = npow (x : mul_monoid K) (Z.to_nat z). Proof. reflexivity. Qed.
Lemma fofz_zero : fofz 0 = (f0 : K). Proof. reflexivity. Qed.
Lemma char_q : fofz q = (f0 : K).
Proof. destruct HO as (l & N & C & L). rewrite <- L. apply (char_order K HK l N C). Qed.
Lemma fofz_2h : fadd (fmul (fadd f1 f1) (fofz h)) f1 = (f0 : K).
Proof.
  pose proof h_pos as [_ Eq]. rewrite <- char_q. rewrite Eq at 2. rewrite (fofz_add K HK), (fofz_mul K HK).
  assert (E1 : fofz 1 = (f1 : K)) by (change 1%Z with (Z.succ 0); rewrite (fofz_succ K HK), fofz_zero; ring).
  assert (E2 : fofz 2 = (fadd f1 f1 : K)) by (change 2%Z with (1 + 1)%Z; rewrite (fofz_add K HK), E1; auto). rewrite E1, E2. ring.
Qed.
Lemma two_nz : fadd f1 f1 <> (f0 : K).
Proof. intro E. pose proof fofz_2h as Q. rewrite E in Q. apply (f_1_neq_0 K HK). rewrite <- Q. ring. Qed.
Lemma square_dec : forall x : K, is_square x \/ ~ is_square x.
Proof.
  intro x. destruct HO as (l & _ & All & _). destruct (Exists_dec (fun y => fmul y y = x) l (fun y => f_eq_dec K HK (fmul y y) x)) as [E | E].
  - left. apply Exists_exists in E. destruct E as (y & _ & R). exists y. auto.
  - right. intros (y & R). apply E, Exists_exists. eauto.
Qed.
Lemma chi : forall x : K, x <> f0 -> (is_square x /\ fpow x h = f1) \/ (~ is_square x /\ fpow x h = fopp f1).
Proof. intros x Hx. destruct (square_dec x) as [S | S]; [left | right]; split; auto; [apply (euler_f K HK q HO Hodd x Hx); auto | apply (nonsquare_f K HK q HO Hodd); auto]. Qed.
Lemma chi_mul : forall x y : K, fpow (fmul x y) h = fmul (fpow x h) (fpow y h).
Proof. intros. rewrite !fpow_npow. apply (npow_mul_base K HK). Qed.
Lemma neg1 : fopp f1 <> (f1 : K).
Proof. intro E. apply two_nz. rewrite <- E at 1. ring. Qed.

(** ** One value drawn *)
Definition good (a x : K) : Prop := fmul x x = a \/ (a <> f0 /\ ~ is_square (fsub (fmul x x) a)) \/ (a = f0 /\ ~ is_square x).
Lemma pr_dual : forall (x : K) n, npow ((x, f1) : mul_monoid (Quad K f0)) (S n) = (npow (x : mul_monoid K) (S n), fmul (fofz (Z.of_nat (S n))) (npow (x : mul_monoid K) n)).
Proof.
  intros x n. induction n as [ | n IH].
  - cbn [npow mul_monoid mmul mone]. change (Z.of_nat 1) with (Z.succ 0). rewrite (fofz_succ K HK), fofz_zero. cbn. unfold qmul. cbn. apply (f_equal2 (@pair K K)); ring.
  - change (npow ((x, f1) : mul_monoid (Quad K f0)) (S (S n))) with (qmul K f0 (x, f1) (npow ((x, f1) : mul_monoid (Quad K f0)) (S n))). rewrite IH.
    rewrite (Nat2Z.inj_succ (S n)), (fofz_succ K HK). unfold qmul. cbn [fst snd]. cbn [npow mul_monoid mmul]. apply (f_equal2 (@pair K K)); ring.
Qed.
Lemma step_ok : forall a x src, is_square a ->
  (good a x -> exists y, polymod_sqrt K q (x :: src) a = Ok (y, src) /\ fmul y y = a) /\
  (~ good a x -> polymod_sqrt K q (x :: src) a = polymod_sqrt K q src a).
Proof.
  intros a x src (b & Hb). cbn [polymod_sqrt]. destruct (feqb (fmul x x) a) eqn:E1.
  { apply (feqb_eq K HK) in E1. split; [exists x; auto | ]. intro G. exfalso. apply G. left. auto. }
  apply (feqb_neq K HK) in E1. destruct (power_drawn a x) as (s & Es & [Ns Ls] & Ps). rewrite Es. cbn [bind].
  assert (GET : (poly_degree K s >= 1)%Z -> get s 0 = Ok (coef s 0) /\ get s 1 = Ok (coef s 1) /\ coef s 1 <> f0).
  { unfold poly_degree. intro D. destruct s as [ | s0 [ | s1 [ | ? ?]]]; cbn [length] in *; try lia. split; [reflexivity | ]. split; [reflexivity | ]. apply (Ns ltac:(discriminate)). }
  assert (LOW : (poly_degree K s < 1)%Z -> coef s 1 = f0) by (unfold poly_degree; intro D; apply coef_over; lia).
  assert (CASES : (~ good a x /\ coef s 1 = f0) \/ (coef s 1 <> f0 /\ (good a x <-> fmul (fdiv (fadd (coef s 0) f1) (coef s 1)) (fdiv (fadd (coef s 0) f1) (coef s 1)) = a))).
  { destruct (f_eq_dec K HK a f0) as [Za | Za].
    - right. clear b Hb. subst a.
      assert (Xz : x <> f0) by (intro; subst x; apply E1; ring).
      pose proof h_pos as [Hh _]. destruct (Z.to_nat h) as [ | m] eqn:Em; [lia | ]. rewrite pr_dual in Ps.
      pose proof (f_equal fst Ps) as P0. pose proof (f_equal snd Ps) as P1. unfold pr in P0, P1. cbn [fst snd] in P0, P1.
      replace (Z.of_nat (S m)) with h in P1 by lia. rewrite <- Em in P0. rewrite <- fpow_npow in P0.
      assert (Fz : fofz h <> (f0 : K)) by (intro Q; pose proof fofz_2h as Q2; rewrite Q in Q2; apply (f_1_neq_0 K HK); rewrite <- Q2; ring).
      assert (NZ : coef s 1 <> f0). { rewrite P1. apply (f_mul_nz K HK); auto. apply (npow_nz K HK); auto. }
      split; auto. unfold good. rewrite P0. destruct (chi x Xz) as [[Sx ->] | [Sx ->]].
      + split; [intros [Q | [[Q _] | [_ Q]]]; [contradiction | congruence | contradiction] | ]. intro Q. exfalso.
        assert (NN : fdiv (fadd f1 f1) (coef s 1) <> f0).
        { intro Q1. apply two_nz. transitivity (fmul (fdiv (fadd f1 f1) (coef s 1)) (coef s 1)); [field; auto | rewrite Q1; ring]. }
        apply (f_mul_nz K HK _ _ NN NN). rewrite Q. ring.
      + split; auto. intros _. field. auto.
    - assert (Bz : b <> f0) by (intro; subst b; apply Za; rewrite <- Hb; ring).
      assert (V1 := ev_pow a b (x, f1) (Z.to_nat h) Hb). assert (V2 := ev_pow a (fopp b) (x, f1) (Z.to_nat h) ltac:(rewrite <- Hb; ring)).
      rewrite <- Ps in V1, V2. unfold ev, pr in V1, V2. cbn [fst snd] in V1, V2. rewrite <- fpow_npow in V1, V2.
      set (u := fadd x (fmul f1 b)) in *. set (w := fadd x (fmul f1 (fopp b))) in *.
      assert (UW : fmul u w = fsub (fmul x x) a) by (unfold u, w; rewrite <- Hb; ring).
      assert (N0 : fsub (fmul x x) a <> f0) by (intro Q; apply E1; transitivity (fadd (fsub (fmul x x) a) a); [ring | rewrite Q; ring]).
      assert (Uz : u <> f0) by (intro Q; apply N0; rewrite <- UW, Q; ring). assert (Wz : w <> f0) by (intro Q; apply N0; rewrite <- UW, Q; ring).
      pose proof (chi_mul u w) as M. rewrite UW in M.
      assert (T2 := two_nz). pose proof neg1 as N1.
      assert (S0 : fmul (fadd f1 f1) (coef s 0) = fadd (fpow u h) (fpow w h)) by (rewrite <- V1, <- V2; ring).
      assert (S1 : fmul (fmul (fadd f1 f1) b) (coef s 1) = fsub (fpow u h) (fpow w h)) by (rewrite <- V1, <- V2; ring).
      assert (E0' : coef s 0 = fdiv (fadd (fpow u h) (fpow w h)) (fadd f1 f1)) by (rewrite <- S0; field; auto).
      assert (E1' : coef s 1 = fdiv (fsub (fpow u h) (fpow w h)) (fmul (fadd f1 f1) b)) by (rewrite <- S1; field; auto).
      unfold good. destruct (chi u Uz) as [[_ Cu] | [_ Cu]], (chi w Wz) as [[_ Cw] | [_ Cw]]; rewrite Cu, Cw in E0', E1', M.
      + left. split; [ | rewrite E1'; field; auto]. intros [Q | [[_ Q] | [Q _]]]; try contradiction. apply Q. apply (euler_f K HK q HO Hodd _ N0). rewrite M. ring.
      + right. assert (X0 : coef s 0 = f0) by (rewrite E0'; field; auto). assert (X1 : coef s 1 = fdiv f1 b) by (rewrite E1'; field; auto).
        rewrite X0, X1. assert (F1 : f1 <> (f0 : K)) by apply (f_1_neq_0 K HK). split.
        { intro Q. apply F1. transitivity (fmul (fdiv f1 b) b); [field; auto | rewrite Q; ring]. }
        split; [intros _; rewrite <- Hb; field; auto | ]. intros _. right. left. split; auto. intro Q. apply (euler_f K HK q HO Hodd _ N0) in Q. apply N1. transitivity (fmul f1 (fopp f1) : K); [ring | congruence].
      + right. assert (X0 : coef s 0 = f0) by (rewrite E0'; field; auto). assert (X1 : coef s 1 = fopp (fdiv f1 b)) by (rewrite E1'; field; auto).
        rewrite X0, X1. assert (F1 : f1 <> (f0 : K)) by apply (f_1_neq_0 K HK). split.
        { intro Q. apply F1. transitivity (fopp (fmul (fopp (fdiv f1 b)) b)); [field; auto | rewrite Q; ring]. }
        split; [intros _; rewrite <- Hb; field; repeat split; auto; intro Q1; change (fopp f1 = (f0 : K)) in Q1; apply F1; transitivity (fopp (fopp f1) : K); [ring | rewrite Q1; ring] | ]. intros _. right. left. split; auto. intro Q. apply (euler_f K HK q HO Hodd _ N0) in Q. apply N1. transitivity (fmul (fopp f1) f1 : K); [ring | congruence].
      + left. split; [ | rewrite E1'; field; auto]. intros [Q | [[_ Q] | [Q _]]]; try contradiction. apply Q. apply (euler_f K HK q HO Hodd _ N0). rewrite M. ring. }
  destruct (Z.ltb_spec (poly_degree K s) 1) as [D | D].
  - rewrite (LOW D) in CASES. destruct CASES as [[G _] | [G _]]; [ | congruence]. split; [contradiction | auto].
  - destruct (GET ltac:(lia)) as (G0 & G1 & G2). rewrite G0, G1. cbn [bind]. destruct CASES as [[_ G] | [_ G]]; [contradiction | ].
    unfold finvert. rewrite (feqb_false K HK) by auto. cbn [bind].
    assert (Ei : fmul (finv (coef s 1)) (fadd (coef s 0) f1) = fdiv (fadd (coef s 0) f1) (coef s 1)) by (field; auto). rewrite Ei.
    match goal with |- context [feqb ?u a] => destruct (feqb u a) eqn:E2 end.
    + apply (feqb_eq K HK) in E2. split; [intros _; eexists; split; [reflexivity | auto] | ]. intro NG. exfalso. apply NG, G. auto.
    + apply (feqb_neq K HK) in E2. split; [intro GG; exfalso; apply E2, G; auto | auto].
Qed.
Lemma good_dec : forall a x, good a x \/ ~ good a x.
Proof.
  intros a x. unfold good. destruct (f_eq_dec K HK (fmul x x) a); auto. destruct (f_eq_dec K HK a f0); destruct (square_dec (fsub (fmul x x) a)); destruct (square_dec x); tauto.
Qed.
Theorem sqrt_sound : forall src a, (exists y src', polymod_sqrt K q src a = Ok (y, src') /\ fmul y y = a) \/ polymod_sqrt K q src a = OutOfFuel.
Proof.
  induction src as [ | x src IH]; intro a; [right; reflexivity | ].
  cbn [polymod_sqrt]. destruct (feqb (fmul x x) a) eqn:E1; [left; exists x, src; split; auto; apply (feqb_eq K HK); auto | ].
  destruct (power_drawn a x) as (s & Es & [Ns Ls] & _). rewrite Es. cbn [bind].
  destruct (Z.ltb_spec (poly_degree K s) 1) as [D | D]; [apply IH | ]. unfold poly_degree in D.
  destruct s as [ | s0 [ | s1 [ | ? ?]]]; cbn [length] in *; try lia. change (get [s0; s1] 0) with (Ok s0). change (get [s0; s1] 1) with (Ok s1). cbn [bind].
  unfold finvert. rewrite (feqb_false K HK) by (apply (Ns ltac:(discriminate))). cbn [bind].
  match goal with |- context [feqb ?u a] => destruct (feqb u a) eqn:E2 end; [ | apply IH].
  left. eexists _, src. split; [reflexivity | apply (feqb_eq K HK); auto].
Qed.
Theorem sqrt_draw : forall a x src, is_square a ->
  (good a x -> exists y, polymod_sqrt K q (x :: src) a = Ok (y, src) /\ fmul y y = a) /\
  (~ good a x -> polymod_sqrt K q (x :: src) a = polymod_sqrt K q src a).
Proof. exact step_ok. Qed.
Theorem sqrt_some : forall src a, is_square a -> (exists x, In x src /\ good a x) -> polymod_sqrt K q src a <> OutOfFuel.
Proof.
  induction src as [ | x src IH]; intros a Sa (x' & I & G); [destruct I | ]. destruct (step_ok a x src Sa) as [S1 S2]. destruct (good_dec a x) as [Gx | Gx].
  - destruct (S1 Gx) as (y & -> & _). discriminate.
  - rewrite S2 by auto. apply IH; auto. destruct I as [<- | I]; [contradiction | eauto].
Qed.
(** ** How many draws succeed *)
Lemma doubling : forall (inv g : K -> K) (P : K -> Prop) S, NoDup S -> (forall x y, g x = g y -> x = y) ->
  (forall x, In x S -> exists u v, u <> v /\ P u /\ P v /\ inv u = g x /\ inv v = g x) ->
  exists L, NoDup L /\ length L = 2 * length S /\ forall u, In u L -> P u /\ exists x, In x S /\ inv u = g x.
Proof.
  intros inv g P S ND Gi. induction ND as [ | x S Nx ND IH]; intros H.
  - exists []. split; [constructor | ]. split; auto. intros u [].
  - destruct IH as (L & NL & LL & IL); [intros; apply H; right; auto | ]. destruct (H x (or_introl eq_refl)) as (u & v & Ne & Pu & Pv & Iu & Iv).
    assert (NI : forall w, inv w = g x -> ~ In w L) by (intros w Iw I; destruct (IL w I) as (_ & x' & Ix & E); apply Nx; rewrite Iw in E; apply Gi in E; congruence).
    exists (u :: v :: L). split; [constructor; [intros [Q | Q]; [congruence | apply (NI u); auto] | constructor; auto] | ].
    split; [cbn [length]; lia | ]. intros w [<- | [<- | I]].
    + split; auto. exists x. split; [left | ]; auto.
    + split; auto. exists x. split; [left | ]; auto.
    + destruct (IL w I) as (? & x' & ? & ?). split; auto. exists x'. split; [right | ]; auto.
Qed.
Theorem good_draws : forall a, is_square a -> exists G : list K, NoDup G /\ (forall x, In x G -> good a x) /\ (q < 2 * Z.of_nat (length G))%Z.
Proof.
  intros a (b & Hb). pose proof HO as (l & N & C & L).
  assert (SP : forall l' : list K, NoDup l' -> exists G B, NoDup G /\ NoDup B /\ length l' = length G + length B /\ (forall x, In x G -> good a x /\ In x l') /\ (forall x, In x B -> ~ good a x /\ In x l')).
  { induction 1 as [ | x l' Nx ND (G & B & NG & NB & LE & GG & BB)]; [exists [], []; repeat split; try constructor; destruct H | ].
    destruct (good_dec a x) as [Gx | Gx].
    - exists (x :: G), B. split; [constructor; auto; intro I; apply Nx, GG; auto | ]. split; auto. split; [cbn [length]; lia | ]. split; [ | intros y I; split; [ | right]; apply BB; auto].
      intros y [<- | I]; [split; [ | left]; auto | split; [ | right]; apply GG; auto].
    - exists G, (x :: B). split; auto. split; [constructor; auto; intro I; apply Nx, BB; auto | ]. split; [cbn [length]; lia | ]. split; [intros y I; split; [ | right]; apply GG; auto | ].
      intros y [<- | I]; [split; [ | left]; auto | split; [ | right]; apply BB; auto]. }
  destruct (SP l N) as (G & B & NG & NB & LE & GG & BB). exists G. split; auto. split; [apply GG | ].
  assert (BL : 2 * length B + 1 <= length l).
  { assert (DB : exists D : list K, NoDup D /\ length D = 2 * length B /\ forall u, In u D -> u <> f0).
    { pose proof two_nz as T2. destruct (f_eq_dec K HK a f0) as [Za | Za].
      - destruct (doubling (fun u => fmul u u) (fun x => x) (fun u => u <> f0) B NB ltac:(auto)) as (D & D1 & D2 & D3); [ | exists D; split; auto; split; auto; intros u I; apply D3; auto].
        intros x Ix. destruct (BB x Ix) as [NG' _]. unfold good in NG'. assert (Sx : is_square x) by (destruct (square_dec x); auto; exfalso; apply NG'; auto).
        destruct Sx as [y Hy]. assert (Xz : x <> f0) by (intro Q; apply NG'; left; rewrite Za, Q; ring).
        assert (Yz : y <> f0) by (intro Q; apply Xz; rewrite <- Hy, Q; ring).
        exists y, (fopp y). split; [ | split; auto; split; [ | split; auto; rewrite <- Hy; ring]].
        + intro Q. apply (f_mul_nz K HK _ _ T2 Yz). transitivity (fsub y (fopp y)); [ring | ]. rewrite <- Q. ring.
        + intro Q. apply Yz. transitivity (fopp (fopp y)); [ring | rewrite Q; ring].
      - destruct (doubling (fun u => fadd u (fdiv a u)) (fun x => fmul (fadd f1 f1) x) (fun u => u <> f0) B NB) as (D & D1 & D2 & D3); [ | | exists D; split; auto; split; auto; intros u I; apply D3; auto].
        + intros x y Q. transitivity (fdiv (fmul (fadd f1 f1) x) (fadd f1 f1)); [field; auto | rewrite Q; field; auto].
        + intros x Ix. destruct (BB x Ix) as [NG' _]. unfold good in NG'.
          assert (Sx : is_square (fsub (fmul x x) a)) by (destruct (square_dec (fsub (fmul x x) a)); auto; exfalso; apply NG'; auto).
          destruct Sx as [y Hy]. assert (Pa : fmul (fadd x y) (fsub x y) = a) by (transitivity (fsub (fmul x x) (fmul y y)); [ring | rewrite Hy; ring]).
          assert (Yz : y <> f0) by (intro Q; apply NG'; left; rewrite <- Pa, Q; ring).
          assert (U1 : fadd x y <> f0) by (intro Q; apply Za; rewrite <- Pa, Q; ring). assert (U2 : fsub x y <> f0) by (intro Q; apply Za; rewrite <- Pa, Q; ring).
          exists (fadd x y), (fsub x y). split; [ | split; auto; split; auto; rewrite <- Pa; split; field; auto].
          intro Q. apply (f_mul_nz K HK _ _ T2 Yz). transitivity (fsub (fadd x y) (fsub x y)); [ring | rewrite Q; ring]. }
    destruct DB as (D & D1 & D2 & D3). assert (LD : length (f0 :: D) <= length l).
    { apply NoDup_incl_length; [constructor; auto; intro I; apply (D3 _ I); auto | intros x _; apply C]. }
    cbn [length] in LD. lia. }
  lia.
Qed.
End S.
