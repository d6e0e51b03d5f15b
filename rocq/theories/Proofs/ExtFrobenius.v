(** The q-th power map on K[X]/(m), K = F_q, and the constants K. *)
From Coq Require Import ZArith List Bool Lia Arith Ring Field Setoid Morphisms Znumtheory.
From Verif.Base Require Import Outcome Array Algebra Slots.
From Verif.Spec Require Import FiniteField Polynomials Extension Quadratic Curve Twist.
From Verif.Model Require Import Poly PairingA Miller PairingD.
From Verif.Proofs Require Import PowFacts FieldFacts SlotFacts QuadFacts PolyAlgebra PolyFacts ExtFacts PolymodFacts PolymodRuns Embed FieldChar Frobenius LucasFacts.
Import ListNotations.
Open Scope nat_scope.

Section P.
Variable K : fld.
Hypothesis HK : fld_laws K.
Add Field KFxf : (fl_field K HK).
Add Ring PolyRxf : (poly_ring K HK) (setoid (eqp_equiv K) (poly_ext K HK)).
Existing Instance eqp_equiv.
Local Instance addp_properx : Proper (eqp ==> eqp ==> eqp) (addp K) := addp_proper K HK.
Local Instance mulp_properx : Proper (eqp ==> eqp ==> eqp) (mulp K) := mulp_proper K HK.
Local Instance cong_equivx m : Equivalence (cong m) := cong_equiv K HK m.
Local Instance eqp_congx m : subrelation (@eqp K) (cong m) := eqp_cong K HK m.
Local Instance mulp_congx m : Proper (cong m ==> cong m ==> cong m) (mulp K) := mulp_cong K HK m.
Variables (n : nat) (m : list K).
Hypothesis Hm : monic m n.
Hypothesis Hi : irreducible m.
Hypothesis Hn : 2 <= n.
Local Notation M := (Ext K n m).
Local Notation cv := (cvec K n m).
Lemma n_pos : 0 < n. Proof. lia. Qed.
Let HM : fld_laws M := Ext_laws K HK n m Hm n_pos Hi.
Add Field MFxf : (fl_field M HM).
Lemma vc_add : forall (x y : M) i, vcoef (fadd x y) i = fadd (vcoef x i) (vcoef y i).
Proof. intros. cbn [fadd Ext]. rewrite vcoef_mk. destruct (Nat.ltb_spec i n); auto. rewrite !vcoef_over by auto. ring. Qed.
Lemma vc_cv : forall c i, vcoef (cv c) i = if i =? 0 then c else f0.
Proof. intros. unfold cvec. rewrite vcoef_mk. destruct (Nat.ltb_spec i n); auto. destruct (Nat.eqb_spec i 0); auto. lia. Qed.
Lemma cvec_embedding : embedding K M cv.
Proof.
  split.
  - apply vec_ext. intros i Hi'. rewrite vc_cv. cbn [f0 Ext]. rewrite vcoef_mk. destruct (i <? n), (i =? 0); auto.
  - apply vec_ext. intros i Hi'. rewrite vc_cv. cbn [f1 Ext]. rewrite vcoef_mk. destruct (Nat.ltb_spec i n); [ | lia]. destruct (i =? 0); auto.
  - intros. apply vec_ext. intros i Hi'. rewrite vc_add, !vc_cv. destruct (i =? 0); auto. ring.
  - intros. rewrite (cvec_mul K HK n m Hm n_pos). apply vec_ext. intros i Hi'. rewrite vcoef_mk, !vc_cv. destruct (Nat.ltb_spec i n); [ | lia]. destruct (i =? 0); auto. ring.
Qed.
(** ** x^i *)
Definition unitv (i : nat) : M := mkvec n (fun j => if j =? i then f1 else f0).
Lemma vl_unit : forall i, i < n -> eqp (vl K n (unitv i)) (mono K i f1).
Proof.
  intros i H j. rewrite coef_mono. change (vcoef (unitv i) j = if j =? i then f1 else f0). unfold unitv. rewrite vcoef_mk.
  destruct (Nat.ltb_spec j n); auto. destruct (Nat.eqb_spec j i); auto. lia.
Qed.
Local Notation X := (xelem K n m).
Lemma x_pow : forall i, i < n -> pw M X i = unitv i.
Proof.
  induction i; intros H; [reflexivity | ]. rewrite pow_S, IHi by lia. apply (vec_cong K HK n m Hm). rewrite (E_mul K HK n m Hm n_pos). apply (eqp_cong K HK).
  change (xelem K n m) with (unitv 1). rewrite (vl_unit 1), (vl_unit i), (vl_unit (S i)) by lia.
  assert (E : eqp (mono K 1 f1) [f0; f1]) by reflexivity. rewrite E. rewrite mono_S by exact HK.
  intro j. pose proof (cons_split K HK f0 (mono K i f1) j) as C. rewrite C. rewrite (coef_addp K HK).
  assert (Z : coef [f0 : K] j = f0) by (destruct j; [reflexivity | apply coef_nil]). rewrite Z. ring.
Qed.
Lemma vc_sum : forall t k i, vcoef (Frobenius.sum M k t) i = Frobenius.sum K k (fun j => vcoef (t j : M) i).
Proof.
  intros t k i. induction k; cbn [Frobenius.sum]; [ | rewrite vc_add, IHk; reflexivity]. cbn [f0 Ext]. rewrite vcoef_mk. destruct (i <? n); auto.
Qed.
Lemma sum_pick : forall (t : nat -> K) k i, i < k -> Frobenius.sum K k (fun j => if i =? j then t j else f0) = t i.
Proof.
  intros t k i. induction k; intros H; [lia | ]. cbn [Frobenius.sum]. destruct (Nat.eqb_spec i k) as [-> | N].
  - rewrite (sum_zero K HK); [ring | ]. intros j Hj. destruct (Nat.eqb_spec k j); auto. lia.
  - rewrite IHk by lia. ring.
Qed.
Lemma expand : forall a : M, a = Frobenius.sum M n (fun i => fmul (cv (vcoef a i)) (pw M X i)).
Proof.
  intros a. apply vec_ext. intros i H. rewrite vc_sum. rewrite (Frobenius.sum_ext K n _ (fun j => if i =? j then vcoef a j else f0)).
  - rewrite sum_pick by auto. reflexivity.
  - intros j Hj. rewrite x_pow by auto. rewrite (cvec_mul K HK n m Hm n_pos). unfold unitv. rewrite !vcoef_mk.
    destruct (Nat.ltb_spec i n); [ | lia]. destruct (i =? j); ring.
Qed.
(** ** The q-th power *)
Variable q : Z.
Hypothesis Pq : prime q.
Hypothesis HO : has_order K q.
Lemma ext_order : has_order M (q ^ Z.of_nat n). Proof. apply (Ext_order K n m q HO). Qed.
Lemma charM : (fofz q : M) = f0.
Proof.
  pose proof (prime_ge_2 q Pq). destruct ext_order as (elems & HN & HE & HL).
  assert (C := char_order M HM elems HN HE). rewrite HL in C.
  assert (E : (q ^ Z.of_nat n)%Z = Z.of_nat (Z.to_nat q ^ n)) by (rewrite Nat2Z.inj_pow, Z2Nat.id by lia; reflexivity).
  rewrite E in C. apply (char_p M HM) in C. rewrite Z2Nat.id in C by lia. exact C.
Qed.
Local Notation Q := (Z.to_nat q).
Lemma q_pw_add : forall x y : M, pw M (fadd x y) Q = fadd (pw M x Q) (pw M y Q).
Proof. intros. pose proof (prime_ge_2 q Pq). apply (frob_p M HM); rewrite Z2Nat.id by lia; [exact Pq | exact charM]. Qed.
Lemma pw_mul : forall (x y : M) k, pw M (fmul x y) k = fmul (pw M x k) (pw M y k).
Proof. intros. unfold pw. exact (npow_mul_base M HM x y k). Qed.
Lemma pw_0 : pw M f0 Q = f0. Proof. pose proof (prime_ge_2 q Pq). apply (npow_0_pos M HM). lia. Qed.
Lemma pw_pw : forall (x : M) i j, pw M (pw M x i) j = pw M (pw M x j) i.
Proof. intros. unfold pw. rewrite <- !(npow_mul (mul_monoid M) (mul_monoid_laws M HM)). f_equal. lia. Qed.
Lemma q_pw_sum : forall k t, pw M (Frobenius.sum M k t) Q = Frobenius.sum M k (fun i => pw M (t i) Q).
Proof. induction k; intros t; cbn [Frobenius.sum]; [apply pw_0 | ]. rewrite q_pw_add, IHk. reflexivity. Qed.
Lemma fermatK : forall c : K, pw K c Q = c.
Proof.
  intros c. pose proof (prime_ge_2 q Pq). destruct HO as (elems & HN & HE & HL). destruct (f_eq_dec K HK c f0) as [-> | N]; [apply (npow_0_pos K HK); lia | ].
  pose proof (fermat K HK elems HN HE c N) as E. replace Q with (S (length elems - 1)) by lia. unfold pw. cbn [npow]. rewrite E. cbn. ring.
Qed.
Lemma cv_pw : forall c k, pw M (cv c) k = cv (pw K c k).
Proof.
  intros c k. induction k; [symmetry; apply (em_1 _ _ _ cvec_embedding) | ]. rewrite !pow_S, IHk. symmetry. apply (em_mul _ _ _ cvec_embedding).
Qed.
Lemma q_pw_cv : forall c, pw M (cv c) Q = cv c. Proof. intros. rewrite cv_pw, fermatK. reflexivity. Qed.
Definition Xq : M := pw M X Q.
Definition lin (a y : M) : M := Frobenius.sum M n (fun i => fmul (cv (vcoef a i)) (pw M y i)).
Theorem q_pw : forall a : M, pw M a Q = lin a Xq.
Proof.
  intros a. rewrite (expand a) at 1. rewrite q_pw_sum. unfold lin. apply Frobenius.sum_ext. intros i Hi'. rewrite pw_mul, q_pw_cv. f_equal. apply pw_pw.
Qed.
(** ** qpower *)
Lemma const_mul_cv : forall c (e : M), const_mul K n m c e = fmul (cv c) e.
Proof. intros. rewrite (cvec_mul K HK n m Hm n_pos). unfold const_mul. apply vec_ext. intros i H. rewrite !vcoef_mk. destruct (i <? n); auto. ring. Qed.
Lemma add_at0_cv : forall (e : M) c, add_at0 K n m e c = fadd e (cv c).
Proof. intros. apply vec_ext. intros i H. unfold add_at0. rewrite vc_add, vc_cv, vcoef_mk. destruct (Nat.ltb_spec i n); [ | lia]. destruct (i =? 0); ring. Qed.
Lemma vc_sub : forall (x y : M) i, vcoef (fsub x y) i = fsub (vcoef x i) (vcoef y i).
Proof. intros. cbn [fsub Ext]. rewrite vcoef_mk. destruct (Nat.ltb_spec i n); auto. rewrite !vcoef_over by auto. ring. Qed.
Lemma sub_at0_cv : forall (e : M) c, sub_at0 K n m e c = fsub e (cv c).
Proof. intros. apply vec_ext. intros i H. unfold sub_at0. rewrite vc_sub, vc_cv, vcoef_mk. destruct (Nat.ltb_spec i n); [ | lia]. destruct (i =? 0); ring. Qed.
Lemma add_0 : forall e : M, e = fadd e f0. Proof. intros. ring. Qed.
Lemma add_3 : forall a b d : M, fadd (fadd a b) d = fadd a (fadd b d). Proof. intros. ring. Qed.
Lemma add_4 : forall t z y : M, fadd t z = fadd (fmul z (pw M y 0)) t. Proof. intros. replace (pw M y 0) with (f1 : M) by reflexivity. ring. Qed.
Lemma add_powers_ok : forall (c y : M) k i e, add_powers K n m e c i (map (pw M y) (seq i k)) = fadd e (Frobenius.sum M k (fun j => fmul (cv (vcoef c (i + j))) (pw M y (i + j)))).
Proof.
  intros c y k. induction k; intros i e; cbn [seq map add_powers]; [apply add_0 | ].
  rewrite IHk, (sum_shift M HM), const_mul_cv, Nat.add_0_r.
  rewrite (Frobenius.sum_ext M k (fun j => fmul (cv (vcoef c (i + S j))) (pw M y (i + S j))) (fun j => fmul (cv (vcoef c (S i + j))) (pw M y (S i + j)))); [apply add_3 | ].
  intros j _. replace (i + S j) with (S i + j) by lia. reflexivity.
Qed.
Lemma opp_opp : forall e : M, e = fopp (fopp e). Proof. intros. ring. Qed.
Lemma opp_sub : forall e w : M, fopp (fsub e w) = fadd (fopp e) w. Proof. intros. ring. Qed.
Lemma opp_add : forall e w : M, fsub (fopp e) w = fopp (fadd e w). Proof. intros. ring. Qed.
Lemma sub_powers_ok : forall c xs i e, sub_powers K n m e c i xs = fopp (add_powers K n m (fopp e) c i xs).
Proof.
  intros c xs. induction xs as [ | x xs IH]; intros i e; cbn [sub_powers add_powers]; [apply opp_opp | ].
  rewrite IH. f_equal. f_equal. apply opp_sub.
Qed.
Definition qpows : list M := map (pw M Xq) (seq 1 (n - 1)).
Theorem qpos_ok : forall c : M, qpos K n m c qpows = pw M c Q.
Proof.
  intros c. rewrite q_pw. unfold qpows. replace (n - 1) with (S (n - 2)) by lia. cbn [seq map qpos].
  rewrite add_powers_ok, const_mul_cv, add_at0_cv. unfold lin. assert (EN : n = S (S (n - 2))) by lia. match goal with |- _ = Frobenius.sum M n ?g => replace (Frobenius.sum M n g) with (Frobenius.sum M (S (S (n - 2))) g) by (f_equal; auto) end.
  rewrite !(sum_shift M HM). cbn [Nat.add]. apply add_4.
Qed.
Theorem qneg_ok : forall c : M, qneg K n m c qpows = fopp (pw M c Q).
Proof.
  intros c. rewrite <- qpos_ok. unfold qpows. replace (n - 1) with (S (n - 2)) by lia. cbn [seq map qneg qpos].
  rewrite sub_powers_ok, sub_at0_cv, add_at0_cv.
  match goal with |- fsub (fopp (add_powers _ _ _ ?a _ _ _)) _ = fopp (fadd (add_powers _ _ _ ?b _ _ _) _) => replace a with b by apply opp_opp end. apply opp_add.
Qed.
(** ** Nonsquares of K stay nonsquares in M when n is odd *)
Hypothesis Odd : (2 < q)%Z.
Hypothesis On : Nat.odd n = true.
Variable c : K.
Hypothesis NS : ~ is_square c.
Lemma q_half : Q = 2 * (Q / 2) + 1.
Proof.
  assert (O : Nat.odd Q = true).
  { destruct (Nat.odd Q) eqn:E; auto. exfalso. rewrite <- Nat.negb_even in E. apply negb_false_iff in E. apply Nat.even_spec in E. destruct E as [w E].
    destruct (prime_divisors _ Pq 2) as [D | [D | [D | D]]]; try lia. exists (Z.of_nat w). lia. }
  pose proof (Nat.div_mod Q 2 ltac:(lia)) as D. apply Nat.odd_spec in O. destruct O as [w O].
  assert (Q mod 2 = 1) by (rewrite O, Nat.add_comm, Nat.mul_comm, Nat.mod_add by lia; reflexivity). lia.
Qed.
Lemma c_nz : c <> f0. Proof. intros E. apply NS. exists f0. rewrite E. ring. Qed.
Lemma c_half : pw K c (Q / 2) = fopp f1.
Proof.
  destruct HO as (elems & HN & HE & HL). replace Q with (length elems) by lia. apply (nonsquare_power K HK elems HN HE).
  - replace (length elems) with Q by lia. apply q_half.
  - apply c_nz.
  - intros y E. apply NS. exists y. auto.
Qed.
Lemma geo : forall k, exists s, Q ^ k = (Q - 1) * s + 1 /\ Nat.odd s = Nat.odd k.
Proof.
  pose proof (prime_ge_2 q Pq). induction k as [ | k (s & E & O)]; [exists 0; split; [cbn; lia | reflexivity] | ].
  exists (Q * s + 1). split.
  - cbn [Nat.pow]. rewrite E. assert (ET : exists t, Q = S t) by (exists (Q - 1); lia). destruct ET as (t & ->). replace (S t - 1) with t by lia. ring.
  - rewrite Nat.odd_add, Nat.odd_mul, O, q_half. rewrite Nat.odd_add, Nat.odd_mul. cbn [Nat.odd Nat.even negb andb xorb].
    rewrite Nat.odd_succ, <- Nat.negb_odd. destruct (Nat.odd k); reflexivity.
Qed.
Theorem nonsquare_up : ~ is_square (cv c).
Proof.
  intros (y & E). pose proof cvec_embedding as EM. assert (Ny : y <> f0).
  { intros ->. apply (e_nz K M HK HM cv EM c c_nz). rewrite <- E. ring. }
  destruct ext_order as (elems & HN & HE & HL). pose proof (fermat M HM elems HN HE y Ny) as F.
  pose proof (prime_ge_2 q Pq).
  assert (LE : length elems = Q ^ n) by (apply Nat2Z.inj; rewrite HL, Nat2Z.inj_pow, Z2Nat.id by lia; reflexivity).
  destruct (geo n) as (s & G & Os). rewrite LE, G in F. replace ((Q - 1) * s + 1 - 1) with (2 * ((Q / 2) * s)) in F by (pose proof q_half; nia).
  rewrite (npow_mul (mul_monoid M) (mul_monoid_laws M HM)) in F.
  assert (E2 : npow (y : mul_monoid M) 2 = cv c) by (rewrite <- E; cbn [npow]; change (fmul y (fmul y f1) = fmul y y); ring). rewrite E2 in F.
  rewrite (npow_mul (mul_monoid M) (mul_monoid_laws M HM)) in F. change (pw M (pw M (cv c) (Q / 2)) s = f1) in F. rewrite cv_pw, c_half, cv_pw in F.
  assert (E3 : pw K (fopp f1) s = fopp f1).
  { apply Nat.odd_spec in Os || (rewrite On in Os; apply Nat.odd_spec in Os). destruct Os as [w ->]. unfold pw. rewrite (npow_add (mul_monoid K) (mul_monoid_laws K HK)), (npow_mul (mul_monoid K) (mul_monoid_laws K HK)).
    assert (S2 : npow (fopp f1 : mul_monoid K) 2 = f1) by (cbn [npow]; change (fmul (fopp f1) (fmul (fopp f1) f1) = (f1 : K)); ring). rewrite S2.
    rewrite (npow_one _ (mul_monoid_laws K HK)). change (fmul f1 (fmul (fopp f1) f1) = (fopp f1 : K)). ring. }
  rewrite E3 in F. assert (F' : fopp f1 = (f1 : K)).
  { apply (e_inj K M HK HM cv EM). etransitivity; [exact F | symmetry; apply (em_1 _ _ _ EM)]. }
  pose proof (f2_nz K HK q Pq HO Odd) as C2. apply C2. unfold f2. transitivity (fadd (fopp f1) f1 : K); [rewrite F'; reflexivity | ring].
Qed.
End P.
