(** The final powering of type D and G pairings. *)
From Coq Require Import ZArith List Bool Lia Arith Ring Field Znumtheory.
From Verif.Base Require Import Outcome Array Algebra Slots Gmp.
From Verif.Spec Require Import FiniteField Polynomials Extension Quadratic Curve Twist.
From Verif.Model Require Import GenericPow Lucas Poly PairingA Miller PairingD.
From Verif.Proofs Require Import PowFacts FieldFacts SlotFacts QuadFacts PolyAlgebra ExtFacts PolymodFacts Embed FieldChar Frobenius LucasFacts ExtFrobenius BilinearZ.
Import ListNotations.
Open Scope Z_scope.

Section G.
Variable M : fld.
Hypothesis HM : fld_laws M.
Add Field MFd0 : (fl_field M HM).
Variable v : M.
Local Notation L := (Quad M v).
Ltac go := cbn; unfold qmul, qconj; cbn [fst snd]; apply f_equal2; ring.
Lemma g_low_pw : forall (a : M) k, pw L (a, f0) k = (pw M a k, f0).
Proof. intros a k. induction k; [reflexivity | ]. rewrite !pow_S, IHk. go. Qed.
Lemma g_root2 : npow (((f0, f1) : L) : mul_monoid L) 2 = ((v, f0) : L). Proof. go. Qed.
Lemma g_m1_2 : npow (((fopp f1, f0) : L) : mul_monoid L) 2 = (f1 : L). Proof. go. Qed.
Lemma g_root1 : forall w : M, fmul ((w, f0) : L) (npow (((f0, f1) : L) : mul_monoid L) 1) = (f0, w). Proof. intros. go. Qed.
Lemma g_decomp : forall u w : M, ((u, w) : L) = fadd ((u, f0) : L) (fmul ((w, f0) : L) ((f0, f1) : L)). Proof. intros. go. Qed.
Lemma g_recomp : forall u w s : M, fadd ((u, f0) : L) (fmul ((w, f0) : L) ((f0, s) : L)) = (u, fmul w s). Proof. intros. go. Qed.
Lemma g_conj_mul : forall x y : L, fmul (qconj M v x) (qconj M v y) = qconj M v (fmul x y).
Proof. intros [a b] [a' b']. go. Qed.
Lemma g_m1_odd : fmul (f1 : L) (npow (((fopp f1, f0) : L) : mul_monoid L) 1) = (fopp f1, f0). Proof. go. Qed.
End G.

Section F.
Variable K : fld.
Hypothesis HK : fld_laws K.
Variables (n : nat) (m : list K).
Hypothesis Hm : monic m n.
Hypothesis Hi : irreducible m.
Hypothesis Hn : (2 <= n)%nat.
Variable q : Z.
Hypothesis Pq : prime q.
Hypothesis Q2 : 2 < q.
Hypothesis HO : has_order K q.
Hypothesis On : Nat.odd n = true.
Variable c : K.
Hypothesis NS : ~ is_square c.
Local Notation M := (Ext K n m).
Local Notation cv := (cvec K n m).
Local Notation nqr := (cv c : M).
Local Notation L := (Quad M nqr).
Add Field KFd1 : (fl_field K HK).
Let HM : fld_laws M := Ext_laws K HK n m Hm (n_pos n Hn) Hi.
Add Field MFd1 : (fl_field M HM).
Lemma vns : ~ is_square nqr. Proof. exact (nonsquare_up K HK n m Hm Hi Hn q Pq HO Q2 On c NS). Qed.
Let HL : fld_laws L := Quad_laws M HM nqr vns.
Add Field LFd1 : (fl_field L HL).
Local Notation Q := (Z.to_nat q).
Local Notation NZ := (Z.of_nat n).
Let HOM : has_order M (q ^ NZ) := ext_order K n m q HO.
Lemma charL : (fofz q : L) = f0.
Proof. pose proof (Quad_fofz M HM nqr vns q) as E. rewrite (charM K HK n m Hm Hi Hn q Pq HO) in E. exact E. Qed.
Lemma low_pw : forall (a : M) k, pw L (a, f0) k = (pw M a k, f0).
Proof. apply (g_low_pw M HM). Qed.
Lemma nqr_half : pw M nqr (Q / 2) = fopp f1.
Proof. rewrite (cv_pw K HK n m Hm Hn), (c_half K HK n Hn q Pq HO Q2 c NS). rewrite (e_opp K M HK HM cv (cvec_embedding K HK n m Hm Hn)). rewrite (em_1 _ _ _ (cvec_embedding K HK n m Hm Hn)). reflexivity. Qed.
Lemma root_pw : pw L (f0, f1) Q = (f0, fopp f1).
Proof.
  rewrite (q_half n Hn q Pq Q2). unfold pw. rewrite (npow_add (mul_monoid L) (mul_monoid_laws L HL)), (npow_mul (mul_monoid L) (mul_monoid_laws L HL)).
  rewrite (g_root2 M HM). change (npow ((nqr, f0) : mul_monoid L) (Q / 2)) with (pw L (nqr, f0) (Q / 2)). rewrite low_pw, nqr_half. apply (g_root1 M HM).
Qed.
Lemma frob_q : forall x : L, pw L x Q = (pw M (fst x) Q, fopp (pw M (snd x) Q)).
Proof.
  intros [u w]. cbn [fst snd].
  assert (D := g_decomp M HM nqr u w).
  rewrite D at 1. rewrite (frob_p L HL) by (rewrite Z2Nat.id by lia; [exact Pq || exact charL]).
  assert (X : pw L (fmul ((w, f0) : L) ((f0, f1) : L)) Q = fmul (pw L (w, f0) Q) (pw L (f0, f1) Q)) by exact (npow_mul_base L HL _ _ _).
  rewrite X, !low_pw, root_pw, (g_recomp M HM). apply f_equal2; [reflexivity | ring].
Qed.
Lemma fpow_pw : forall (F : fld) (x : F) z, fpow x z = pw F x (Z.to_nat z).
Proof. reflexivity. Qed.
Local Notation xs := (qpows K n m q).
Lemma minus_ok : forall x : L, qpower_minus K n m nqr x xs = fpow x q.
Proof. intros x. rewrite fpow_pw, frob_q. unfold qpower_minus. rewrite (qpos_ok K HK n m Hm Hi Hn q Pq HO), (qneg_ok K HK n m Hm Hi Hn q Pq HO). reflexivity. Qed.
Lemma opp_opp' : forall e : M, e = fopp (fopp e). Proof. intros. ring. Qed.
Lemma plus_ok : forall x : L, qpower_plus K n m nqr x xs = qconj M nqr (fpow x q).
Proof.
  intros x. rewrite fpow_pw, frob_q. unfold qpower_plus, qconj. cbn [fst snd]. rewrite !(qpos_ok K HK n m Hm Hi Hn q Pq HO).
  rewrite <- opp_opp'. reflexivity.
Qed.
Lemma conj_mul : forall x y : L, fmul (qconj M nqr x) (qconj M nqr y) = qconj M nqr (fmul x y).
Proof. apply (g_conj_mul M HM). Qed.
Lemma pow_nz : forall (x : L) k, x <> f0 -> 0 <= k -> fpow x k <> f0. Proof. intros. apply (fpow_nz L HL); auto. Qed.
Lemma nat_nn : 0 <= NZ. Proof. lia. Qed.
Lemma fpow_S : forall x : L, fmul (fpow x q) x = fpow x (q + 1).
Proof. intros. rewrite (fpowA L HL) by lia. f_equal. change (x = fmul x f1). ring. Qed.
Theorem easy_ok : forall x : L, x <> f0 -> easy_part K n m nqr x xs = Ok (fpow (fpow x (q + 1)) (q ^ NZ - 1)).
Proof.
  intros x N. unfold easy_part. rewrite minus_ok, plus_ok.
  assert (E : forall y : L, y <> f0 -> @finvert (Fqk K n m nqr) y = Ok (finv y)) by (intros; apply (finvert_ok L HL); auto).
  assert (EY : @fmul (Fqk K n m nqr) (fpow x q) x = fpow x (q + 1)) by apply fpow_S.
  rewrite EY, E by (apply pow_nz; auto; lia). cbn [bind]. f_equal.
  transitivity (fmul (qconj M nqr (fpow x (q + 1))) (finv (fpow x (q + 1)))).
  - apply (f_equal2 (@fmul L)); [ | reflexivity]. rewrite <- fpow_S. apply conj_mul.
  - symmetry. apply (frob_1 M HM q NZ Pq Q2 nat_nn HOM nqr vns). apply pow_nz; auto; lia.
Qed.
(** with N = (q^n + 1) / (q + 1) *)
Variables r N kr : Z.
Hypothesis HN : (q + 1) * N = q ^ NZ + 1.
Hypothesis ON : Z.odd N = true.
Hypothesis HR : r * kr = N.
Hypothesis R2 : 0 < r.
Lemma qn_pos : 0 < q ^ NZ. Proof. apply Z.pow_pos_nonneg; lia. Qed.
Lemma N_pos : 0 < N. Proof. pose proof qn_pos. nia. Qed.
Lemma kr_pos : 0 < kr. Proof. pose proof N_pos. nia. Qed.
Lemma kr_odd : Z.odd kr = true. Proof. rewrite <- HR, Z.odd_mul in ON. apply andb_prop in ON. apply ON. Qed.
Lemma kr_eq : N / r = kr. Proof. rewrite <- HR, Z.mul_comm. apply Z.div_mul. lia. Qed.
Definition eas (x : L) : L := fpow (fpow x (q + 1)) (q ^ NZ - 1).
Lemma eas_norm : forall x, x <> f0 -> qnorm M nqr (eas x) = f1.
Proof.
  intros x Nx. unfold eas. rewrite (frob_1 M HM q NZ Pq Q2 nat_nn HOM nqr vns) by (apply pow_nz; auto; lia).
  apply (conj_quot M HM nqr vns). apply pow_nz; auto; lia.
Qed.
Lemma eas_N : forall x, x <> f0 -> fpow (eas x) N = f1.
Proof.
  intros x Nx. pose proof qn_pos. pose proof N_pos. unfold eas. rewrite <- !(fpowM L HL) by nia.
  replace ((q + 1) * ((q ^ NZ - 1) * N)) with (q ^ NZ * q ^ NZ - 1) by nia.
  apply (fermatL M HM q NZ Q2 nat_nn HOM nqr vns). auto.
Qed.
Lemma sq_1 : forall w : M, fmul w w = f1 -> w = f1 \/ w = fopp f1.
Proof.
  intros w E. assert (P : fmul (fsub w f1) (fadd w f1) = f0) by (transitivity (fsub (fmul w w) f1); [ring | rewrite E; ring]).
  destruct (f_integral M HM _ _ P) as [A | A]; [left; apply (f_sub_0 M HM); auto | right; transitivity (fsub (fadd w f1) f1); [ring | rewrite A; ring]].
Qed.
Lemma C2M : (fadd f1 f1 : M) <> f0.
Proof.
  intro C2. apply (f2_nz K HK q Pq HO Q2). apply (e_inj K M HK HM cv (cvec_embedding K HK n m Hm Hn)).
  unfold f2. rewrite (em_add _ _ _ (cvec_embedding K HK n m Hm Hn)), (em_1 _ _ _ (cvec_embedding K HK n m Hm Hn)), (em_0 _ _ _ (cvec_embedding K HK n m Hm Hn)). exact C2.
Qed.
Lemma eas_snd : forall x, x <> f0 -> snd (eas x) <> f0 \/ eas x = f1.
Proof.
  intros x Nx. destruct (f_eq_dec M HM (snd (eas x)) f0) as [E | E]; [right | left; auto].
  pose proof (eas_norm x Nx) as A. pose proof (eas_N x Nx) as B. destruct (eas x) as [u w]. cbn [snd] in E. subst w. unfold qnorm in A. cbn [fst snd] in A.
  assert (A' : fmul u u = f1) by (rewrite <- A; ring).
  destruct (sq_1 u A') as [-> | ->]; [reflexivity | exfalso].
  assert (S2 : fpow ((fopp f1, f0) : L) 2 = f1) by exact (g_m1_2 M HM nqr).
  pose proof N_pos. assert (ON' := ON). apply Z.odd_spec in ON'. destruct ON' as [w ->]. rewrite (fpowA L HL), (fpowM L HL), S2, (fpow1 L HL) in B by lia.
  assert (B' : fopp f1 = (f1 : M)) by (change (fst ((fopp f1, f0) : L) = fst (f1 : L)); rewrite <- B; f_equal; symmetry; exact (g_m1_odd M HM nqr)).
  apply C2M. transitivity (fadd (fopp f1) f1 : M); [rewrite B'; reflexivity | ring].
Qed.
Lemma eas_pow : forall x, fpow (eas x) kr = fpow x ((q ^ NZ * q ^ NZ - 1) / r).
Proof.
  intros x. pose proof qn_pos. pose proof kr_pos. unfold eas. rewrite <- !(fpowM L HL) by nia. f_equal.
  apply Z.div_unique_exact; nia.
Qed.
Lemma lucas_e : forall x, x <> f0 -> lucas_even M nqr Die (eas x) kr = Ok (fpow x ((q ^ NZ * q ^ NZ - 1) / r)).
Proof.
  intros x Nx. rewrite (lucas_even_correct M HM nqr vns C2M (eas x) Die f0 kr (eas_norm x Nx)).
  - rewrite eas_pow. reflexivity.
  - destruct (eas_snd x Nx); auto.
  - apply kr_pos.
  - apply kr_odd.
Qed.
Lemma lucas_c : forall x, x <> f0 -> eas x <> f1 -> lucas_even_core M nqr Die (eas x) kr = Ok (fpow x ((q ^ NZ * q ^ NZ - 1) / r)).
Proof.
  intros x Nx NE. rewrite (lucas_even_core_correct M HM nqr vns C2M (eas x) Die f0 kr (eas_norm x Nx)).
  - rewrite eas_pow. reflexivity.
  - destruct (eas_snd x Nx); auto.
  - apply kr_pos.
  - apply kr_odd.
Qed.
Lemma xpowq_ok : xpowq K n m q = Ok (Xq K n m q).
Proof. unfold xpowq. rewrite (generic_pow_spec (mul_monoid M) (mul_monoid_laws M HM)) by lia. reflexivity. Qed.
Lemma pw1 : forall x : M, pw M x 1 = x. Proof. intros. change (fmul x f1 = x). ring. Qed.
Lemma pw2 : forall x : M, pw M x 2 = fmul x x. Proof. intros. change (fmul x (fmul x f1) = fmul x x). ring. Qed.
Lemma pw3 : forall x : M, pw M x 3 = fmul (fmul x x) x. Proof. intros. change (fmul x (fmul x (fmul x f1)) = fmul (fmul x x) x). ring. Qed.
Lemma pw4 : forall x : M, pw M x 4 = fmul (fmul x x) (fmul x x). Proof. intros. change (fmul x (fmul x (fmul x (fmul x f1))) = fmul (fmul x x) (fmul x x)). ring. Qed.
End F.

(** ** The two functions *)
Section D.
Variable K : fld.
Hypothesis HK : fld_laws K.
Variable m : list K.
Variable q : Z.
Hypothesis Pq : prime q.
Hypothesis Q2 : 2 < q.
Hypothesis HO : has_order K q.
Variable c : K.
Hypothesis NS : ~ is_square c.
Variable r kr : Z.
Hypothesis R2 : 0 < r.
Lemma q_odd : Z.odd q = true.
Proof.
  destruct (Z.odd q) eqn:E; auto. exfalso. rewrite <- Z.negb_even in E. apply negb_false_iff in E. apply Z.even_spec in E. destruct E as [w E].
  destruct (prime_divisors _ Pq 2) as [D | [D | [D | D]]]; try lia. exists w. lia.
Qed.
Lemma kr_eq' : forall N, r * kr = N -> N / r = kr. Proof. intros N <-. rewrite Z.mul_comm. apply Z.div_mul. lia. Qed.
Theorem d_power_ok : monic m 3 -> irreducible m -> r * kr = q * q - q + 1 -> forall x : Quad (Ext K 3 m) (cvec K 3 m c), x <> f0 ->
  d_tatepower K 3 m (cvec K 3 m c) r 6 q x = Ok (fpow x ((q ^ 6 - 1) / r)).
Proof.
  intros Hm Hi HR x Nx. assert (Hn : (2 <= 3)%nat) by lia.
  assert (HN : (q + 1) * (q * q - q + 1) = q ^ Z.of_nat 3 + 1) by (change (Z.of_nat 3) with 3; ring).
  assert (ON : Z.odd (q * q - q + 1) = true) by (rewrite Z.odd_add, Z.odd_sub, Z.odd_mul, q_odd; reflexivity).
  unfold d_tatepower. change (6 =? 6) with true. cbv iota. cbv zeta.
  rewrite (xpowq_ok K HK 3 m Hm Hi Hn q Q2). cbn [bind].
  match goal with |- context [easy_part _ _ _ _ _ ?l] => assert (EX : l = qpows K 3 m q) end.
  { unfold qpows. cbn [seq map Nat.sub]. rewrite (pw1 K HK 3 m Hm Hi Hn), (pw2 K HK 3 m Hm Hi Hn). reflexivity. }
  rewrite EX. rewrite (easy_ok K HK 3 m Hm Hi Hn q Pq Q2 HO eq_refl c NS x Nx). cbn [bind].
  rewrite (kr_eq' _ HR). replace ((q ^ 6 - 1) / r) with ((q ^ Z.of_nat 3 * q ^ Z.of_nat 3 - 1) / r) by (f_equal; change (Z.of_nat 3) with 3; ring).
  exact (lucas_e K HK 3 m Hm Hi Hn q Pq Q2 HO eq_refl c NS r _ kr HN ON HR R2 x Nx).
Qed.
Theorem g_power_ok : monic m 5 -> irreducible m -> r * kr = 1 - q + q * q - q * q * q + q * q * q * q -> forall x : Quad (Ext K 5 m) (cvec K 5 m c), x <> f0 ->
  fpow x ((q ^ 10 - 1) / r) <> f1 ->
  g_tatepower K 5 m (cvec K 5 m c) r q x = Ok (fpow x ((q ^ 10 - 1) / r)).
Proof.
  intros Hm Hi HR x Nx NV. assert (Hn : (2 <= 5)%nat) by lia.
  assert (HN : (q + 1) * (1 - q + q * q - q * q * q + q * q * q * q) = q ^ Z.of_nat 5 + 1) by (change (Z.of_nat 5) with 5; ring).
  assert (ON : Z.odd (1 - q + q * q - q * q * q + q * q * q * q) = true).
  { rewrite Z.odd_add, Z.odd_sub, Z.odd_add, Z.odd_sub, !Z.odd_mul, q_odd. reflexivity. }
  assert (EE : (q ^ 10 - 1) / r = (q ^ Z.of_nat 5 * q ^ Z.of_nat 5 - 1) / r) by (f_equal; change (Z.of_nat 5) with 5; ring).
  unfold g_tatepower. cbv zeta. rewrite (xpowq_ok K HK 5 m Hm Hi Hn q Q2). cbn [bind].
  match goal with |- context [easy_part _ _ _ _ _ ?l] => assert (EX : l = qpows K 5 m q) end.
  { unfold qpows. cbn [seq map Nat.sub]. rewrite (pw1 K HK 5 m Hm Hi Hn), (pw2 K HK 5 m Hm Hi Hn), (pw3 K HK 5 m Hm Hi Hn), (pw4 K HK 5 m Hm Hi Hn). reflexivity. }
  rewrite EX. rewrite (easy_ok K HK 5 m Hm Hi Hn q Pq Q2 HO eq_refl c NS x Nx). cbn [bind].
  rewrite (kr_eq' _ HR), EE. rewrite EE in NV.
  refine (lucas_c K HK 5 m Hm Hi Hn q Pq Q2 HO eq_refl c NS r _ kr HN ON HR R2 x Nx _).
  intros E1. apply NV. rewrite <- (eas_pow K HK 5 m Hm Hi Hn q Pq Q2 HO eq_refl c NS r _ kr HN HR R2 x), E1.
  apply (fpow1 _ (Quad_laws _ (Ext_laws K HK 5 m Hm (n_pos 5 Hn) Hi) _ (vns K HK 5 m Hm Hi Hn q Pq Q2 HO eq_refl c NS))).
Qed.
End D.
