(** GF(3^2m), GF(3^3m) and GF(3^6m) on top of a field with 3^m elements, for
    odd m not divisible by 3: field laws, orders, Frobenius maps, and the
    identities behind the final exponentiation of the eta_T pairing. *)
From Coq Require Import ZArith List Bool Lia Arith Ring Field Znumtheory.
From Verif.Base Require Import Outcome Algebra Slots.
From Verif.Spec Require Import FiniteField Polynomials Quadratic Extension Ternary TernaryTower.
From Verif.Proofs Require Import PowFacts FieldFacts SlotFacts RootFacts QuadFacts PolyAlgebra PolyRoots ExtFacts Frobenius BilinearZ TowerAlgebra GF3mMain.
Import ListNotations.
Open Scope nat_scope.

Lemma order_char3 : forall (K : fld) n, fld_laws K -> has_order K (3 ^ Z.of_nat n) -> fadd (fadd f1 f1) f1 = (f0 : K).
Proof.
  intros K n HK HO. destruct HO as (l & N & I & E).
  assert (C : (fofz (Z.of_nat 3) : K) = f0).
  { apply (char_p K HK 3 n). rewrite <- (char_order K HK l N I). f_equal. rewrite Nat2Z.inj_pow. symmetry. exact E. }
  rewrite <- C. destruct (fl_field K HK) as [[] _ _ _]. change (fofz (Z.of_nat 3)) with (fadd f1 (fadd f1 f1) : K). auto.
Qed.
Section N.
Variable K : fld.
Hypothesis HK : fld_laws K.
Variable n : nat.
Hypothesis HO : has_order K (3 ^ Z.of_nat n).
Let C3 : fadd (fadd f1 f1) f1 = (f0 : K) := order_char3 K n HK HO.
Let RK : ring_theory (f0 : K) f1 fadd fmul fsub fopp eq := F_R (fl_field K HK).
Add Ring KR3n : RK (morphism (t_morph K RK C3), constants [t_const]).
Lemma odd_nonsquare : Nat.odd n = true -> ~ is_square (fopp f1 : K).
Proof.
  intros O (y & Y). pose proof (pow3_odd n O) as M. pose proof (order_gt_1 K HK _ HO) as G.
  assert (NY : y <> f0). { intros ->. apply (f_1_neq_0 K HK). transitivity (fopp (fopp f1) : K); [ring | rewrite <- Y; ring]. }
  pose proof (fermat_f K HK _ HO y NY) as F. set (q := (3 ^ Z.of_nat n)%Z) in *. pose proof (Z.div_mod q 4 ltac:(lia)) as D.
  assert (0 <= q / 4)%Z by (apply Z.div_pos; lia). replace (q - 1)%Z with (2 * (2 * (q / 4)) + 2)%Z in F by lia.
  rewrite (fpowA K HK) in F by lia. rewrite (fpowM K HK y 2) in F by lia. rewrite (fpowM K HK (fpow y 2) 2) in F by lia.
  assert (Y2 : fpow y 2 = fopp f1) by (rewrite <- Y; change (fmul y (fmul y f1) = fmul y y); ring).
  rewrite Y2 in F. assert (Y4 : fpow (fopp f1 : K) 2 = f1) by (change (fmul (fopp f1) (fmul (fopp f1) f1) = (f1 : K)); ring).
  rewrite Y4, (fpow1 K HK) in F. apply (two3_nz K HK C3). transitivity (fsub f1 (fmul f1 (fopp f1)) : K); [ring | rewrite F; ring].
Qed.
End N.

Section M.
Variable K : fld.
Hypothesis HK : fld_laws K.
Variable m : nat.
Hypothesis HO : has_order K (3 ^ Z.of_nat m).
Hypothesis Om : Nat.odd m = true.
Let C3 : fadd (fadd f1 f1) f1 = (f0 : K) := order_char3 K m HK HO.
Let RK : ring_theory (f0 : K) f1 fadd fmul fsub fopp eq := F_R (fl_field K HK).
Add Ring KR3m : RK (morphism (t_morph K RK C3), constants [t_const]).
Local Notation "x + y" := (@fadd K x y). Local Notation "x * y" := (@fmul K x y). Local Notation "x - y" := (@fsub K x y). Local Notation "- x" := (@fopp K x).
Local Notation F2 := (GF32m K). Local Notation F3 := (GF33m K). Local Notation F6 := (GF36m K).
Local Notation q := (3 ^ Z.of_nat m)%Z.
Lemma nsq : ~ is_square (fopp f1 : K). Proof. exact (odd_nonsquare K HK m HO Om). Qed.
Lemma laws32 : fld_laws F2. Proof. exact (Quad_laws K HK _ nsq). Qed.
Lemma order32 : has_order F2 (3 ^ Z.of_nat (2 * m)).
Proof. replace (3 ^ Z.of_nat (2 * m))%Z with (q * q)%Z; [exact (Quad_order K _ _ HO) | ]. rewrite <- Z.pow_add_r by lia. f_equal. lia. Qed.
Lemma char32 : fadd (fadd f1 f1) f1 = (f0 : F2). Proof. exact (order_char3 F2 _ laws32 order32). Qed.
Lemma mul2 : forall a b c d : K, fmul ((a, b) : F2) (c, d) = (a * c - b * d, a * d + b * c).
Proof. intros. change (fmul ((a, b) : F2) (c, d)) with ((a * c + - f1 * (b * d), a * d + b * c) : F2). apply (f_equal2 (@pair K K)); ring. Qed.
Lemma frob32 : forall k (a b : K), fpow ((a, b) : F2) (3 ^ Z.of_nat k) = (fpow a (3 ^ Z.of_nat k), if Nat.odd k then - fpow b (3 ^ Z.of_nat k) else fpow b (3 ^ Z.of_nat k)).
Proof.
  intros k a b. induction k.
  - rewrite (fpow3_0 F2 laws32 char32), !(fpow3_0 K HK C3). auto.
  - rewrite (fpow3_S F2 laws32 char32), IHk, !(fpow3_S K HK C3). set (x := fpow a _). set (y := fpow b _).
    rewrite Nat.odd_succ, <- Nat.negb_odd. destruct (Nat.odd k); cbn [negb]; rewrite !mul2; apply (f_equal2 (@pair K K)); ring.
Qed.
Lemma conj32 : forall j (a b : K), Nat.odd j = true -> fpow ((a, b) : F2) (3 ^ Z.of_nat (j * m)) = (a, - b).
Proof.
  intros j a b J. rewrite frob32, Nat.odd_mul, J, Om. cbn [andb].
  assert (E : forall x : K, fpow x (3 ^ Z.of_nat (j * m)) = x).
  { intros x. clear -HK HO. induction j; [exact (fpow3_0 K HK (order_char3 K m HK HO) x) | ].
    replace (Z.of_nat (S j * m)) with (Z.of_nat (j * m) + Z.of_nat m)%Z by lia. rewrite Z.pow_add_r by lia. rewrite (fpowM K HK) by lia. rewrite IHj. exact (fermat3 K HK (order_char3 K m HK HO) m HO x). }
  rewrite !E. auto.
Qed.

Hypothesis N3 : m mod 3 <> 0.
Lemma laws33m : fld_laws F3. Proof. exact (laws33 K HK C3 m HO N3). Qed.
Lemma N32 : (2 * m)%nat mod 3 <> 0. Proof. pose proof (Nat.div_mod m 3 ltac:(lia)). pose proof (Nat.mod_upper_bound m 3 ltac:(lia)). pose proof (Nat.div_mod (2 * m)%nat 3 ltac:(lia)). lia. Qed.
Lemma laws36 : fld_laws F6. Proof. exact (laws33 F2 laws32 char32 (2 * m)%nat order32 N32). Qed.
Lemma order36 : has_order F6 (3 ^ Z.of_nat (6 * m)).
Proof. replace (6 * m)%nat with (3 * (2 * m))%nat by lia. exact (order33 F2 (2 * m)%nat order32 N32). Qed.
Lemma nsq3 : ~ is_square (fopp f1 : F3).
Proof. apply (odd_nonsquare F3 laws33m (3 * m)%nat (order33 K m HO N3)). rewrite Nat.odd_mul, Om. reflexivity. Qed.

(** Coordinates over K. *)
Lemma add2 : forall a b c d : K, fadd ((a, b) : F2) (c, d) = (a + c, b + d). Proof. reflexivity. Qed.
Lemma sub2 : forall a b c d : K, fsub ((a, b) : F2) (c, d) = (a - c, b - d). Proof. reflexivity. Qed.
Lemma elt6_mul : forall u0 u1 u2 u3 u4 u5 v0 v1 v2 v3 v4 v5 : K, fmul (elt6 u0 u1 u2 u3 u4 u5) (elt6 v0 v1 v2 v3 v4 v5) =
  elt6 ((u0 * v0 - u1 * v1) + ((u2 * v4 - u3 * v5) + (u4 * v2 - u5 * v3))) ((u0 * v1 + u1 * v0) + ((u2 * v5 + u3 * v4) + (u4 * v3 + u5 * v2)))
       ((u0 * v2 - u1 * v3) + (u2 * v0 - u3 * v1) + ((u2 * v4 - u3 * v5) + (u4 * v2 - u5 * v3)) + (u4 * v4 - u5 * v5))
       ((u0 * v3 + u1 * v2) + (u2 * v1 + u3 * v0) + ((u2 * v5 + u3 * v4) + (u4 * v3 + u5 * v2)) + (u4 * v5 + u5 * v4))
       ((u0 * v4 - u1 * v5) + (u2 * v2 - u3 * v3) + (u4 * v0 - u5 * v1) + (u4 * v4 - u5 * v5)) ((u0 * v5 + u1 * v4) + (u2 * v3 + u3 * v2) + (u4 * v1 + u5 * v0) + (u4 * v5 + u5 * v4)).
Proof.
  intros. unfold elt6. rewrite (elt3_mul F2 laws32 char32). rewrite !mul2, !add2. reflexivity.
Qed.
Lemma elt6_eta : forall x : F6, exists u0 u1 u2 u3 u4 u5, x = elt6 u0 u1 u2 u3 u4 u5.
Proof.
  intro x. rewrite (elt3_eta F2 x). destruct (vcoef x 0) as [u0 u1]. destruct (vcoef x 1) as [u2 u3]. destruct (vcoef x 2) as [u4 u5]. exists u0, u1, u2, u3, u4, u5. reflexivity.
Qed.
Lemma elt6_1 : (f1 : F6) = elt6 f1 f0 f0 f0 f0 f0. Proof. exact (elt3_1 F2). Qed.
Lemma elt6_inj : forall u0 u1 u2 u3 u4 u5 v0 v1 v2 v3 v4 v5 : K, elt6 u0 u1 u2 u3 u4 u5 = elt6 v0 v1 v2 v3 v4 v5 -> u0 = v0 /\ u1 = v1 /\ u2 = v2 /\ u3 = v3 /\ u4 = v4 /\ u5 = v5.
Proof. intros u0 u1 u2 u3 u4 u5 v0 v1 v2 v3 v4 v5 H. apply elt3_inj in H. destruct H as (A & B & C). inversion A. inversion B. inversion C. auto 10. Qed.
(** The map x -> x^(3^m), and x -> x^(3^3m): conjugation i -> -i. *)
Lemma frob36 : forall u0 u1 u2 u3 u4 u5 : K, let n := (fofz (Z.of_nat m) : K) in
  fpow (elt6 u0 u1 u2 u3 u4 u5) q = elt6 (u0 + n * u2 + n * n * u4) (- (u1 + n * u3 + n * n * u5)) (u2 - n * u4) (- (u3 - n * u5)) u4 (- u5).
Proof.
  intros. unfold elt6. rewrite (frob33 F2 laws32 char32 laws36). cbv zeta.
  pose proof (conj32 1) as C. rewrite Nat.mul_1_l in C. rewrite !C by reflexivity.
  assert (E : (fofz (Z.of_nat m) : F2) = (n, f0)) by exact (Quad_fofz K HK _ nsq _). rewrite E, !mul2, ?add2, ?sub2, ?mul2, ?add2.
  f_equal; apply (f_equal2 (@pair K K)); ring.
Qed.
Lemma conj36 : forall u0 u1 u2 u3 u4 u5 : K, fpow (elt6 u0 u1 u2 u3 u4 u5) (3 ^ Z.of_nat (3 * m)) = elt6 u0 (- u1) u2 (- u3) u4 (- u5).
Proof.
  intros. unfold elt6. rewrite (frob33 F2 laws32 char32 laws36). cbv zeta. rewrite !conj32 by reflexivity.
  assert (E : (fofz (Z.of_nat (3 * m)) : F2) = f0).
  { rewrite (fofz_mod3 F2 laws32 char32). replace (Z.of_nat (3 * m) mod 3)%Z with 0%Z; [reflexivity | ]. rewrite Nat2Z.inj_mul, Z.mul_comm, Z_mod_mult. auto. }
  rewrite E. change (f0 : F2) with ((f0, f0) : F2). rewrite !mul2, ?add2, ?sub2, ?mul2, ?add2.
  f_equal; apply (f_equal2 (@pair K K)); ring.
Qed.
End M.
