(** Corollaries and small cases for irreducibility, roots and square roots. *)
From Coq Require Import ZArith Znumtheory List Bool Lia Arith Ring Field.
From Verif.Base Require Import Outcome Algebra Slots.
From Verif.Spec Require Import FiniteField Polynomials Extension Roots Numerals.
From Verif.Model Require Import GenericPow IntText Poly PolyTests.
From Verif.Proofs Require Import FieldFacts PowFacts ZpField RootFacts RootWitness PolyAlgebra PolyRoots ExtFacts IntTextWitness RabinField PolyTestsFacts PolySqrtFacts QuadWitness.
Import ListNotations.
Open Scope Z_scope.

Section Z0.
Variable F : fld.
Hypothesis HF : fld_laws F.
Add Field KFz0 : (fl_field F HF).
Lemma fzero_square : fmul (f0 : F) f0 = f0. Proof. ring. Qed.
End Z0.

Section K.
Variable K : fld.
Hypothesis HK : fld_laws K.
Add Field KFpw : (fl_field K HK).

Lemma irred_constant : forall order isprime nextprime (f : list K), (length f <= 1)%nat -> poly_is_irred K order isprime nextprime f = Ok false /\ ~ irreducible f.
Proof.
  intros order ip np f L. split.
  - unfold poly_is_irred, poly_degree. destruct (Z.leb_spec (Z.of_nat (length f) - 1) 0); [reflexivity | lia].
  - intros [C _]. apply C. intros i Hi. apply coef_over. lia.
Qed.
Lemma findroot_low : forall order src (f : list K), (length f <= 2)%nat -> poly_findroot K order src f = UB.
Proof. intros order src f L. unfold poly_findroot, poly_degree. destruct (Z.leb_spec (Z.of_nat (length f) - 1) 1); [reflexivity | lia]. Qed.

Lemma findroot_linear : forall order src (c : K), is_root [fopp c; f1] c /\ poly_findroot K order src [fopp c; f1] = UB.
Proof. intros. split; [unfold is_root; cbn [value]; ring | apply findroot_low; cbn; lia]. Qed.

Variables (p e : nat).
Hypothesis HO : has_order K (Z.of_nat (p ^ e)).
Notation q := (Z.of_nat (p ^ e)).
Lemma findroot_square : Z.odd q = true -> forall f x1 x2 c src, monic f 2 -> is_root f x1 -> is_root f x2 -> x1 <> x2 ->
  (c = fopp x1 \/ (fadd x2 c <> f0 /\ is_square (fadd x2 c) /\ ~ is_square (fadd x1 c))) ->
  poly_findroot K q (c :: src) f = Ok (Some (x1, src)).
Proof.
  intros Od f x1 x2 c src Mf R1 R2 Ne H. apply (findroot_quadratic K HK p e HO f x1 x2); auto. destruct H as [H | (H1 & H2 & H3)]; auto. right. split; auto.
  assert (E : ((p ^ e - 1) / 2)%nat = Z.to_nat ((q - 1) / 2)).
  { pose proof (q_gt1 K HK p e HO). apply Nat2Z.inj. rewrite Nat2Z.inj_div, Nat2Z.inj_sub, Z2Nat.id by (try apply Z.div_pos; lia). reflexivity. }
  rewrite E. split.
  - exact (nonsquare_f K HK q HO Od _ H3).
  - pose proof (proj2 (euler_f K HK q HO Od _ H1) H2) as Q. unfold fpow, zpow in Q. rewrite Q. intro W. apply (neg1 K HK q HO Od). auto.
Qed.
End K.

Section L.
Variable K : fld.
Hypothesis HK : fld_laws K.
Variables (q : Z) (n : nat) (m : list K).
Hypothesis HO : has_order K q.
Hypothesis Od : Z.odd q = true.
Hypothesis Mm : monic m n.
Hypothesis Hn : (0 < n)%nat.
Hypothesis Im : irreducible m.
Local Notation L := (Ext K n m).
Let HL : fld_laws L := Ext_laws K HK n m Mm Hn Im.
Let OL : has_order L (q ^ Z.of_nat n) := Ext_order K n m q HO.
Lemma odd_pow : Z.odd (q ^ Z.of_nat n) = true.
Proof. rewrite Z.odd_pow; auto. lia. Qed.
Lemma ext_is_sqr : forall e : L, exists b, polymod_is_sqr L (q ^ Z.of_nat n) e = Ok b /\ (b = true <-> e <> f0 /\ is_square e).
Proof. exact (is_sqr_ok L HL _ OL odd_pow). Qed.
Lemma ext_zero : is_square (f0 : L) /\ polymod_is_sqr L (q ^ Z.of_nat n) f0 = Ok false.
Proof.
  split.
  - exists f0. apply (fzero_square L HL).
  - destruct (ext_is_sqr f0) as (b & E & B). rewrite E. destruct b; auto. destruct (proj1 B eq_refl) as [Z _]. congruence.
Qed.
Lemma ext_sqrt : forall src (a : L),
  (exists y src', polymod_sqrt L (q ^ Z.of_nat n) src a = Ok (y, src') /\ fmul y y = a) \/ polymod_sqrt L (q ^ Z.of_nat n) src a = OutOfFuel.
Proof. exact (sqrt_sound L HL _ OL odd_pow). Qed.
Lemma ext_draw : forall (a x : L) src, is_square a ->
  (fmul x x = a \/ (a <> f0 /\ ~ is_square (fsub (fmul x x) a)) \/ (a = f0 /\ ~ is_square x) ->
    exists y, polymod_sqrt L (q ^ Z.of_nat n) (x :: src) a = Ok (y, src) /\ fmul y y = a) /\
  (~ (fmul x x = a \/ (a <> f0 /\ ~ is_square (fsub (fmul x x) a)) \/ (a = f0 /\ ~ is_square x)) ->
    polymod_sqrt L (q ^ Z.of_nat n) (x :: src) a = polymod_sqrt L (q ^ Z.of_nat n) src a).
Proof. exact (sqrt_draw L HL _ OL odd_pow). Qed.
Lemma ext_half : forall a : L, is_square a -> exists G : list L, NoDup G /\ q ^ Z.of_nat n < 2 * Z.of_nat (length G) /\
  forall src, (exists x, In x src /\ In x G) -> exists y src', polymod_sqrt L (q ^ Z.of_nat n) src a = Ok (y, src') /\ fmul y y = a.
Proof.
  intros a Sa. destruct (good_draws L HL _ OL odd_pow a Sa) as (G & N & GG & B). exists G. split; auto. split; auto.
  intros src (x & I & IG). destruct (ext_sqrt src a) as [ | Q]; auto. exfalso. apply (sqrt_some L HL _ OL odd_pow src a Sa); eauto.
Qed.
Lemma ext_nonsquare : forall src (a : L), ~ is_square a -> polymod_sqrt L (q ^ Z.of_nat n) src a = OutOfFuel.
Proof. intros src a N. destruct (ext_sqrt src a) as [(y & src' & _ & E) | E]; auto. exfalso. apply N. exists y. auto. Qed.
End L.

(** F_3 *)
Lemma order3 : has_order Z3 (Z.of_nat (3 ^ 1)).
Proof. exists (zp_elems 3 lt3). split; [apply zp_elems_nodup | ]. split; [apply zp_elems_in | reflexivity]. Qed.
Definition c3 (l : list Z) : list Z3 := map (zmk 3 lt3) l.
Lemma c3_roots : forall f : list Z3, forallb (fun x => negb (feqb (peval Z3 f x) f0)) (zp_elems 3 lt3) = true -> forall x, peval Z3 f x <> f0.
Proof. intros f H x E. rewrite forallb_forall in H. specialize (H x (zp_elems_in 3 lt3 x)). rewrite E in H. rewrite (feqb_refl Z3 z3_laws) in H. discriminate. Qed.
Lemma x2_1_irreducible : monic (c3 [1; 0; 1]) 2 /\ irreducible (c3 [1; 0; 1]).
Proof.
  split; [split; reflexivity | ]. apply (no_roots_irreducible Z3 z3_laws).
  - intros _. cbn. apply (f_1_neq_0 Z3 z3_laws).
  - left. reflexivity.
  - apply c3_roots. vm_compute. reflexivity.
Qed.
Lemma irred_by_2 : forall isprime nextprime,
  (forall m, 1 <= m -> isprime m = true <-> prime m) ->
  forall (f : list Z3) b, length f = 3%nat -> checkgcd Z3 3 2 f 2 = Ok b -> forall w, (v <- x_power_minus_x Z3 2 f 9 ;; Ok (is0 Z3 v)) = Ok w ->
  poly_is_irred Z3 3 isprime nextprime f = Ok (if b then false else w).
Proof.
  intros ip np Hip f b L E w V. unfold poly_is_irred, poly_degree. rewrite L. change (Z.of_nat 3 - 1) with 2.
  change (2 <=? 0) with false. change (2 =? 1) with false. cbv iota. change (Z.to_nat 2) with 2%nat. change (Z.of_nat 2) with 2. cbv zeta.
  assert (P2 : ip 2 = true) by (apply Hip; [lia | exact prime_2]).
  assert (T : pbc_trial_divide ip np 2 2 None = Ok [(2, 1)]).
  { unfold pbc_trial_divide. cbn [trial_loop]. change (2 =? 1) with false. cbv iota zeta. rewrite P2. reflexivity. }
  rewrite T. cbn [bind visit fst]. rewrite E. cbn [bind]. destruct b; [reflexivity | exact V].
Qed.
(** 2 X^2 + 1 = 2 (X - 1)(X + 1) is answered irreducible, 2 X^2 + 2 reducible *)
Lemma not_monic : forall isprime nextprime,
  (forall m, 1 <= m -> isprime m = true <-> prime m) ->
  poly_is_irred Z3 3 isprime nextprime (c3 [1; 0; 2]) = Ok true /\ ~ irreducible (c3 [1; 0; 2]) /\
  poly_is_irred Z3 3 isprime nextprime (c3 [2; 0; 2]) = Ok false /\ irreducible (c3 [2; 0; 2]).
Proof.
  intros ip np Hip. split; [ | split; [ | split]].
  - apply (irred_by_2 ip np Hip (c3 [1; 0; 2]) false eq_refl) with (w := true); vm_compute; reflexivity.
  - intros [_ H]. destruct (H (c3 [2; 1]) (c3 [2; 2])) as [C | C].
    + intro i. rewrite <- (coef_mulp Z3 z3_laws). destruct i as [ | [ | [ | i]]]; try (apply zval_inj; vm_compute; reflexivity).
    + specialize (C 1%nat ltac:(lia)). discriminate.
    + specialize (C 1%nat ltac:(lia)). discriminate.
  - apply (irred_by_2 ip np Hip (c3 [2; 0; 2]) true eq_refl) with (w := true); vm_compute; reflexivity.
  - apply (no_roots_irreducible Z3 z3_laws).
    + intros _. cbn. intro Q. discriminate.
    + left. reflexivity.
    + apply c3_roots. vm_compute. reflexivity.
Qed.
Lemma search_case : fld_laws Z3 /\ prime (Z.of_nat 3) /\ has_order Z3 (Z.of_nat (3 ^ 1)) /\ monic (c3 [1; 0; 1]) 2 /\ irreducible (c3 [1; 0; 1]) /\
  poly_findroot Z3 3 [zmk 3 lt3 1] (c3 [2; 0; 1]) = Ok (Some (zmk 3 lt3 2, [])).
Proof.
  split; [exact z3_laws | ]. split; [exact prime_3 | ]. split; [exact order3 | ]. split; [apply x2_1_irreducible | ]. split; [apply x2_1_irreducible | ].
  change 3 with (Z.of_nat (3 ^ 1)) at 1. apply (findroot_square Z3 z3_laws 3 1 order3) with (x2 := zmk 3 lt3 1).
  - reflexivity.
  - split; reflexivity.
  - apply zval_inj. vm_compute. reflexivity.
  - apply zval_inj. vm_compute. reflexivity.
  - intro Q. discriminate.
  - left. apply zval_inj. vm_compute. reflexivity.
Qed.
