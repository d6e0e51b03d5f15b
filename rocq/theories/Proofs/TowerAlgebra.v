(** Arithmetic of K[z]/(z^3 - z - 1) and K[i]/(i^2 + 1) in characteristic 3,
    with Frobenius powers. *)
From Coq Require Import ZArith List Bool Lia Arith Ring Field Znumtheory Setoid Morphisms.
From Verif.Base Require Import Outcome Algebra Slots.
From Verif.Spec Require Import FiniteField Polynomials Quadratic Extension Ternary TernaryTower.
From Verif.Proofs Require Import PowFacts FieldFacts SlotFacts RootFacts QuadFacts PolyAlgebra PolyRoots ExtFacts Frobenius BilinearZ.
Import ListNotations.
Open Scope nat_scope.

(** * Rings of characteristic 3: normal forms with coefficients in GF(3) *)
Definition t_add (a b : trit) : trit :=
  match a, b with
  | T0, x => x | x, T0 => x
  | T1, T1 => T2 | T1, T2 => T0 | T2, T1 => T0 | T2, T2 => T1 end.
Definition t_opp (a : trit) : trit := match a with T0 => T0 | T1 => T2 | T2 => T1 end.
Definition t_mul (a b : trit) : trit := match a, b with T0, _ => T0 | _, T0 => T0 | T1, x => x | T2, x => t_opp x end.
Definition t_eqb (a b : trit) : bool := match a, b with T0, T0 => true | T1, T1 => true | T2, T2 => true | _, _ => false end.
Definition t_emb (K : fld) (a : trit) : K := match a with T0 => f0 | T1 => f1 | T2 => fopp f1 end.
Ltac t_const t := match t with f0 => T0 | f1 => T1 | _ => InitialRing.NotConstant end.

Section R.
Variable K : fld.
Hypothesis RK : ring_theory (f0 : K) f1 fadd fmul fsub fopp eq.
Hypothesis C3 : fadd (fadd f1 f1) f1 = (f0 : K).
Add Ring KR0 : RK.
Lemma t_morph : ring_morph f0 f1 fadd fmul fsub fopp eq T0 T1 t_add t_mul (fun a b => t_add a (t_opp b)) t_opp t_eqb (t_emb K).
Proof.
  assert (C : fadd f1 f1 = (fopp f1 : K)) by (transitivity (fsub (fadd (fadd f1 f1) f1) f1 : K); [ring | rewrite C3; ring]).
  assert (C' : fadd (fopp f1) (fopp f1) = (f1 : K)) by (transitivity (fopp (fadd f1 f1) : K); [ring | rewrite C; ring]).
  assert (A : forall a b, t_emb K (t_add a b) = fadd (t_emb K a) (t_emb K b)) by (intros [ | | ] [ | | ]; cbn; rewrite ?C, ?C'; ring).
  assert (O : forall a, t_emb K (t_opp a) = fopp (t_emb K a)) by (intros [ | | ]; cbn; ring).
  constructor; try reflexivity; auto.
  - intros a b. rewrite A, O. ring.
  - intros [ | | ] [ | | ]; cbn; ring.
  - intros [ | | ] [ | | ]; cbn; congruence.
Qed.
End R.

Section C.
Variable K : fld.
Hypothesis HK : fld_laws K.
Hypothesis C3 : fadd (fadd f1 f1) f1 = (f0 : K).
Let RK : ring_theory (f0 : K) f1 fadd fmul fsub fopp eq := F_R (fl_field K HK).
Add Ring KR3 : RK (morphism (t_morph K RK C3), constants [t_const]).
Local Notation "x + y" := (@fadd K x y). Local Notation "x * y" := (@fmul K x y). Local Notation "x - y" := (@fsub K x y). Local Notation "- x" := (@fopp K x).
Local Notation L := (GF33m K).
Lemma z_monic : monic (z3_z_1 K) 3. Proof. split; reflexivity. Qed.
Lemma lt03 : 0 < 3. Proof. lia. Qed.
Lemma R3 : ring_theory (f0 : L) f1 fadd fmul fsub fopp eq.
Proof. exact (Ext_ring K HK 3 (z3_z_1 K) z_monic lt03). Qed.
Lemma vc_elt3 : forall a b c : K, vcoef (elt3 a b c) 0 = a /\ vcoef (elt3 a b c) 1 = b /\ vcoef (elt3 a b c) 2 = c.
Proof. intros. split; [ | split]; reflexivity. Qed.
Lemma elt3_eta : forall x : L, x = elt3 (vcoef x 0) (vcoef x 1) (vcoef x 2).
Proof. intro x. apply (vec_ext K 3). intros [ | [ | [ | i]]] H; [reflexivity .. | lia]. Qed.
Lemma elt3_0 : (f0 : L) = elt3 f0 f0 f0. Proof. apply (vec_ext K 3). intros [ | [ | [ | i]]] H; [reflexivity .. | lia]. Qed.
Lemma elt3_1 : (f1 : L) = elt3 f1 f0 f0. Proof. apply (vec_ext K 3). intros [ | [ | [ | i]]] H; [reflexivity .. | lia]. Qed.
Lemma elt3_add : forall a b c a' b' c' : K, fadd (elt3 a b c) (elt3 a' b' c') = elt3 (a + a') (b + b') (c + c').
Proof. intros. apply (vec_ext K 3). intros [ | [ | [ | i]]] H; [reflexivity .. | lia]. Qed.
Lemma elt3_sub : forall a b c a' b' c' : K, fsub (elt3 a b c) (elt3 a' b' c') = elt3 (a - a') (b - b') (c - c').
Proof. intros. apply (vec_ext K 3). intros [ | [ | [ | i]]] H; [reflexivity .. | lia]. Qed.
Lemma elt3_opp : forall a b c : K, fopp (elt3 a b c) = elt3 (- a) (- b) (- c).
Proof. intros. apply (vec_ext K 3). intros [ | [ | [ | i]]] H; [reflexivity .. | lia]. Qed.
Lemma elt3_inj : forall a b c a' b' c' : K, elt3 a b c = elt3 a' b' c' -> a = a' /\ b = b' /\ c = c'.
Proof. intros a b c a' b' c' H. pose proof (f_equal (fun x => vcoef x 0) H). pose proof (f_equal (fun x => vcoef x 1) H). pose proof (f_equal (fun x => vcoef x 2) H). auto. Qed.
Lemma elt3_mul : forall a b c a' b' c' : K,
  fmul (elt3 a b c) (elt3 a' b' c') =
  elt3 (a * a' + (b * c' + c * b')) (a * b' + b * a' + (b * c' + c * b') + c * c') (a * c' + b * b' + c * a' + c * c').
Proof.
  intros. symmetry. apply (vec_cong K HK 3 (z3_z_1 K) z_monic).
  pose proof (E_mul K HK 3 (z3_z_1 K) z_monic lt03 (elt3 a b c) (elt3 a' b' c')) as E.
  apply (@Equivalence_Symmetric _ _ (cong_equiv K HK (z3_z_1 K))) in E. apply (fun H => @Equivalence_Transitive _ _ (cong_equiv K HK (z3_z_1 K)) _ _ _ H E). clear E.
  exists [- (b * c' + c * b'); - (c * c')]. intro i. rewrite (coef_mulp K HK).
  change (vl K 3 (elt3 a b c)) with [a; b; c]. change (vl K 3 (elt3 a' b' c')) with [a'; b'; c'].
  match goal with |- coef (vl K 3 (elt3 ?p ?q ?r)) i = _ => change (vl K 3 (elt3 p q r)) with [p; q; r] end.
  destruct i as [ | [ | [ | [ | [ | i]]]]]; [unfold conv; cbn -[fadd fmul fsub fopp f0 f1]; ring .. | ].
  rewrite !(conv_over K HK) by (cbn; lia). rewrite (coef_over K) by (cbn; lia). ring.
Qed.
Lemma elt3_cube : forall a b c : K, fmul (elt3 a b c) (fmul (elt3 a b c) (elt3 a b c)) =
  elt3 (a * (a * a) + b * (b * b) + c * (c * c)) (b * (b * b) - c * (c * c)) (c * (c * c)).
Proof. intros. rewrite !elt3_mul. f_equal; ring. Qed.
(** Cubes are additive, and iterated. *)
Lemma pow3 : forall x : K, fpow x 3 = x * (x * x).
Proof. intros. change (x * (x * (x * f1)) = x * (x * x)). ring. Qed.
Lemma fpow3_S : forall (x : K) n, fpow x (3 ^ Z.of_nat (S n)) = fpow x (3 ^ Z.of_nat n) * (fpow x (3 ^ Z.of_nat n) * fpow x (3 ^ Z.of_nat n)).
Proof. intros. rewrite Nat2Z.inj_succ, Z.pow_succ_r, Z.mul_comm by lia. rewrite (fpowM K HK) by lia. apply pow3. Qed.
Lemma fpow3_0 : forall x : K, fpow x (3 ^ Z.of_nat 0) = x.
Proof. intros. change (x * f1 = x). ring. Qed.
Lemma nat_S : forall n, (fofz (Z.of_nat (S n)) : K) = fofz (Z.of_nat n) + f1.
Proof. intros. rewrite Nat2Z.inj_succ, (fofz_succ K HK). auto. Qed.
Lemma nat_cube : forall n, let k := (fofz (Z.of_nat n) : K) in k * (k * k) = k.
Proof. cbv zeta. induction n; [change (fofz (Z.of_nat 0)) with (f0 : K); ring | ]. rewrite nat_S. set (k := (fofz (Z.of_nat n) : K)) in *. transitivity (k * (k * k) + f1); [ring | rewrite IHn; ring]. Qed.
Lemma fpow3_add : forall (x y : K) n, fpow (x + y) (3 ^ Z.of_nat n) = fpow x (3 ^ Z.of_nat n) + fpow y (3 ^ Z.of_nat n).
Proof. intros x y n. induction n; [rewrite !fpow3_0; auto | ]. rewrite !fpow3_S, IHn. ring. Qed.
Lemma root_shift : forall (x : K), x * (x * x) = x + f1 -> forall n, fpow x (3 ^ Z.of_nat n) = x + fofz (Z.of_nat n).
Proof.
  intros x E n. induction n; [rewrite fpow3_0; change (fofz (Z.of_nat 0)) with (f0 : K); ring | ].
  rewrite fpow3_S, IHn, nat_S. pose proof (nat_cube n) as C. cbv zeta in C. set (k := (fofz (Z.of_nat n) : K)) in *.
  transitivity (x * (x * x) + k * (k * k)); [ring | rewrite E, C; ring].
Qed.
Lemma char3 : (fofz 3 : K) = f0. Proof. change (fofz 3) with (f1 + (f1 + f1)). ring. Qed.
Lemma fofz_mod3 : forall z, (fofz z : K) = fofz (z mod 3).
Proof. intros z. transitivity (fofz (3 * (z / 3) + z mod 3) : K); [f_equal; apply Z.div_mod; lia | ]. rewrite (fofz_add K HK), (fofz_mul K HK), char3. ring. Qed.
Lemma two3_nz : (f1 + f1 : K) <> f0. Proof. intro E. apply (f_1_neq_0 K HK). transitivity (- (f1 + f1)); [ring | rewrite E; ring]. Qed.
Lemma fofz_nz3 : forall z, (z mod 3 <> 0)%Z -> (fofz z : K) <> f0.
Proof.
  intros z H. rewrite fofz_mod3. pose proof (Z.mod_pos_bound z 3 ltac:(lia)) as B. assert (z mod 3 = 1 \/ z mod 3 = 2)%Z as [-> | ->] by lia.
  - apply (f_1_neq_0 K HK).
  - apply two3_nz.
Qed.

(** z^3 - z - 1 has no root in GF(3^n) unless 3 divides n. *)
Section O.
Variable n : nat.
Hypothesis HO : has_order K (3 ^ Z.of_nat n).
Lemma fermat3 : forall x : K, fpow x (3 ^ Z.of_nat n) = x.
Proof.
  intros x. pose proof (order_gt_1 K HK _ HO) as G. destruct (f_eq_dec K HK x f0) as [-> | N].
  - unfold fpow, zpow. apply (npow_0_pos K HK). lia.
  - replace (3 ^ Z.of_nat n)%Z with ((3 ^ Z.of_nat n - 1) + 1)%Z by lia. rewrite (fpowA K HK) by lia. rewrite (fermat_f K HK _ HO x N). change (f1 * (x * f1) = x). ring.
Qed.
Hypothesis N3 : n mod 3 <> 0.
Lemma no_shift : forall c : K, (c = f1 \/ c = - f1) -> forall x : K, x * (x * x) <> x + c.
Proof.
  assert (A : forall x : K, x * (x * x) <> x + f1).
  { intros x E. pose proof (root_shift x E n) as R. rewrite fermat3 in R. apply (fofz_nz3 (Z.of_nat n)).
    - intro M. apply N3. apply Nat2Z.inj. rewrite Nat2Z.inj_mod. exact M.
    - transitivity (x + fofz (Z.of_nat n) - x); [ring | rewrite <- R; ring]. }
  intros c [-> | ->] x E; [exact (A x E) | ]. apply (A (- x)). transitivity (- (x * (x * x))); [ring | rewrite E; ring].
Qed.
Lemma z3_irreducible : irreducible (z3_z_1 K).
Proof.
  apply (no_roots_irreducible K HK).
  - intros _. cbn. apply (f_1_neq_0 K HK).
  - right. reflexivity.
  - intros x E. apply (no_shift f1 (or_introl eq_refl) x). cbn [peval z3_z_1] in E.
    transitivity (x + f1 + (- f1 + x * (- f1 + x * (f0 + x * (f1 + x * f0))))); [ring | rewrite E; ring].
Qed.
Lemma laws33 : fld_laws L. Proof. exact (Ext_laws K HK 3 (z3_z_1 K) z_monic lt03 z3_irreducible). Qed.
Lemma order33 : has_order L (3 ^ Z.of_nat (3 * n)).
Proof. replace (3 ^ Z.of_nat (3 * n))%Z with ((3 ^ Z.of_nat n) ^ Z.of_nat 3)%Z by (rewrite <- Z.pow_mul_r by lia; f_equal; lia). exact (Ext_order K 3 (z3_z_1 K) _ HO). Qed.
Lemma char33 : fadd (fadd f1 f1) f1 = (f0 : L).
Proof. rewrite elt3_1, elt3_0, !elt3_add. f_equal; ring. Qed.
End O.

(** Frobenius powers of a + b z + c z^2. *)
Lemma frob33 : fld_laws L -> forall k (a b c : K), let p x := fpow x (3 ^ Z.of_nat k) in let n := (fofz (Z.of_nat k) : K) in
  fpow (elt3 a b c : L) (3 ^ Z.of_nat k) = elt3 (p a + n * p b + n * n * p c) (p b - n * p c) (p c).
Proof.
  intros HL k a b c. cbv zeta. induction k.
  - rewrite !fpow3_0. change (fofz (Z.of_nat 0)) with (f0 : K).
    replace (fpow (elt3 a b c : L) (3 ^ Z.of_nat 0)) with (elt3 a b c) by (symmetry; change (fmul (elt3 a b c) f1 = elt3 a b c); rewrite elt3_1, elt3_mul; f_equal; ring).
    f_equal; ring.
  - rewrite Nat2Z.inj_succ at 1. rewrite Z.pow_succ_r, Z.mul_comm by lia. rewrite (fpowM L HL) by lia. rewrite IHk.
    rewrite !fpow3_S, nat_S. pose proof (nat_cube k) as C. cbv zeta in C. set (n := (fofz (Z.of_nat k) : K)) in *.
    set (x := fpow a _) in *. set (y := fpow b _) in *. set (z := fpow c _) in *.
    match goal with |- fpow ?e 3 = _ => change (fpow e 3) with (fmul e (fmul e (fmul e f1))) end. rewrite elt3_1.
    rewrite (elt3_mul (x + n * y + n * n * z) (y - n * z) z f1 f0 f0).
    match goal with |- fmul ?e (fmul ?e ?g) = _ => replace g with e by (f_equal; ring) end. rewrite elt3_cube.
    assert (Y : forall u : K, (n * u) * ((n * u) * (n * u)) = n * (u * (u * u))) by (intro u; transitivity (n * (n * n) * (u * (u * u))); [ring | rewrite C; ring]).
    f_equal.
    + transitivity (x * (x * x) + (n * y) * ((n * y) * (n * y)) + (n * (n * z)) * ((n * (n * z)) * (n * (n * z))) + y * (y * y) - (n * z) * ((n * z) * (n * z)) + z * (z * z)); [ring | ].
      rewrite (Y (n * z)), !Y. ring.
    + transitivity (y * (y * y) - (n * z) * ((n * z) * (n * z)) - z * (z * z)); [ring | rewrite Y; ring].
Qed.
End C.
