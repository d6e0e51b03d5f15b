(** C55: complex arithmetic and class polynomials. *)
From Coq Require Import ZArith List Lia QArith Qcanon.
From Verif.Base Require Import Outcome Algebra Slots.
From Verif.Spec Require Import FiniteField Polynomials ClassPolynomial.
From Verif.Model Require Import Mpc Hilbert.
From Verif.Proofs Require Import MpcFacts HilbertForms HilbertPoly.
Import ListNotations.
Open Scope Z_scope.

(** Every call leaves the value of the operation on the old values of its arguments, whichever
    of the variables r, x, y are the same one. *)
Theorem complex_operations : forall K : fld, fld_laws K -> ~ is_square (fopp (f1 : K)) -> forall (s : nat -> K * K) r x y,
  writes s (mpc_add K s r x y) r (fadd (s x : Cx K) (s y)) /\
  writes s (mpc_sub K s r x y) r (fsub (s x : Cx K) (s y)) /\
  writes s (mpc_mul K s r x y) r (fmul (s x : Cx K) (s y)) /\
  writes s (mpc_sqr K s r x) r (fmul (s x : Cx K) (s x)) /\
  writes s (mpc_neg K s r x) r (fopp (s x : Cx K)) /\
  writes s (mpc_conj K s r x) r (conj_c (s x : Cx K)) /\
  writes s (mpc_muli K s r x) r (fmul (s x : Cx K) ((f0, f1) : Cx K)) /\
  writes s (mpc_set K s r x) r (s x : Cx K) /\
  (forall n, writes s (mpc_set_ui K s r n) r (fofz n : Cx K)) /\
  (forall n, writes s (mpc_mul_ui K s r x n) r (fmul (s x : Cx K) (fofz n))) /\
  (forall e, writes s (mpc_mul_2exp K s r x e) r (fmul (s x : Cx K) (fofz (2 ^ e)))) /\
  (forall f : K, writes s (mpc_mul_mpf K s r x f) r (fmul (s x : Cx K) ((f, f0) : Cx K))).
Proof. exact (fun K HK Hi s r x y => conj (add_w K s r x y) (conj (sub_w K s r x y) (conj (mul_w K HK s r x y) (conj (sqr_w K HK s r x)
  (conj (neg_w K s r x) (conj (conj_w K s r x) (conj (muli_w K HK s r x) (conj (set_w K s r x) (conj (set_ui_w K HK Hi s r)
  (conj (mul_ui_w K HK Hi s r x) (conj (mul_2exp_w K HK Hi s r x) (mul_mpf_w K HK s r x)))))))))))). Qed.
Print Assumptions complex_operations.

Theorem complex_inversion : forall K : fld, fld_laws K -> ~ is_square (fopp (f1 : K)) -> forall (s : nat -> K * K) r x,
  ((s x : Cx K) <> f0 -> exists s', mpc_inv K s r x = Ok s' /\ writes s s' r (finv (s x : Cx K))) /\
  ((s x : Cx K) = f0 -> mpc_inv K s r x = UB).
Proof. exact (fun K HK Hi s r x => conj (inv_w K HK Hi s r x) (inv_0 K HK s r x)). Qed.
Print Assumptions complex_inversion.

Theorem complex_division : forall K : fld, fld_laws K -> ~ is_square (fopp (f1 : K)) -> forall c0 (s : nat -> K * K) r x y,
  (s y : Cx K) <> f0 -> c0 <> r -> c0 <> x -> c0 <> y ->
  exists s', mpc_div K c0 s r x y = Ok s' /\ s' r = fdiv (s x : Cx K) (s y) /\ forall i, i <> r -> i <> c0 -> s' i = s i.
Proof. exact div_w. Qed.
Print Assumptions complex_division.

Theorem complex_power : forall K : fld, fld_laws K -> ~ is_square (fopp (f1 : K)) -> forall z0 (s : nat -> K * K) r z n,
  0 <= n < 2 ^ 31 -> z0 <> r -> z0 <> z ->
  exists s', mpc_pow_ui K 33 z0 s r z n = Ok s' /\ (s' r : Cx K) = fpow (s z : Cx K) n /\ forall i, i <> r -> i <> z0 -> s' i = s i.
Proof. exact pow_ui_w. Qed.
Print Assumptions complex_power.
(** An exponent of 2^31 or more: the search for its top bit never ends. *)
Theorem complex_power_refuted : forall (K : fld) fuel z0 (s : nat -> K * K) r z n, 2 ^ 31 <= n -> mpc_pow_ui K fuel z0 s r z n = OutOfFuel.
Proof. exact pow_ui_stuck. Qed.
Print Assumptions complex_power_refuted.

(** Adding an integer is right in place; into another variable the imaginary part is not written. *)
Theorem complex_add_integer_partial : forall K : fld, fld_laws K -> ~ is_square (fopp (f1 : K)) -> forall (s : nat -> K * K) r n,
  writes s (mpc_add_ui K s r r n) r (fadd (s r : Cx K) (fofz n)).
Proof. exact add_ui_w. Qed.
Print Assumptions complex_add_integer_partial.
Theorem complex_add_integer_refuted : exists (s : nat -> Qfield * Qfield) r x n, mpc_add_ui Qfield s r x n r <> fadd (s x : Cx Qfield) (fofz n).
Proof. exact add_ui_bad. Qed.
Print Assumptions complex_add_integer_refuted.

(** The forms whose j is computed: one of each pair of opposite reduced forms, once. *)
Theorem forms_visited_once : forall D, discriminant D -> D < 2 ^ 30 -> forall fuel, D < Z.of_nat fuel ->
  exists l, forms fuel D = Ok l /\ NoDup l /\ forall a b t, In (a, b, t) l <-> 0 <= b /\ exists c, t = a * c /\ reduced D a b c.
Proof. exact forms_ok. Qed.
Print Assumptions forms_visited_once.
(** For a fundamental discriminant every one of them is primitive; otherwise imprimitive forms are used too. *)
Theorem forms_primitive : forall D a b c, fundamental D -> reduced D a b c -> primitive a b c.
Proof. exact form_primitive. Qed.
Print Assumptions forms_primitive.
Theorem forms_primitive_refuted : discriminant 12 /\ exists l, forms 13 12 = Ok l /\ In (2, 2, 4) l /\ reduced 12 2 2 2 /\ ~ primitive 2 2 2.
Proof. exact form_imprimitive. Qed.
Print Assumptions forms_primitive_refuted.

(** Over any field in which -1 is not a square, with exact arithmetic: the accumulated polynomial is the product of X - j over all the
    reduced forms, and the class number reported is their number. *)
Theorem class_polynomial_exact : forall K : fld, fld_laws K -> ~ is_square (fopp (f1 : K)) ->
  forall D, discriminant D -> D < 2 ^ 30 -> forall fuel, D < Z.of_nat fuel ->
  forall j : Z -> Z -> Cx K, (forall a b, j a (- b) = conj_c (j a b)) ->
  exists l : list (Z * Z * Z), NoDup l /\ (forall a b c, In (a, b, c) l <-> reduced D a b c) /\
    class_number fuel D = Ok (Z.of_nat (length l)) /\
    exists Pz, accumulate K fuel j D = Ok Pz /\ length Pz = length l /\ eqp ((rev Pz : list (Cx K)) ++ [f1]) (class_polynomial j l).
Proof. exact hilbert_exact. Qed.
Print Assumptions class_polynomial_exact.

(** If the product is within 1/2 of an integer polynomial, that polynomial is returned. *)
Theorem class_polynomial_rounded : forall D, discriminant D -> D < 2 ^ 30 -> forall fuel, D < Z.of_nat fuel ->
  forall j : Z -> Z -> Cx Qfield, (forall a b, j a (- b) = conj_c (j a b)) ->
  exists l : list (Z * Z * Z), NoDup l /\ (forall a b c, In (a, b, c) l <-> reduced D a b c) /\
    forall H : list Z, length H = S (length l) -> (forall i, within_half (fst (coef (class_polynomial j l) i)) (nth i H 0%Z)) ->
      pbc_hilbert Qfield round_re fuel j D = Ok H.
Proof. exact hilbert_ok. Qed.
Print Assumptions class_polynomial_rounded.

(** D = 23: three forms (1, 1, 6), (2, 1, 3), (2, -1, 3); with the values a + b i in place of j, 1 + i, 2 + i, 2 - i. *)
Example discriminant_23 : discriminant 23 /\ reduced 23 2 (-1) 3 /\ reduced 23 1 1 6 /\ class_number 24 23 = Ok 3 /\
  let j := fun a b => (Qc_of a, Qc_of b) : Cx Qfield in
  (forall a b, j a (- b) = conj_c (j a b)) /\ pbc_hilbert Qfield round_re 24 j 23 = Ok [-5; 9; -5; 1].
Proof. exact example_23. Qed.
