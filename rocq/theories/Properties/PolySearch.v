(** C71: irreducibility test and roots of polynomials, squares and square roots
    in polynomial extensions.  K is a finite field with [p^e] elements, p prime;
    mpz_probab_prime_p and mpz_nextprime are assumed exact; element_random takes
    the next value of a source, and OutOfFuel means that the source ran out.
    [is_root f x] : the value of f at x is 0. *)
From Coq Require Import ZArith Znumtheory List Bool Lia Arith.
From Verif.Base Require Import Outcome Algebra.
From Verif.Spec Require Import FiniteField Polynomials Extension Roots.
From Verif.Model Require Import PolyTests.
From Verif.Proofs Require Import ZpField QuadWitness PolyTestsFacts PolySqrtFacts PolySearchWitness.
Import ListNotations.
Open Scope Z_scope.

(** poly_is_irred decides irreducibility of every monic polynomial. *)
Theorem irreducibility_test : forall K, fld_laws K -> forall p e, prime (Z.of_nat p) -> has_order K (Z.of_nat (p ^ e)) ->
  forall isprime nextprime,
  (forall m, 1 <= m -> isprime m = true <-> prime m) ->
  (forall p, prime p -> p < nextprime p /\ prime (nextprime p) /\ forall q, prime q -> p < q -> nextprime p <= q) ->
  forall (f : list K) n, monic f n -> (0 < n)%nat ->
  exists b, poly_is_irred K (Z.of_nat (p ^ e)) isprime nextprime f = Ok b /\ (b = true <-> irreducible f).
Proof. exact is_irred_ok. Qed.
Print Assumptions irreducibility_test.

Theorem irreducibility_test_constant : forall K, fld_laws K -> forall order isprime nextprime (f : list K), (length f <= 1)%nat ->
  poly_is_irred K order isprime nextprime f = Ok false /\ ~ irreducible f.
Proof. exact (fun K _ => irred_constant K). Qed.
Print Assumptions irreducibility_test_constant.

(** It is wrong, both ways, when the leading coefficient is not one. *)
Theorem irreducibility_test_refuted : forall isprime nextprime,
  (forall m, 1 <= m -> isprime m = true <-> prime m) ->
  poly_is_irred Z3 3 isprime nextprime (c3 [1; 0; 2]) = Ok true /\ ~ irreducible (c3 [1; 0; 2]) /\
  poly_is_irred Z3 3 isprime nextprime (c3 [2; 0; 2]) = Ok false /\ irreducible (c3 [2; 0; 2]).
Proof. exact not_monic. Qed.
Print Assumptions irreducibility_test_refuted.

(** poly_findroot, on a monic polynomial of degree at least two and whatever is
    drawn, stores a root or keeps drawing, and returns -1 exactly when there is
    no root; it stops once every element has been drawn. *)
Theorem find_root_sound : forall K, fld_laws K -> forall p e, prime (Z.of_nat p) -> has_order K (Z.of_nat (p ^ e)) ->
  forall (f : list K) n, monic f n -> (2 <= n)%nat ->
  (forall src, poly_findroot K (Z.of_nat (p ^ e)) src f = Ok None \/
    (exists x src', poly_findroot K (Z.of_nat (p ^ e)) src f = Ok (Some (x, src')) /\ is_root f x) \/
    poly_findroot K (Z.of_nat (p ^ e)) src f = OutOfFuel) /\
  (forall src, poly_findroot K (Z.of_nat (p ^ e)) src f = Ok None <-> ~ exists x, is_root f x) /\
  (forall src, (forall x, In x src) -> poly_findroot K (Z.of_nat (p ^ e)) src f <> OutOfFuel).
Proof. exact findroot_ok. Qed.
Print Assumptions find_root_sound.

(** A value that separates the two roots of a quadratic ends the search. *)
Theorem find_root_quadratic : forall K, fld_laws K -> forall p e, has_order K (Z.of_nat (p ^ e)) -> Z.odd (Z.of_nat (p ^ e)) = true ->
  forall (f : list K) x1 x2 c src, monic f 2 -> is_root f x1 -> is_root f x2 -> x1 <> x2 ->
  (c = fopp x1 \/ (fadd x2 c <> f0 /\ is_square (fadd x2 c) /\ ~ is_square (fadd x1 c))) ->
  poly_findroot K (Z.of_nat (p ^ e)) (c :: src) f = Ok (Some (x1, src)).
Proof. exact findroot_square. Qed.
Print Assumptions find_root_quadratic.

(** On polynomials of degree one, which do have a root, it writes outside the
    coefficient array. *)
Theorem find_root_refuted : forall K, fld_laws K -> forall order src (c : K),
  is_root [fopp c; f1] c /\ poly_findroot K order src [fopp c; f1] = UB.
Proof. exact findroot_linear. Qed.
Print Assumptions find_root_refuted.

(** element_is_sqr in K[x]/(m), K of odd order. *)
Theorem extension_is_sqr : forall K, fld_laws K -> forall q n (m : list K), has_order K q -> Z.odd q = true -> monic m n -> (0 < n)%nat -> irreducible m ->
  forall e : Ext K n m, exists b, polymod_is_sqr (Ext K n m) (q ^ Z.of_nat n) e = Ok b /\ (b = true <-> e <> f0 /\ is_square e).
Proof. exact ext_is_sqr. Qed.
Print Assumptions extension_is_sqr.

(** Zero is a square, with square root zero, but is answered to be none. *)
Theorem extension_is_sqr_refuted : forall K, fld_laws K -> forall q n (m : list K), has_order K q -> Z.odd q = true -> monic m n -> (0 < n)%nat -> irreducible m ->
  is_square (f0 : Ext K n m) /\ polymod_is_sqr (Ext K n m) (q ^ Z.of_nat n) f0 = Ok false.
Proof. exact ext_zero. Qed.
Print Assumptions extension_is_sqr_refuted.

(** element_sqrt stores only square roots; what each drawn x does is known. *)
Theorem extension_sqrt_sound : forall K, fld_laws K -> forall q n (m : list K), has_order K q -> Z.odd q = true -> monic m n -> (0 < n)%nat -> irreducible m ->
  forall src (a : Ext K n m),
  (exists y src', polymod_sqrt (Ext K n m) (q ^ Z.of_nat n) src a = Ok (y, src') /\ fmul y y = a) \/
  polymod_sqrt (Ext K n m) (q ^ Z.of_nat n) src a = OutOfFuel.
Proof. exact ext_sqrt. Qed.
Print Assumptions extension_sqrt_sound.

Theorem extension_sqrt_draw : forall K, fld_laws K -> forall q n (m : list K), has_order K q -> Z.odd q = true -> monic m n -> (0 < n)%nat -> irreducible m ->
  forall (a x : Ext K n m) src, is_square a ->
  (fmul x x = a \/ (a <> f0 /\ ~ is_square (fsub (fmul x x) a)) \/ (a = f0 /\ ~ is_square x) ->
    exists y, polymod_sqrt (Ext K n m) (q ^ Z.of_nat n) (x :: src) a = Ok (y, src) /\ fmul y y = a) /\
  (~ (fmul x x = a \/ (a <> f0 /\ ~ is_square (fsub (fmul x x) a)) \/ (a = f0 /\ ~ is_square x)) ->
    polymod_sqrt (Ext K n m) (q ^ Z.of_nat n) (x :: src) a = polymod_sqrt (Ext K n m) (q ^ Z.of_nat n) src a).
Proof. exact ext_draw. Qed.
Print Assumptions extension_sqrt_draw.

(** For a square, more than half of all values drawn end the search. *)
Theorem extension_sqrt_half : forall K, fld_laws K -> forall q n (m : list K), has_order K q -> Z.odd q = true -> monic m n -> (0 < n)%nat -> irreducible m ->
  forall a : Ext K n m, is_square a -> exists G : list (Ext K n m), NoDup G /\ q ^ Z.of_nat n < 2 * Z.of_nat (length G) /\
  forall src, (exists x, In x src /\ In x G) -> exists y src', polymod_sqrt (Ext K n m) (q ^ Z.of_nat n) src a = Ok (y, src') /\ fmul y y = a.
Proof. exact ext_half. Qed.
Print Assumptions extension_sqrt_half.

(** For any other element it never returns. *)
Theorem extension_sqrt_nonsquare : forall K, fld_laws K -> forall q n (m : list K), has_order K q -> Z.odd q = true -> monic m n -> (0 < n)%nat -> irreducible m ->
  forall src (a : Ext K n m), ~ is_square a -> polymod_sqrt (Ext K n m) (q ^ Z.of_nat n) src a = OutOfFuel.
Proof. exact ext_nonsquare. Qed.
Print Assumptions extension_sqrt_nonsquare.

(** F_3 and F_3[x]/(x^2 + 1) meet the hypotheses. *)
Example poly_search_case : fld_laws Z3 /\ prime (Z.of_nat 3) /\ has_order Z3 (Z.of_nat (3 ^ 1)) /\ monic (c3 [1; 0; 1]) 2 /\ irreducible (c3 [1; 0; 1]) /\
  poly_findroot Z3 3 [zmk 3 lt3 1] (c3 [2; 0; 1]) = Ok (Some (zmk 3 lt3 2, [])).
Proof. exact search_case. Qed.
