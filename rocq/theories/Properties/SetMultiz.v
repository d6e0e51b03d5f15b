(** C74: element_set_multiz.  [stores L gen bs rep set] says that [set], given
    any nested list whose lists at depth k have at most [nth k bs] entries,
    stores the element of L that the list denotes (Spec/SetMultiz.v); [rep]
    is how an element of L is laid out. *)
From Coq Require Import ZArith List Bool.
From Verif.Base Require Import Outcome Algebra Slots.
From Verif.Spec Require Import FiniteField Polynomials Extension Quadratic Curve ElementText Multiz SetMultiz.
From Verif.Model Require Import Multiz SetMultiz.
From Verif.Proofs Require Import SetMultizFacts SetMultizMain ZpField QuadWitness SetMultizWitness.
Import ListNotations.
Open Scope nat_scope.

(** Prime fields store the constant term. *)
Theorem set_multiz_prime_field : forall K : fld, fld_laws K ->
  stores K no_gens [] (fun x => x) (generic_set_multiz (fofz : Z -> K)).
Proof. exact base_stores. Qed.
Print Assumptions set_multiz_prime_field.

(** Extensions of a field whose element_set_multiz is right. *)
Theorem set_multiz_quadratic : forall K : fld, fld_laws K -> forall d : K, ~ is_square d ->
  forall g bs sub, stores K g bs (fun x => x) sub ->
  stores (Quad K d) (quad_gens d g) (2 :: bs) (fun x => x) (fq_set_multiz sub f0).
Proof. exact quad_stores. Qed.
Print Assumptions set_multiz_quadratic.
Theorem set_multiz_extension : forall K : fld, fld_laws K -> forall n (m : list K), monic m n -> 2 <= n ->
  forall g bs sub, stores K g bs (fun x => x) sub ->
  stores (Ext K n m) (ext_gens n m g) (n :: bs) (fun x => proj1_sig x) (polymod_set_multiz sub f0 n).
Proof. exact ext_stores. Qed.
Print Assumptions set_multiz_extension.
(** Polynomial rings: lists of any length. *)
Theorem set_multiz_polynomial : forall K : fld, fld_laws K ->
  forall g bs sub, stores K g bs (fun x => x) sub -> forall l, Forall (shaped bs) l ->
  exists f, poly_set_multiz K sub (MA l) = Ok f /\ normal f /\ forall i, coef f i = mvalue K g 0 (nth i l (MZ 0)).
Proof. exact poly_stores. Qed.
Print Assumptions set_multiz_polynomial.
Theorem set_multiz_constant_polynomial : forall K : fld, fld_laws K -> forall sub z,
  exists f, poly_set_multiz K sub (MZ z) = Ok f /\ normal f /\ forall i, coef f i = if Nat.eqb i 0 then fofz z else f0.
Proof. exact poly_stores_z. Qed.
Print Assumptions set_multiz_constant_polynomial.

(** Converting a sum, a product or an opposite of lists gives the sum, the
    product, the opposite of the elements - for products, if the product of
    the lists is not too long. *)
Theorem set_multiz_sum : forall L : fld, fld_laws L -> forall gen bs (A : Type) (rep : L -> A) set, stores L gen bs rep set ->
  forall a b, shaped bs a -> shaped bs b ->
  exists c, mz_add a b = Ok c /\ set c = Ok (rep (fadd (mvalue L gen 0 a) (mvalue L gen 0 b))).
Proof. exact commutes. Qed.
Print Assumptions set_multiz_sum.
Theorem set_multiz_opposite : forall L : fld, fld_laws L -> forall gen bs (A : Type) (rep : L -> A) set, stores L gen bs rep set ->
  forall a, shaped bs a -> set (mz_neg a) = Ok (rep (fopp (mvalue L gen 0 a))).
Proof. exact commutes_neg. Qed.
Print Assumptions set_multiz_opposite.
Theorem set_multiz_product_partial : forall L : fld, fld_laws L -> forall gen bs (A : Type) (rep : L -> A) set, stores L gen bs rep set ->
  forall a b, shaped bs a -> shaped bs b ->
  exists c, mz_mul a b = Ok c /\ (shaped bs c -> set c = Ok (rep (fmul (mvalue L gen 0 a) (mvalue L gen 0 b)))).
Proof. exact commutes_mul. Qed.
Print Assumptions set_multiz_product_partial.
(** In every quadratic extension: the list of the square of the generator is
    stored as 0. *)
Theorem set_multiz_product_refuted : forall K : fld, fld_laws K -> forall d : K, ~ is_square d ->
  exists c, mz_mul (MA [MZ 0%Z; MZ 1%Z]) (MA [MZ 0; MZ 1]) = Ok c /\
    fq_set_multiz (generic_set_multiz (fofz : Z -> K)) f0 (MA [MZ 0; MZ 1]) = Ok (f0, f1) /\
    fq_set_multiz (generic_set_multiz (fofz : Z -> K)) f0 c = Ok (f0, f0) /\ @fmul (Quad K d) (f0, f1) (f0, f1) <> (f0, f0).
Proof. exact square_lost. Qed.
Print Assumptions set_multiz_product_refuted.
(** Entries beyond the degree are ignored, not reduced. *)
Theorem set_multiz_long_list_refuted : forall (A : Type) (sub : mz -> res A) zero l extra,
  polymod_set_multiz sub zero (length l) (MA (l ++ extra)) = polymod_set_multiz sub zero (length l) (MA l).
Proof. exact extra_ignored. Qed.
Print Assumptions set_multiz_long_list_refuted.

(** Points: the first two entries are the coordinates. *)
Theorem set_multiz_point_partial : forall (K : fld) g bs sub, stores K g bs (fun x => x) sub ->
  forall P cx cy l, shaped bs cx -> shaped bs cy ->
  curve_set_multiz K sub P (MA (cx :: cy :: l)) = Ok (Some (mvalue K g 0 cx, mvalue K g 0 cy)).
Proof. exact curve_stores. Qed.
Print Assumptions set_multiz_point_partial.
(** The integer 0 is the identity; any other integer and a list with fewer than
    two entries leave the point as it was. *)
Theorem set_multiz_point_other : forall (K : fld) (sub : mz -> res K) (P : point K),
  curve_set_multiz K sub P (MZ 0) = Ok None /\
  (forall z, z <> 0%Z -> curve_set_multiz K sub P (MZ z) = Ok P) /\
  curve_set_multiz K sub P (MA []) = Ok P /\
  forall c, curve_set_multiz K sub P (MA [c]) = Ok P.
Proof. exact curve_other. Qed.
Print Assumptions set_multiz_point_other.
(** Nothing checks that they lie on the curve: here y^2 = x^3 + x over F_3. *)
Theorem set_multiz_point_refuted :
  exists P : point Z3, curve_set_multiz Z3 (generic_set_multiz (fofz : Z -> Z3)) None (MA [MZ 1; MZ 1]) = Ok P /\ ~ on_curve Z3 f1 f0 P.
Proof. exact off_curve. Qed.
Print Assumptions set_multiz_point_refuted.

(** The list of the coordinates of an element of a tower over F_p is stored as
    that element, and printed as the same text. *)
Theorem set_multiz_round_trip : forall p t e, is_elem p t e -> tower_set_multiz p t (elem_list t e) = Ok e.
Proof. exact round_trip. Qed.
Print Assumptions set_multiz_round_trip.
Theorem multiz_text : forall num t e p, is_elem p t e ->
  multiz_out_str num (elem_list t e) = (elem_text num t e, length (elem_text num t e)).
Proof. exact out_elem. Qed.
Print Assumptions multiz_text.
(** No list can be read back from its text. *)
Theorem multiz_text_refuted : forall num l base rest,
  multiz_set_str (fst (multiz_out_str num (MA l)) ++ 0%Z :: rest) base = Ok (MZ 0, 0%Z).
Proof. exact list_text. Qed.
Print Assumptions multiz_text_refuted.

(** [4, [5, 7]] in F_9 = F_3(i) is 4 + 5i. *)
Example set_multiz_example : shaped [2] ex9 /\ fq_set_multiz (generic_set_multiz (fofz : Z -> Z3)) f0 ex9 = Ok (zmk 3 lt3 1, zmk 3 lt3 2 : Z3).
Proof. exact ex9_ok. Qed.
Example set_multiz_tower_example : is_elem 7 (TPoly 3 (TQuad TFp)) [(1, 2); (3, 4); (5, 6)]%Z.
Proof. repeat split; repeat constructor; cbn; auto; intro H; discriminate H. Qed.
