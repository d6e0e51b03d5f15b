(** C46: GF(3^m), stored in two arrays of 64-bit words.  The specification is
    GF(3)[x]/(x^m + x^t + 2) (Spec/Ternary.v); [value m t e] is the element
    that the arrays of e stand for, [valid m e] says that no coefficient has
    both bits set and that the degree is below m, and [gives m t r x] that r
    returns a valid element with value x. *)
From Coq Require Import ZArith List Bool.
From Verif.Base Require Import Outcome Algebra.
From Verif.Spec Require Import FiniteField Polynomials Extension Ternary GF3mElement.
From Verif.Model Require Import GF3m.
From Verif.Proofs Require Import GF3mMain GF3mRandom.
Import ListNotations.
Open Scope nat_scope.

Theorem gf3m_init : forall m t, dims m t -> exists p, field_init_gf3m (Z.of_nat m) (Z.of_nat t) = Ok p.
Proof. exact m_init. Qed.
Print Assumptions gf3m_init.
Theorem gf3m_values_determine_elements : forall m t a b, valid m a -> valid m b -> value m t a = value m t b -> a = b.
Proof. exact valid_inj. Qed.
Print Assumptions gf3m_values_determine_elements.
Theorem gf3m_set0_set1 : forall m t, dims m t ->
  valid m (zero (m / 64 + 1)) /\ value m t (zero (m / 64 + 1)) = f0 /\ gives m t (gf3m_one (m / 64 + 1)) f1.
Proof. exact (fun m t D => conj (proj1 (m_zero m t)) (conj (proj2 (m_zero m t)) (m_one m t D))). Qed.
Print Assumptions gf3m_set0_set1.
Theorem gf3m_add_correct : forall m t a b, valid m a -> valid m b -> gives m t (gf3m_add a b) (fadd (value m t a) (value m t b)).
Proof. exact m_add. Qed.
Print Assumptions gf3m_add_correct.
Theorem gf3m_double_correct : forall m t a, valid m a -> gives m t (gf3m_double a) (fadd (value m t a) (value m t a)).
Proof. exact (fun m t a V => m_add m t a a V V). Qed.
Print Assumptions gf3m_double_correct.
Theorem gf3m_sub_correct : forall m t a b, valid m a -> valid m b -> gives m t (gf3m_sub a b) (fsub (value m t a) (value m t b)).
Proof. exact m_sub. Qed.
Print Assumptions gf3m_sub_correct.
Theorem gf3m_neg_correct : forall m t inplace a, valid m a -> gives m t (gf3m_neg inplace a) (fopp (value m t a)).
Proof. exact m_neg. Qed.
Print Assumptions gf3m_neg_correct.
Theorem gf3m_mult_correct : forall m t, dims m t -> forall p, field_init_gf3m (Z.of_nat m) (Z.of_nat t) = Ok p ->
  forall a b, valid m a -> valid m b -> gives m t (gf3m_mult p a b) (fmul (value m t a) (value m t b)).
Proof. exact m_mult. Qed.
Print Assumptions gf3m_mult_correct.
Theorem gf3m_cubic_correct : forall m t, dims m t -> forall p, field_init_gf3m (Z.of_nat m) (Z.of_nat t) = Ok p ->
  forall a, valid m a -> gives m t (gf3m_cubic p a) (fmul (value m t a) (fmul (value m t a) (value m t a))).
Proof. exact m_cubic. Qed.
Print Assumptions gf3m_cubic_correct.
(** Reduction of a polynomial of degree at most d stored in n words. *)
Theorem gf3m_reduct_correct : forall m t, dims m t -> forall p, field_init_gf3m (Z.of_nat m) (Z.of_nat t) = Ok p ->
  forall n d e, sliced n (d1 e) (d2 e) -> d < 64 * n -> (Z.of_nat d < 2 ^ 32)%Z -> m <= d -> reduced (S d) (d1 e) (d2 e) ->
  exists e', gf3m_reduct p e n (Z.of_nat d) = Ok e' /\ sliced n (d1 e') (d2 e') /\ reduced m (d1 e') (d2 e') /\
    cong (trinomial m t) (map (tcoef (d1 e') (d2 e')) (seq 0 m) : list GF3) (map (tcoef (d1 e) (d2 e)) (seq 0 (S d))).
Proof. exact m_reduct. Qed.
Print Assumptions gf3m_reduct_correct.
(** With an irreducible trinomial this is a field with 3^m elements, and the
    inversion loop always ends with the inverse. *)
Theorem gf3m_is_field : forall m t, dims m t -> irreducible (trinomial m t) -> fld_laws (GF3m m t) /\ has_order (GF3m m t) (3 ^ Z.of_nat m).
Proof. exact m_field. Qed.
Print Assumptions gf3m_is_field.
Theorem gf3m_invert_correct : forall m t, dims m t -> forall p, field_init_gf3m (Z.of_nat m) (Z.of_nat t) = Ok p -> irreducible (trinomial m t) ->
  forall a, valid m a -> value m t a <> f0 -> gives m t (gf3m_invert p a) (finv (value m t a)).
Proof. exact m_invert. Qed.
Print Assumptions gf3m_invert_correct.
Theorem gf3m_div_correct : forall m t, dims m t -> forall p, field_init_gf3m (Z.of_nat m) (Z.of_nat t) = Ok p -> irreducible (trinomial m t) ->
  forall a b, valid m a -> valid m b -> value m t b <> f0 -> gives m t (gf3m_div p a b) (fdiv (value m t a) (value m t b)).
Proof. exact m_div. Qed.
Print Assumptions gf3m_div_correct.
Theorem gf3m_cmp_correct : forall m t a b, valid m a -> valid m b ->
  exists r, gf3m_cmp a b = Ok r /\ (r = 0%Z \/ r = 1%Z) /\ (r = 0%Z <-> value m t a = value m t b).
Proof. exact m_cmp. Qed.
Print Assumptions gf3m_cmp_correct.
Theorem gf3m_is0_correct : forall m t a, valid m a -> (gf3m_is0 a = true <-> value m t a = f0).
Proof. exact m_is0. Qed.
Print Assumptions gf3m_is0_correct.
Theorem gf3m_is1_correct : forall m t, dims m t -> forall a, valid m a -> exists b, gf3m_is1 a = Ok b /\ (b = true <-> value m t a = f1).
Proof. exact m_is1. Qed.
Print Assumptions gf3m_is1_correct.
(** Square roots: only for odd m (the exponent (3^m + 1)/4 is exact). *)
Theorem gf3m_sqrt_correct_odd_m : forall m t, dims m t -> irreducible (trinomial m t) -> Nat.odd m = true -> forall x : GF3m m t, is_square x ->
  exists y, gf3m_sqrt (GF3m m t) (3 ^ Z.of_nat m) x = Ok y /\ fmul y y = x.
Proof. exact m_sqrt. Qed.
Print Assumptions gf3m_sqrt_correct_odd_m.
(** For even m the result is no square root. *)
Theorem gf3m_sqrt_even_m_refuted : exists (x y : GF3m 2 1), is_square x /\ gf3m_sqrt (GF3m 2 1) (3 ^ 2) x = Ok y /\ fmul y y <> x.
Proof. exact sqrt_even. Qed.
Print Assumptions gf3m_sqrt_even_m_refuted.
(** Byte strings: what to_bytes writes is read back; trailing bytes are not read. *)
Theorem gf3m_bytes_round_trip : forall m t p e, dims m t -> field_init_gf3m (Z.of_nat m) (Z.of_nat t) = Ok p -> valid m e ->
  exists s, gf3m_to_bytes e = Ok s /\ Z.of_nat (length s) = gf3m_length_in_bytes p /\ Forall (fun x => 0 <= x < 256)%Z s /\
  forall r, gf3m_from_bytes p (s ++ r) = Ok e.
Proof. exact m_bytes. Qed.
Print Assumptions gf3m_bytes_round_trip.
(** Other byte strings are accepted and give objects that are no field
    elements: here e <> 0 and e + e = 0 although the characteristic is 3. *)
Theorem gf3m_from_bytes_total_refuted : exists p e, field_init_gf3m 2 1 = Ok p /\ gf3m_from_bytes p (1 :: 1 :: repeat 0 14)%Z = Ok e /\ ~ valid 2 e /\
  gf3m_is0 e = false /\ exists s, gf3m_add e e = Ok s /\ gf3m_is0 s = true.
Proof. exact decode_both. Qed.
Print Assumptions gf3m_from_bytes_total_refuted.
(** Random elements, with rand() between 0 and 2^31 - 1: valid unless 64
    divides m, but coefficient i is always 0 when i mod 64 >= 31. *)
Theorem gf3m_random_range_partial : forall m t p rs, dims m t -> field_init_gf3m (Z.of_nat m) (Z.of_nat t) = Ok p ->
  Forall (fun r => 0 <= r < 2 ^ 31)%Z rs -> 2 * (m / 64 + 1) <= length rs ->
  exists e, gf3m_random p rs = Ok e /\ sliced (m / 64 + 1) (d1 e) (d2 e) /\ (m mod 64 <> 0 -> valid m e) /\
  forall i, 31 <= i mod 64 -> tcoef (d1 e) (d2 e) i = T0.
Proof. exact m_random. Qed.
Print Assumptions gf3m_random_range_partial.
Theorem gf3m_random_valid_refuted : exists p e, field_init_gf3m 64 1 = Ok p /\ gf3m_random p [0; 0; 5; 5]%Z = Ok e /\ ~ valid 64 e.
Proof. exact random_64. Qed.
Print Assumptions gf3m_random_valid_refuted.
(** Multiplication by an integer is not overridden and always gives 0. *)
Theorem gf3m_mul_si_gives_0 : forall m t, dims m t -> forall p, field_init_gf3m (Z.of_nat m) (Z.of_nat t) = Ok p ->
  forall a z, valid m a -> gives m t (gf3m_mul_si p a z) f0.
Proof. exact m_mul_si. Qed.
Print Assumptions gf3m_mul_si_gives_0.

(** Concrete cases: two words, x^96 x = 2 x^12 + 1 modulo x^97 + x^12 + 2;
    GF(9) and GF(27) are fields. *)
Example gf3m_97 : dims 97 12 /\ exists p, field_init_gf3m 97 12 = Ok p /\
  gf3m_mult p (E [0; 2 ^ 32] [0; 0])%Z (E [2; 0] [0; 0])%Z = Ok (E [1; 0] [2 ^ 12; 0])%Z.
Proof. split; [split; [split; repeat constructor | reflexivity] | ]. eexists. split; reflexivity. Qed.
Example gf3m_9_27 : dims 2 1 /\ irreducible (trinomial 2 1) /\ dims 3 2 /\ irreducible (trinomial 3 2) /\
  valid 3 (E [2] [1])%Z /\ value 3 2 (E [2] [1])%Z <> f0.
Proof.
  split; [split; [split; repeat constructor | reflexivity] | ]. split; [exact tri2_irr | ]. split; [split; [split; repeat constructor | reflexivity] | ]. split; [exact tri3_irr | ].
  exact valid_3.
Qed.
