(** C10, C11, C13: square roots, squareness, sign and hashing. *)
From Coq Require Import ZArith Znumtheory List Bool.
From Verif.Base Require Import Outcome Algebra.
From Verif.Model Require Import FpMachine Tonelli.
From Verif.Spec Require Import PrimeField FiniteField.
From Verif.Proofs Require Import ZpField RootFacts RootWitness.
Import ListNotations.
Open Scope Z_scope.

(** C10: the generic square root, in any finite field of odd order q, with any
    non-residue. *)
Theorem sqrt_correct : forall (K : fld), fld_laws K -> forall q, has_order K q -> Z.odd q = true ->
  forall nqr a : K, ~ is_square nqr -> is_square a ->
  exists x, element_tonelli K q nqr a = Ok x /\ fmul x x = a.
Proof. exact tonelli_correct. Qed.
Print Assumptions sqrt_correct.

(** The integers modulo a prime are such a field. *)
Theorem prime_field_instance : forall p (Hp : 1 < p), prime p -> fld_laws (Zp p Hp) /\ has_order (Zp p Hp) p.
Proof. exact Zp_instance. Qed.
Print Assumptions prime_field_instance.

Example sqrt_example : let K := Zp 13 lt13 in
  ~ is_square (zmk 13 lt13 2 : K) /\ is_square (zmk 13 lt13 10 : K) /\
  exists x, element_tonelli K 13 (zmk 13 lt13 2) (zmk 13 lt13 10) = Ok x /\ zval 13 x = 6.
Proof. exact sqrt_witness. Qed.

(** C10: element_is_sqr in F_p, all back-ends. *)
Theorem is_sqr_correct : forall o p junk,
  prime p -> Z.odd p = true -> any_memory junk -> (o = UseMont -> top_word p < 2 ^ 64 - 1) ->
  forall x, 0 <= x < p ->
  exists b, option_session o p junk [Asg (ASetMpz 0 x); Qry (QIsSqr 0)] = Ok [VB b] /\
    (b = true <-> exists y, 0 <= y < p /\ (y * y) mod p = x).
Proof. exact is_sqr_cor. Qed.
Print Assumptions is_sqr_correct.

(** C11 *)
Theorem sign_correct : forall o p junk,
  prime p -> Z.odd p = true -> any_memory junk -> (o = UseMont -> top_word p < 2 ^ 64 - 1) ->
  forall x, 0 <= x < p ->
  exists s s', option_session o p junk [Asg (ASetMpz 0 x); Qry (QSign 0); Asg (ANeg 1 0); Qry (QSign 1)]
               = Ok [VZ s; VZ s'] /\ (s = 0 <-> x = 0) /\ s' = - s.
Proof. exact sign_cor. Qed.
Print Assumptions sign_correct.

(** C13: a hash whose bits spell the modulus is not reduced by the word-size
    back-end. *)
Theorem hash_to_modulus_refuted : exists p l junk,
  prime p /\ Z.odd p = true /\ any_memory junk /\ Forall (fun x => 0 <= x < 256) l /\
  option_session UseNaive p junk [Asg (AFromHash 0 l); Qry (QToMpz 0); Qry (QIs0 0)] = Ok [VZ p; VB false] /\
  option_session UseMont p junk [Asg (AFromHash 0 l); Qry (QToMpz 0); Qry (QIs0 0)] = Ok [VZ 0; VB true].
Proof. exact hash_refuted. Qed.
Print Assumptions hash_to_modulus_refuted.

(** C13: the integer hash is within the limit and depends on nothing else. *)
Theorem integer_hash_correct : forall limit data, 0 < limit -> Forall (fun x => 0 <= x < 256) data ->
  exists z, FieldInt.pbc_mpz_from_hash limit data = Ok z /\ hashes_to limit data z /\ 0 <= z <= limit.
Proof. exact from_hash_cor. Qed.
Print Assumptions integer_hash_correct.
