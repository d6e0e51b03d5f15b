(** C67: fields of one machine word (field_init_tiny_fp).  [tiny_session p h]
    runs a history of API calls on fresh elements; [spec_run]
    (Spec/PrimeField.v) says what integer arithmetic modulo p answers. *)
From Coq Require Import ZArith Znumtheory List Bool.
From Verif.Base Require Import Outcome Gmp.
From Verif.Model Require Import FpMachine TinyFp.
From Verif.Spec Require Import PrimeField.
From Verif.Proofs Require Import TinyFacts TinyWitness.
Import ListNotations.
Open Scope Z_scope.

(** Every history the implementation supports. *)
Theorem tiny_field_exact : forall p h vs,
  1 < p < 2 ^ 64 -> Z.odd p = true ->
  spec_run p (fun a => mpz_legendre a p) (allowed_tiny p) h fresh vs ->
  tiny_session p h = Ok vs.
Proof. exact tiny_session_exact. Qed.
Print Assumptions tiny_field_exact.

(** Doubling in place, for moduli up to 2^63. *)
Theorem tiny_double_in_place_exact : forall p a, 1 < p < 2 ^ 64 -> p <= 2 ^ 63 -> 0 <= a < p ->
  tiny_double p true a = (2 * a) mod p.
Proof. exact tiny_dbl. Qed.
Print Assumptions tiny_double_in_place_exact.

(** A hashed element is the little-endian value of the bytes modulo p. *)
Theorem tiny_from_hash_value : forall p l, 1 < p < 2 ^ 64 ->
  tiny_session p [Asg (AFromHash 0 l); Qry (QToMpz 0)] = Ok [VZ (be_value (rev l) 0 mod p)].
Proof. exact tiny_hash. Qed.
Print Assumptions tiny_from_hash_value.

(** The exclusions are needed.  Above 2^32 a product of elements is truncated. *)
Theorem tiny_multiplication_refuted : exists p x y, prime p /\ p < 2 ^ 64 /\ 0 <= x < p /\ 0 <= y < p /\
  tiny_session p [Asg (ASetMpz 0 x); Asg (ASetMpz 1 y); Asg (AMul 2 0 1); Qry (QToMpz 2)] <> Ok [VZ ((x * y) mod p)].
Proof. exact tiny_mul_refuted. Qed.
Print Assumptions tiny_multiplication_refuted.

(** -p is stored as p, which is not recognised as zero. *)
Theorem tiny_set_si_multiple_refuted : forall p, prime p -> p < 2 ^ 63 ->
  tiny_session p [Asg (ASetSi 0 (- p)); Qry (QIs0 0); Qry (QToMpz 0)] = Ok [VB false; VZ p].
Proof. exact tiny_set_si_refuted. Qed.
Print Assumptions tiny_set_si_multiple_refuted.

(** Multiplication by a negative long. *)
Theorem tiny_negative_multiplier_refuted : exists p, prime p /\
  tiny_session p [Asg (ASet1 0); Asg (AMulSi 1 0 (-1)); Qry (QToMpz 1)] <> Ok [VZ ((-1) mod p)].
Proof. exact tiny_mul_si_refuted. Qed.
Print Assumptions tiny_negative_multiplier_refuted.

(** Doubling in place above 2^63. *)
Theorem tiny_double_in_place_refuted : exists p a, 2 ^ 63 < p < 2 ^ 64 /\ Z.odd p = true /\ 0 <= a < p /\
  tiny_double p true a <> (2 * a) mod p.
Proof. exact tiny_double_refuted. Qed.
Print Assumptions tiny_double_in_place_refuted.

(** Hashing gives a different element than the field of field_init_fp. *)
Theorem tiny_hash_unobservable_refuted : exists p l junk, prime p /\ Forall (fun x => 0 <= x < 256) l /\
  tiny_session p [Asg (AFromHash 0 l); Qry (QToMpz 0)] <> fp_session UseMont p junk [Asg (AFromHash 0 l); Qry (QToMpz 0)].
Proof. exact tiny_hash_refuted. Qed.
Print Assumptions tiny_hash_unobservable_refuted.

Example tiny_session_example : prime 13 /\
  spec_run 13 (fun a => mpz_legendre a 13) (allowed_tiny 13) tdemo fresh [VZ 5; VZ 9; VBytes [6]; VB true].
Proof. exact (conj prime13 tdemo_ok). Qed.
