(** C14, C15, C16: the ring Z, its serialisation, random integers. *)
From Coq Require Import ZArith List Bool Lia.
From Verif.Base Require Import Outcome Gmp.
From Verif.Model Require Import ZRing Random.
From Verif.Spec Require Import Integers Uniform.
From Verif.Proofs Require Import ZRingFacts RandomFacts ScalarWitness.
Import ListNotations.
Open Scope Z_scope.

(** C14: for every limit, every value below it is produced by the same number
    of blocks of random bytes, ... *)
Theorem random_blocks_uniform : forall limit, 0 < limit -> forall v, 0 <= v < limit ->
  count_blocks (byte_count limit) (accept limit) v = 2 ^ (8 * Z.of_nat (byte_count limit) - sizeinbase2 limit).
Proof. exact uniform. Qed.
Print Assumptions random_blocks_uniform.

(** ... the result of a call is that of the first accepted block, ... *)
Theorem random_is_first_accepted_block : forall limit blocks v,
  file_mpz_random blocks limit = Some v <->
  exists rejected b rest, blocks = rejected ++ b :: rest /\
    Forall (fun b => accept limit b = None) rejected /\ accept limit b = Some v.
Proof. exact random_first. Qed.
Print Assumptions random_is_first_accepted_block.

(** ... and it is in range. *)
Theorem random_in_range : forall limit blocks v,
  Forall (fun b => length b = byte_count limit /\ Forall is_byte b) blocks ->
  file_mpz_random blocks limit = Some v -> 0 <= v < limit.
Proof. exact random_range. Qed.
Print Assumptions random_in_range.

Example random_example : accept 1000 [255; 17] = Some 785 /\ accept 1000 [255; 240] = None /\ byte_count 1000 = 2%nat /\
  file_mpz_random [[255; 240]; [7; 1]; [0; 0]] 1000 = Some 769.
Proof. exact random_witness. Qed.

(** C15: every history of the calls listed in [zspec].  Missing: element_halve
    (always wrong), element_is_sqr on perfect powers that are not squares, and
    exponents of more than 64 bits, all refuted below. *)
Theorem integer_ring_exact_partial : forall pp, (forall a, pp a = true <-> perfect_power a) ->
  forall h s os, zspec_run s h os -> z_run pp s h = Ok os.
Proof. exact z_run_spec. Qed.
Print Assumptions integer_ring_exact_partial.

Example integer_ring_example : zspec_run (fun _ => 0)
  [ZSetSi 0 (-7); ZSetMpz 1 5; ZMul 2 0 1; ZPow 3 2 3; ZToMpz 3; ZCmp 3 2; ZDiv 4 3 1; ZToMpz 4]
  [ON (-42875); ON (-1); ON (-8575)].
Proof. exact zring_witness. Qed.

(** C15: halving an even number gives zero. *)
Theorem integer_halving_refuted : forall pp a, Z.abs a < 2 ^ 64 ->
  z_run pp (fun _ => 0) [ZSetMpz 0 (2 * a); ZHalve 0 0; ZToMpz 0] = Ok [ON 0].
Proof. exact halve_wrong. Qed.
Print Assumptions integer_halving_refuted.

(** C15: 8 is reported to be a square. *)
Theorem integer_square_test_refuted : forall pp, (forall a, pp a = true <-> perfect_power a) ->
  z_run pp (fun _ => 0) [ZSetSi 0 8; ZIsSqr 0] = Ok [OB true] /\ ~ square 8.
Proof. exact square_test_wrong. Qed.
Print Assumptions integer_square_test_refuted.

(** C15: 2^(2^64+1) is computed as 2. *)
Theorem integer_large_power_refuted : forall pp,
  z_run pp (fun _ => 0) [ZSetSi 0 (-1); ZSetSi 1 2; ZPow 0 0 (2 ^ 64); ZPow 1 1 (2 ^ 64 + 1); ZToMpz 0; ZToMpz 1] = Ok [ON 1; ON 2].
Proof. exact power_wrong. Qed.
Print Assumptions integer_large_power_refuted.

(** C16: a buffer of the right size is filled and decodes to the same non-zero
    integer (of fewer than 2^32 bytes).  [z_size z] is the number of bytes of
    |z| plus one if its top bit is set.  The decoder reports 4 bytes fewer. *)
Theorem integer_bytes_round_trip_partial : forall z buf,
  z <> 0 -> Z.of_nat (length buf) = z_size z + 4 -> z_size z < 2 ^ 32 ->
  exists bytes data, z_to_bytes buf z = Ok (bytes, Z.of_nat (length buf)) /\
    z_from_bytes bytes = Ok (z, data, Z.of_nat (length buf) - 4).
Proof. exact z_round_trip. Qed.
Print Assumptions integer_bytes_round_trip_partial.

Theorem integer_length_partial : forall z, sizeinbase2 z mod 8 <> 0 -> z_size z + 4 = z_length_in_bytes z.
Proof. exact z_size_length. Qed.
Print Assumptions integer_length_partial.

Example integer_bytes_example : exists bytes data,
  z_to_bytes [9; 9; 9; 9; 9; 9; 9] (-40000) = Ok (bytes, 7) /\ bytes = [0; 0; 0; 3; 128; 156; 64] /\
  z_from_bytes bytes = Ok (-40000, data, 3).
Proof. exact z_bytes_witness. Qed.

(** C16: element_length_in_bytes is one short when the top bit of the top byte
    is set: serialising 200 into a buffer of that size overruns it. *)
Theorem integer_length_refuted :
  z_to_bytes [9; 9; 9; 9; 9] 200 = UB /\ z_length_in_bytes 200 = Z.of_nat (length [9; 9; 9; 9; 9]).
Proof. exact z_length_short. Qed.
Print Assumptions integer_length_refuted.

(** C16: zero is serialised as whatever the buffer held. *)
Theorem integer_zero_bytes_refuted : forall x, 0 <= x < 128 ->
  exists bytes data, z_to_bytes [9; 9; 9; 9; x] 0 = Ok (bytes, 5) /\ z_from_bytes bytes = Ok (x, data, 1).
Proof. exact z_zero_bytes. Qed.
Print Assumptions integer_zero_bytes_refuted.
