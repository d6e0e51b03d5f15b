(** C70: bytes, sign, hashing and random elements of extension fields.
    [tower_codec p t] holds the functions of the field described by [t]: F_p, or
    quadratic and polynomial extensions of such a field to any height. *)
From Coq Require Import ZArith List Bool Lia.
From Verif.Base Require Import Outcome.
From Verif.Model Require Import TowerCodec.
From Verif.Spec Require Import PrimeField ElementText.
From Verif.Proofs Require Import BytesFacts TowerCodecFacts.
Import ListNotations.
Open Scope Z_scope.

(** element_to_bytes stores exactly element_length_in_bytes bytes, the same
    number for every element; element_from_bytes consumes those bytes, whatever
    follows them, and gives the element back. *)
Theorem tower_to_bytes_round_trip : forall p t e, 1 < p -> is_elem p t e ->
  exists bs, c_enc (tower_codec p t) e = Ok bs /\ length bs = (tower_degree t * byte_length p)%nat /\ c_len (tower_codec p t) e = length bs /\
    Forall (fun x => 0 <= x < 256) bs /\ forall rest, c_dec (tower_codec p t) (bs ++ rest) = Ok (e, length bs).
Proof. exact tower_bytes. Qed.
Print Assumptions tower_to_bytes_round_trip.

Theorem tower_to_bytes_injective : forall p t e e' bs, 1 < p -> is_elem p t e -> is_elem p t e' ->
  c_enc (tower_codec p t) e = Ok bs -> c_enc (tower_codec p t) e' = Ok bs -> e = e'.
Proof. exact tower_inj. Qed.
Print Assumptions tower_to_bytes_injective.

(** element_from_bytes reads no byte beyond the length, on any buffer that has
    that many. *)
Theorem tower_from_bytes_safe : forall p t data, 1 < p -> (tower_degree t * byte_length p <= length data)%nat ->
  exists e, c_dec (tower_codec p t) data = Ok (e, (tower_degree t * byte_length p)%nat).
Proof. exact tower_dec_len. Qed.
Print Assumptions tower_from_bytes_safe.

(** Negation negates every coordinate, and element_sign is 0 exactly at zero
    and tells every other element from its negative. *)
Theorem tower_negation : forall p t e, 1 < p -> is_elem p t e ->
  is_elem p t (c_neg (tower_codec p t) e) /\ coords t (c_neg (tower_codec p t) e) = map (fun z => (- z) mod p) (coords t e).
Proof. exact tower_neg. Qed.
Print Assumptions tower_negation.

Theorem tower_element_sign : forall p t e, 1 < p -> Z.odd p = true -> is_elem p t e ->
  (c_sign (tower_codec p t) e = 0 <-> is_zero t e) /\ c_sign (tower_codec p t) (c_neg (tower_codec p t) e) = - c_sign (tower_codec p t) e /\
  (c_sign (tower_codec p t) e = 0 \/ c_sign (tower_codec p t) e = 1 \/ c_sign (tower_codec p t) e = -1).
Proof. exact tower_sign. Qed.
Print Assumptions tower_element_sign.

(** element_random is a bijection from sequences of residues, as many as there
    are coordinates, to elements: uniform residues give a uniform element. *)
Theorem tower_random_onto : forall p t e src, is_elem p t e -> c_rand (tower_codec p t) (coords t e ++ src) = Ok (e, src).
Proof. exact tower_random. Qed.
Print Assumptions tower_random_onto.

Theorem tower_random_valid : forall p t zs src, length zs = tower_degree t -> Forall (fun z => 0 <= z < p) zs ->
  exists e, c_rand (tower_codec p t) (zs ++ src) = Ok (e, src) /\ is_elem p t e /\ coords t e = zs.
Proof. exact tower_random_elem. Qed.
Print Assumptions tower_random_valid.

(** element_from_hash of a quadratic extension hashes the two halves of the
    data; that of a polynomial extension gives every coefficient the same
    value, so that no hash ever meets the other elements. *)
Theorem quadratic_from_hash : forall A (C : codec A) u v x y, length u = length v \/ S (length u) = length v -> c_hash C u = Ok x -> c_hash C v = Ok y ->
  c_hash (quad_codec C) (u ++ v) = Ok (x, y).
Proof. exact quad_hash. Qed.
Print Assumptions quadratic_from_hash.

Theorem polymod_from_hash_coefficients : forall A (C : codec A) n data l, pm_hash C n data = Ok l -> forall x y, In x l -> In y l -> x = y.
Proof. exact hash_same. Qed.
Print Assumptions polymod_from_hash_coefficients.

Theorem polymod_from_hash_refuted : exists p t data e, 1 < p /\ is_elem p t e /\
  (forall d, Forall (fun x => 0 <= x < 256) d -> c_hash (tower_codec p t) d <> Ok e) /\ exists e', c_hash (tower_codec p t) data = Ok e'.
Proof. exact hash_refuted. Qed.
Print Assumptions polymod_from_hash_refuted.

(** Polynomials store the number of coefficients in two bytes: the round trip
    holds below 65536 coefficients, and with 65536 the polynomial reads back
    as zero. *)
Theorem tower_polynomial_bytes_round_trip : forall p t l, 1 < p -> Forall (is_elem p t) l -> Z.of_nat (length l) < 65536 ->
  exists bs, poly_to_bytes (tower_codec p t) l = Ok bs /\ length bs = poly_length (tower_codec p t) l /\
    forall rest, poly_from_bytes (tower_codec p t) (bs ++ rest) = Ok (l, length bs).
Proof. exact tower_poly_bytes. Qed.
Print Assumptions tower_polynomial_bytes_round_trip.

Theorem polynomial_bytes_refuted : forall p, 1 < p -> exists l bs, Forall (fun x => 0 <= x < p) l /\ l <> [] /\ last l 0 <> 0 /\
  poly_to_bytes (fp_codec p) l = Ok bs /\ poly_from_bytes (fp_codec p) bs = Ok ([], 2%nat).
Proof. exact poly_long. Qed.
Print Assumptions polynomial_bytes_refuted.

(** A quadratic extension of a cubic extension of F_1009. *)
Example tower_code_example :
  let t := TQuad (TPoly 3 TFp) in let e := ([1; 2; 1000], [0; 512; 6]) in
  is_elem 1009 t e /\
  c_enc (tower_codec 1009 t) e = Ok [0; 1; 0; 2; 3; 232; 0; 0; 2; 0; 0; 6] /\
  c_dec (tower_codec 1009 t) [0; 1; 0; 2; 3; 232; 0; 0; 2; 0; 0; 6; 77] = Ok (e, 12%nat) /\
  c_sign (tower_codec 1009 t) e = -1 * c_sign (tower_codec 1009 t) (c_neg (tower_codec 1009 t) e) /\
  c_rand (tower_codec 1009 t) [1; 2; 1000; 0; 512; 6; 9] = Ok (e, [9]).
Proof. cbn. repeat split; repeat constructor; try lia; vm_compute; reflexivity. Qed.
