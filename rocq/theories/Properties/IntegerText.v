(** C12, C54: numbers as text, trial division. *)
From Coq Require Import ZArith Znumtheory List Bool.
From Verif.Base Require Import Outcome.
From Verif.Model Require Import IntText.
From Verif.Spec Require Import Numerals.
From Verif.Proofs Require Import IntTextFacts IntTextWitness.
Import ListNotations.
Open Scope Z_scope.

(** C12: the numeral of n, preceded by white space and followed by anything
    that cannot continue it, is read back as n (Z) and n mod p (F_p). *)
Theorem set_str_reads_numeral : forall b n ws text c rest, 2 <= b <= 36 ->
  is_numeral b n text -> Forall white ws -> stops b c ->
  z_set_str (ws ++ text ++ c :: rest) b = Ok (n, Z.of_nat (length ws + length text)).
Proof. exact set_str_round_trip. Qed.
Print Assumptions set_str_reads_numeral.

Theorem fp_set_str_reads_numeral : forall p b n ws text c rest, 1 < p -> 2 <= b <= 36 ->
  is_numeral b n text -> Forall white ws -> stops b c ->
  zp_set_str p (ws ++ text ++ c :: rest) b = Ok (n mod p, Z.of_nat (length ws + length text)).
Proof. exact fp_text. Qed.
Print Assumptions fp_set_str_reads_numeral.

Theorem every_number_has_numeral : forall b n, 2 <= b -> 0 <= n -> exists text, is_numeral b n text.
Proof. exact numeral_exists. Qed.
Print Assumptions every_number_has_numeral.

Example numeral_example : is_numeral 16 31 [49; 102] /\ Forall white [32; 10] /\ stops 16 44 /\ stops 16 0.
Proof. exact numeral_witness. Qed.

(** C12: what is read from any terminated string. *)
Theorem set_str_exact : forall b body ds c rest, 2 <= b <= 36 -> scan b body ds -> stops b c ->
  pbc_mpz_set_str (body ++ c :: rest) b = Ok (horner b ds, Z.of_nat (length body)).
Proof. exact set_str_spec. Qed.
Print Assumptions set_str_exact.

Theorem set_str_total : forall b s, 2 <= b <= 36 -> In 0 s ->
  exists body ds c rest, s = body ++ c :: rest /\ scan b body ds /\ stops b c.
Proof. exact scan_exists. Qed.
Print Assumptions set_str_total.

(** White space inside a numeral does not stop the parser, a sign does. *)
Theorem set_str_stops_at_first_non_digit_refuted :
  pbc_mpz_set_str [49; 32; 50; 0] 10 = Ok (12, 3) /\ pbc_mpz_set_str [45; 53; 0] 10 = Ok (0, 0).
Proof. exact interior_space. Qed.
Print Assumptions set_str_stops_at_first_non_digit_refuted.

(** Fields that keep the default set_str read nothing. *)
Theorem default_set_str_ignores_text_refuted : exists text n, is_numeral 10 n text /\ n <> 0 /\
  default_element_set_str (text ++ [0]) 10 = Ok (0, 0).
Proof. exact default_set_str_refuted. Qed.
Print Assumptions default_set_str_ignores_text_refuted.

(** C54: digits are emitted most significant first, provided GMP's size
    estimate is exact; otherwise a leading zero appears. *)
Theorem trickle_emits_numeral : forall base z size, 2 <= base <= 10 -> 0 <= z -> digits_count base z size ->
  exists text, pbc_mpz_trickle base z size = Ok text /\ is_numeral base z text.
Proof. exact trickle_numeral. Qed.
Print Assumptions trickle_emits_numeral.

Theorem trickle_leading_zero_refuted : exists base z size text, 2 <= base <= 10 /\ 0 <= z /\
  (digits_count base z size \/ digits_count base z (size - 1)) /\
  pbc_mpz_trickle base z size = Ok text /\ ~ is_numeral base z text.
Proof. exact trickle_refuted. Qed.
Print Assumptions trickle_leading_zero_refuted.

(** C54: trial division, given correct primality oracles, terminates and
    reports a factorisation; only the unfactored rest beyond the limit can be
    composite. *)
Theorem trial_divide_correct : forall isprime nextprime,
  (forall m, 1 <= m -> isprime m = true <-> prime m) ->
  (forall p, prime p -> p < nextprime p /\ prime (nextprime p) /\ forall q, prime q -> p < q -> nextprime p <= q) ->
  forall n limit, 1 <= n ->
  exists fs, pbc_trial_divide isprime nextprime (Z.to_nat n) n limit = Ok fs /\ product fs = n /\
    Forall (fun fk => 2 <= fst fk /\ 1 <= snd fk /\
      (prime (fst fk) \/ exists l, limit = Some l /\ forall q, prime q -> (q | fst fk) -> l < q)) fs.
Proof. exact trial_divide_cor. Qed.
Print Assumptions trial_divide_correct.

(** Such a next prime always exists. *)
Example next_prime_exists : forall p, prime p -> exists q, p < q /\ prime q /\ forall r, prime r -> p < r -> q <= r.
Proof. exact prime_above. Qed.
