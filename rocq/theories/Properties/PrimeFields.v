(** C01-C06, C13, C59: elements of F_p.  [option_session o p junk h] runs the
    history of API calls [h] on fresh elements of a field whose implementation
    was selected by pbc_tweak_use_fp; [fp_session] goes through field_init_fp.
    [spec_run] (Spec/PrimeField.v) says what integer arithmetic modulo p
    answers. *)
From Coq Require Import ZArith Znumtheory List Bool.
From Verif.Base Require Import Outcome.
From Verif.Model Require Import FpMachine.
From Verif.Spec Require Import PrimeField.
From Verif.Proofs Require Import FpRuns FpCorollaries FpWitness.
Import ListNotations.
Open Scope Z_scope.

(** C01: the default back-end, prime modulus whose top word is not all ones. *)
Theorem montgomery_field_exact : forall p junk h vs,
  prime p -> Z.odd p = true -> top_word p < 2 ^ 64 - 1 -> any_memory junk ->
  spec_run p (leg p) (allowed_mont_prime p) h fresh vs ->
  option_session UseMont p junk h = Ok vs.
Proof. exact mont_prime_session. Qed.
Print Assumptions montgomery_field_exact.

(** C01, C59: the same for any odd modulus, composite or not, as long as no
    product of non-zero residues vanishes and only units are inverted. *)
Theorem montgomery_ring_exact : forall p junk h vs,
  1 < p -> Z.odd p = true -> top_word p < 2 ^ 64 - 1 -> any_memory junk ->
  spec_run p (leg p) (allowed_mont p) h fresh vs ->
  option_session UseMont p junk h = Ok vs.
Proof. exact mont_session. Qed.
Print Assumptions montgomery_ring_exact.

(** The modulus hypothesis of C01 is needed: with a top word of all ones the
    Montgomery product can be wrong. *)
Theorem montgomery_multiplication_refuted : exists p x y junk,
  1 < p /\ Z.odd p = true /\ 0 <= x < p /\ 0 <= y < p /\ any_memory junk /\
  option_session UseMont p junk [Asg (ASetMpz 0 x); Asg (ASetMpz 1 y); Asg (AMul 2 0 1); Qry (QToMpz 2)] <>
  Ok [VZ ((x * y) mod p)].
Proof. exact mul_refuted. Qed.
Print Assumptions montgomery_multiplication_refuted.

(** ... and so is the restriction on halving. *)
Theorem halving_into_fresh_element_refuted : exists p x junk,
  1 < p /\ Z.odd p = true /\ 0 <= x < p /\ any_memory junk /\
  forall o, o = UseFaster \/ o = UseMont ->
  exists y, option_session o p junk [Asg (ASetMpz 0 x); Asg (AHalve 1 0); Qry (QToMpz 1)] = Ok [VZ y] /\
            (2 * y) mod p <> x.
Proof. exact halve_refuted. Qed.
Print Assumptions halving_into_fresh_element_refuted.

(** C02: the four back-ends, and field_init_fp's dispatch, are
    indistinguishable; any memory content, any history. *)
Theorem backends_indistinguishable : forall o p junk h vs,
  prime p -> Z.odd p = true -> any_memory junk -> (o = UseMont -> top_word p < 2 ^ 64 - 1) ->
  spec_run p (leg p) (allowed p) h fresh vs ->
  option_session o p junk h = Ok vs.
Proof. exact any_prime_session. Qed.
Print Assumptions backends_indistinguishable.

Theorem field_init_dispatch_indistinguishable : forall o p junk h vs,
  1 < p -> Z.odd p = true -> any_memory junk -> (o = UseMont -> top_word p < 2 ^ 64 - 1) ->
  spec_run p (leg p) (allowed_mod p) h fresh vs ->
  fp_session o p junk h = Ok vs.
Proof. exact init_session. Qed.
Print Assumptions field_init_dispatch_indistinguishable.

(** The specification answers every allowed history in exactly one way. *)
Theorem specified_answers_unique : forall p l h s vs1 vs2,
  1 < p -> Z.odd p = true -> (forall i, residue p (s i)) ->
  spec_run p l (allowed_mod p) h s vs1 -> spec_run p l (allowed_mod p) h s vs2 -> vs1 = vs2.
Proof. exact spec_run_deterministic. Qed.
Print Assumptions specified_answers_unique.

Theorem specified_answers_exist : forall p o s,
  1 < p -> Z.odd p = true -> (forall i, residue p (s i)) -> allowed_mod p o s ->
  exists r, assigns p o s r.
Proof. exact assigns_exists. Qed.
Print Assumptions specified_answers_exist.

(** The hypotheses are met by non-trivial sessions. *)
Example prime_session_example : prime 13 /\ top_word 13 < 2 ^ 64 - 1 /\ any_memory zeros /\
  spec_run 13 (leg 13) (allowed 13) demo fresh [VZ 2; VB true; VZ 6; VBytes [6]; VZ 3; VZ 6; VZ 2; VB false].
Proof. exact (conj prime13 (conj eq_refl (conj zeros_memory demo_run))). Qed.
Example two_word_session_example : 1 < P64 /\ Z.odd P64 = true /\ top_word P64 < 2 ^ 64 - 1 /\
  spec_run P64 (leg P64) (allowed_mod P64) demo64 fresh
    [VZ 18446744073709551604; VZ 18446744073709551628; VZ 25; VZ 9223372036854775827;
     VBytes [1; 0; 0; 0; 0; 0; 0; 0; 12]].
Proof. exact (conj eq_refl (conj eq_refl (conj eq_refl demo64_run))). Qed.

(** C02 without the exclusions is false: 0^0, storing p, LONG_MIN. *)
Theorem backends_disagree_on_zero_to_the_zero_refuted : exists p junk,
  1 < p /\ Z.odd p = true /\ any_memory junk /\
  forall o, option_session o p junk [Asg (APow 1 0 0); Qry (QToMpz 1)] =
  Ok [VZ (match o with UseNaive | UseFast => 1 | UseFaster | UseMont => 0 end)].
Proof. exact zero_pow_zero_refuted. Qed.
Print Assumptions backends_disagree_on_zero_to_the_zero_refuted.

Theorem backends_disagree_on_modulus_refuted : exists p junk,
  1 < p /\ Z.odd p = true /\ any_memory junk /\
  forall o, option_session o p junk [Asg (ASetMpz 0 p); Qry (QToMpz 0); Qry (QIs0 0)] =
  Ok [VZ 0; VB (match o with UseFaster => false | _ => true end)].
Proof. exact set_modulus_refuted. Qed.
Print Assumptions backends_disagree_on_modulus_refuted.

Theorem backends_disagree_on_long_min_refuted : exists p junk,
  1 < p /\ Z.odd p = true /\ any_memory junk /\
  forall o, option_session o p junk [Asg (ASetSi 0 (- 2 ^ 63)); Qry (QToMpz 0)] =
  match o with UseFast | UseFaster => UB | _ => Ok [VZ ((- 2 ^ 63) mod p)] end.
Proof. exact long_min_refuted. Qed.
Print Assumptions backends_disagree_on_long_min_refuted.

(** ... and the even prime 2, which montfp.c cannot represent (p has no inverse
    modulo the word size) and where halving is division by zero. *)
Theorem backends_disagree_on_modulus_two_refuted : exists junk, any_memory junk /\
  (forall o, option_session o 2 junk [Asg (ASetMpz 0 1); Asg (AMul 1 0 0); Qry (QToMpz 1)] = match o with UseMont => UB | _ => Ok [VZ 1] end) /\
  (forall o, option_session o 2 junk [Asg (ASetMpz 0 1); Asg (AHalve 1 0); Qry (QToMpz 1)] =
    match o with UseNaive | UseFast => Ok [VZ 1] | UseFaster => Ok [VZ 0] | UseMont => UB end).
Proof. exact even_refuted. Qed.
Print Assumptions backends_disagree_on_modulus_two_refuted.

(** C03 *)
Theorem inversion_correct : forall o p junk,
  prime p -> Z.odd p = true -> any_memory junk -> (o = UseMont -> top_word p < 2 ^ 64 - 1) ->
  forall x, 0 < x < p ->
  exists r, 0 <= r < p /\ (r * x) mod p = 1 /\
    option_session o p junk [Asg (ASetMpz 1 x); Asg (AInvert 0 1); Qry (QToMpz 0)] = Ok [VZ r].
Proof. exact inverse_cor. Qed.
Print Assumptions inversion_correct.

Theorem division_correct : forall o p junk,
  prime p -> Z.odd p = true -> any_memory junk -> (o = UseMont -> top_word p < 2 ^ 64 - 1) ->
  forall x y, 0 <= x < p -> 0 < y < p ->
  exists r, 0 <= r < p /\ (r * y) mod p = x /\
    forall c a, (c = 0 \/ c = 1 \/ c = 2)%nat -> a = 1%nat ->
    option_session o p junk [Asg (ASetMpz 1 x); Asg (ASetMpz 2 y); Asg (ADiv c a 2); Qry (QToMpz c)] = Ok [VZ r].
Proof. exact division_cor. Qed.
Print Assumptions division_correct.

Theorem inversion_of_zero_undefined : exists p junk,
  1 < p /\ Z.odd p = true /\ any_memory junk /\ forall o, option_session o p junk [Asg (AInvert 0 1)] = UB.
Proof. exact invert_zero_undefined. Qed.
Print Assumptions inversion_of_zero_undefined.

(** C04: element_cmp reads stale words when its second argument is zero. *)
Theorem comparison_with_zero_refuted : exists p junk,
  1 < p /\ Z.odd p = true /\ any_memory junk /\
  forall o, o = UseFaster \/ o = UseMont ->
  option_session o p junk [Asg (ASetMpz 0 5); Asg (ASetMpz 1 5); Asg (ASet0 1);
    Qry (QToMpz 0); Qry (QToMpz 1); Qry (QEq 0 1); Qry (QEq 1 0)] = Ok [VZ 5; VZ 0; VB true; VB false].
Proof. exact cmp_refuted. Qed.
Print Assumptions comparison_with_zero_refuted.

(** C05 *)
Theorem serialisation_round_trip : forall o p junk,
  prime p -> Z.odd p = true -> any_memory junk -> (o = UseMont -> top_word p < 2 ^ 64 - 1) ->
  forall x, 0 <= x < p ->
  exists l, length l = byte_length p /\ Forall (fun b => 0 <= b < 256) l /\ be_value l 0 = x /\
    option_session o p junk [Asg (ASetMpz 0 x); Qry (QToBytes 0)] = Ok [VBytes l] /\
    option_session o p junk [Asg (ASetMpz 0 x); Asg (AFromBytes 1 l); Qry (QToMpz 1); Qry (QToBytes 1)]
      = Ok [VZ x; VBytes l] /\
    (x <> 0 -> option_session o p junk [Asg (ASetMpz 0 x); Asg (AFromBytes 1 l); Qry (QEq 0 1)] = Ok [VB true]).
Proof. exact bytes_cor. Qed.
Print Assumptions serialisation_round_trip.

(** C06: encodings of numbers not below p. *)
Theorem decoding_unreduced_refuted : exists p l junk,
  1 < p /\ Z.odd p = true /\ any_memory junk /\
  length l = byte_length p /\ Forall (fun x => 0 <= x < 256) l /\ be_value l 0 mod p = 5 /\
  forall o, option_session o p junk [Asg (AFromBytes 0 l); Asg (ASetMpz 1 5); Qry (QToMpz 0); Qry (QEq 0 1)] =
  Ok (match o with UseNaive | UseFaster => [VZ (p + 5); VB false] | _ => [VZ 5; VB true] end).
Proof. exact decode_unreduced_refuted. Qed.
Print Assumptions decoding_unreduced_refuted.

Theorem decoding_modulus_refuted : exists p l junk,
  1 < p /\ Z.odd p = true /\ any_memory junk /\
  length l = byte_length p /\ Forall (fun x => 0 <= x < 256) l /\ be_value l 0 mod p = 0 /\
  option_session UseMont p junk [Asg (AFromBytes 0 l); Qry (QIs0 0)] = Ok [VB false] /\
  option_session UseMont p junk [Asg (AFromBytes 0 l); Qry (QToMpz 0)] = UB.
Proof. exact decode_modulus_refuted. Qed.
Print Assumptions decoding_modulus_refuted.

(** C59: a vanishing product of non-zero residues. *)
Theorem zero_divisor_product_refuted : exists p x y junk,
  1 < p /\ Z.odd p = true /\ any_memory junk /\
  0 < x < p /\ 0 < y < p /\ (x * y) mod p = 0 /\
  (forall o, option_session o p junk [Asg (ASetMpz 0 x); Asg (ASetMpz 1 y); Asg (AMul 2 0 1); Qry (QIs0 2)] =
    Ok [VB (match o with UseNaive | UseFast => true | _ => false end)]) /\
  option_session UseMont p junk [Asg (ASetMpz 0 x); Asg (ASetMpz 1 y); Asg (AMul 2 0 1); Qry (QToMpz 2)] = UB.
Proof. exact zero_divisors_refuted. Qed.
Print Assumptions zero_divisor_product_refuted.
