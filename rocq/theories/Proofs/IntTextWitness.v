(** Witnesses and closed forms for text conversion. *)
From Coq Require Import ZArith Znumtheory List Bool Lia.
From Verif.Base Require Import Outcome.
From Verif.Model Require Import IntText.
From Verif.Spec Require Import Numerals.
From Verif.Proofs Require Import IntTextFacts FpWitness.
Import ListNotations.
Open Scope Z_scope.

Lemma fp_text : forall p b n ws text c rest, 1 < p -> 2 <= b <= 36 ->
  is_numeral b n text -> Forall white ws -> stops b c ->
  zp_set_str p (ws ++ text ++ c :: rest) b = Ok (n mod p, Z.of_nat (length ws + length text)).
Proof. intros. unfold zp_set_str. rewrite (set_str_round_trip b n); auto. Qed.

(** " 1f," in base 16 *)
Lemma numeral_witness : is_numeral 16 31 [49; 102] /\ Forall white [32; 10] /\ stops 16 44 /\ stops 16 0.
Proof.
  split; [|split; [|split]].
  - exists [1; 15]. repeat split; try reflexivity; try (repeat constructor; lia); discriminate.
  - repeat constructor; unfold white; lia.
  - unfold stops, white, digit_value. split; [lia|]. intros d. lia.
  - apply nul_stops.
Qed.

(** "1 2" is read as twelve; "-5" is read as nothing. *)
Lemma interior_space : pbc_mpz_set_str [49; 32; 50; 0] 10 = Ok (12, 3) /\ pbc_mpz_set_str [45; 53; 0] 10 = Ok (0, 0).
Proof. split; reflexivity. Qed.

Lemma trickle_refuted : exists base z size text, 2 <= base <= 10 /\ 0 <= z /\
  (digits_count base z size \/ digits_count base z (size - 1)) /\
  pbc_mpz_trickle base z size = Ok text /\ ~ is_numeral base z text.
Proof.
  exists 10, 8, 2, [48; 56]. split; [lia|]. split; [lia|]. split.
  { right. unfold digits_count. simpl. lia. }
  split; [reflexivity|]. intros (ds & E & Hd & Hne & Hz & Hv).
  destruct ds as [|a [|b [|c ds]]]; try discriminate. simpl in E, Hz.
  assert (a = 0).
  { injection E as E1 E2. clear E2. inversion Hd; subst. unfold digit_char in E1. destruct (Z.ltb_spec a 10); lia. }
  specialize (Hz H). discriminate.
Qed.

Lemma default_set_str_refuted : exists text n, is_numeral 10 n text /\ n <> 0 /\
  default_element_set_str (text ++ [0]) 10 = Ok (0, 0).
Proof.
  exists [55], 7. split; [|split; [lia|reflexivity]].
  exists [7]. repeat split; try discriminate. repeat constructor; lia.
Qed.

(** A next-prime oracle meeting the hypotheses exists. *)
Lemma prime_above : forall p, prime p -> exists q, p < q /\ prime q /\ forall r, prime r -> p < r -> q <= r.
Proof.
  (* the least prime above p, below p! + 1 *)
  intros p Hp. pose proof (prime_ge_2 p Hp).
  assert (F : forall n : nat, exists P, 0 < P /\ forall k, 1 <= k <= Z.of_nat n -> (k | P)).
  { induction n as [|n [P [P0 PD]]].
    - exists 1. split; [lia|]. intros; lia.
    - exists (P * (Z.of_nat n + 1)). split; [nia|]. intros k Hk.
      destruct (Z.eq_dec k (Z.of_nat n + 1)) as [->|]; [apply Z.divide_factor_r|].
      apply Z.divide_mul_l. apply PD. lia. }
  destruct (F (Z.to_nat p)) as [P [P0 PD]]. rewrite Z2Nat.id in PD by lia.
  destruct (prime_factor_exists (P + 1) ltac:(lia)) as [q0 [Q0 D0]].
  assert (p < q0).
  { destruct (Z_lt_dec p q0); auto. exfalso. pose proof (prime_ge_2 q0 Q0).
    assert (q0 | P) by (apply PD; lia).
    assert (q0 | 1). { replace 1 with (P + 1 - P) by lia. apply Z.divide_sub_r; auto. }
    apply Z.divide_1_r in H2. lia. }
  assert (G : forall n : nat, (forall r, prime r -> p < r -> p + Z.of_nat n < r) \/
     exists q, p < q <= p + Z.of_nat n /\ prime q /\ forall r, prime r -> p < r -> q <= r).
  { induction n as [|n [IH|IH]].
    - left. intros; lia.
    - destruct (prime_dec (p + Z.of_nat (S n))) as [D|D].
      + right. exists (p + Z.of_nat (S n)). split; [lia|]. split; auto. intros r R1 R2. specialize (IH r R1 R2). lia.
      + left. intros r R1 R2. specialize (IH r R1 R2). destruct (Z.eq_dec r (p + Z.of_nat (S n))) as [->|]; [tauto|lia].
    - right. destruct IH as [q [Q1 Q2]]. exists q. split; [lia|auto]. }
  destruct (G (Z.to_nat (q0 - p))) as [G1|[q [Q1 [Q2 Q3]]]].
  - specialize (G1 q0 Q0 H0). lia.
  - exists q. split; [lia|auto].
Qed.

Lemma trial_divide_cor : forall isprime nextprime,
  (forall m, 1 <= m -> isprime m = true <-> prime m) ->
  (forall p, prime p -> p < nextprime p /\ prime (nextprime p) /\ forall q, prime q -> p < q -> nextprime p <= q) ->
  forall n limit, 1 <= n ->
  exists fs, pbc_trial_divide isprime nextprime (Z.to_nat n) n limit = Ok fs /\ product fs = n /\
    Forall (fun fk => 2 <= fst fk /\ 1 <= snd fk /\
      (prime (fst fk) \/ exists l, limit = Some l /\ forall q, prime q -> (q | fst fk) -> l < q)) fs.
Proof. exact trial_divide_spec. Qed.
