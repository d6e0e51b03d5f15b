(** Concrete sessions: witnesses for the hypotheses of the F_p theorems and
    counterexamples outside them. *)
From Coq Require Import ZArith Znumtheory List Bool Lia.
From Verif.Base Require Import Outcome Gmp Array.
From Verif.Model Require Import FieldInt NaiveFp FastFp FasterFp MontFp FpMachine.
From Verif.Spec Require Import PrimeField.
From Verif.Proofs Require Import GmpFacts ArrayFacts LimbFacts BytesFacts ModFacts MontMulFacts FpBackends MontBackend FpRuns.
Import ListNotations.
Open Scope Z_scope.

Definition zeros (n : nat) : list Z := repeat 0 n.
Lemma zeros_memory : any_memory zeros.
Proof. intros n. apply wf_repeat0. Qed.

Lemma prime13 : prime 13.
Proof.
  apply prime_intro; [lia|]. intros n Hn.
  assert (n = 1 \/ n = 2 \/ n = 3 \/ n = 4 \/ n = 5 \/ n = 6 \/ n = 7 \/ n = 8 \/ n = 9 \/ n = 10 \/ n = 11 \/ n = 12) by lia.
  apply Zgcd_1_rel_prime. intuition subst; reflexivity.
Qed.

(** A two-word odd modulus. *)
Definition P64 : Z := 18446744073709551629.

Definition demo : list call :=
  [Asg (ASetMpz 0 7); Asg (AInvert 1 0); Qry (QToMpz 1); Asg (AMul 2 0 1); Qry (QIs1 2);
   Asg (ASub 2 2 0); Asg (ANeg 2 2); Qry (QToMpz 2); Qry (QToBytes 2); Asg (ASet 3 2); Asg (AHalve 3 2); Qry (QToMpz 3);
   Asg (ADiv 3 3 0); Qry (QToMpz 3); Asg (APow 4 0 11); Qry (QToMpz 4); Asg (AFromBytes 5 [9]); Qry (QEq 5 4)].

Lemma demo_run : spec_run 13 (leg 13) (allowed 13) demo fresh
  [VZ 2; VB true; VZ 6; VBytes [6]; VZ 3; VZ 6; VZ 2; VB false].
Proof.
  unfold demo.
  apply sr_asg with 7; [vm_compute; congruence | split; [unfold residue; lia | reflexivity] |].
  apply sr_asg with 2; [vm_compute; congruence | split; [unfold residue; lia | reflexivity] |].
  apply sr_qry; [exact I|].
  apply sr_asg with 1; [exact I | split; [unfold residue; lia | reflexivity] |].
  apply (sr_qry 13 (leg 13) (allowed 13) (QIs1 2)); [exact I|].
  apply sr_asg with 7; [exact I | split; [unfold residue; lia | reflexivity] |].
  apply sr_asg with 6; [exact I | split; [unfold residue; lia | reflexivity] |].
  apply (sr_qry 13 (leg 13) (allowed 13) (QToMpz 2)); [exact I|].
  apply (sr_qry 13 (leg 13) (allowed 13) (QToBytes 2)); [exact I|].
  apply sr_asg with 6; [exact I | split; [unfold residue; lia | reflexivity] |].
  apply sr_asg with 3; [left; vm_compute; congruence | split; [unfold residue; lia | reflexivity] |].
  apply (sr_qry 13 (leg 13) (allowed 13) (QToMpz 3)); [exact I|].
  apply sr_asg with 6; [vm_compute; congruence | split; [unfold residue; lia | reflexivity] |].
  apply (sr_qry 13 (leg 13) (allowed 13) (QToMpz 3)); [exact I|].
  apply sr_asg with 2; [split; [lia | vm_compute; congruence] | split; [unfold residue; lia | reflexivity] |].
  apply (sr_qry 13 (leg 13) (allowed 13) (QToMpz 4)); [exact I|].
  apply sr_asg with 9; [split; [repeat constructor; lia | split; [reflexivity | simpl; lia]]
    | split; [unfold residue; lia | reflexivity] |].
  apply (sr_qry 13 (leg 13) (allowed 13) (QEq 5 4)); [vm_compute; congruence|].
  apply sr_nil.
Qed.

(** Two-word modulus, values wider than a word. *)
Definition demo64 : list call :=
  [Asg (ASetMpz 0 (2 ^ 65 + 1)); Qry (QToMpz 0); Asg (ASetSi 1 (-1)); Qry (QToMpz 1); Asg (AMul 0 0 1); Qry (QToMpz 0);
   Asg (AHalve 0 0); Qry (QToMpz 0); Qry (QToBytes 1)].
Lemma demo64_run : spec_run P64 (leg P64) (allowed_mod P64) demo64 fresh
  [VZ 18446744073709551604; VZ 18446744073709551628; VZ 25; VZ 9223372036854775827;
   VBytes [1; 0; 0; 0; 0; 0; 0; 0; 12]].
Proof.
  unfold demo64.
  apply sr_asg with 18446744073709551604; [vm_compute; congruence | split; [unfold residue, P64; lia | reflexivity] |].
  apply (sr_qry P64 (leg P64) (allowed_mod P64) (QToMpz 0)); [exact I|].
  apply sr_asg with 18446744073709551628; [split; [unfold long_range; lia | unfold P64; lia] | split; [unfold residue, P64; lia | reflexivity] |].
  apply (sr_qry P64 (leg P64) (allowed_mod P64) (QToMpz 1)); [exact I|].
  apply sr_asg with 25; [vm_compute; congruence | split; [unfold residue, P64; lia | reflexivity] |].
  apply (sr_qry P64 (leg P64) (allowed_mod P64) (QToMpz 0)); [exact I|].
  apply sr_asg with 9223372036854775827; [right; left; reflexivity | split; [unfold residue, P64; lia | reflexivity] |].
  apply (sr_qry P64 (leg P64) (allowed_mod P64) (QToMpz 0)); [exact I|].
  apply (sr_qry P64 (leg P64) (allowed_mod P64) (QToBytes 1)); [exact I|].
  apply sr_nil.
Qed.

Lemma lost_carry : option_session UseMont (2 ^ 128 - 159) zeros
  [Asg (ASetMpz 0 265377443384882826851926956613825051296); Asg (ASetMpz 1 104866892950477891256008526818595234928);
   Asg (AMul 2 0 1); Qry (QToMpz 2)] = Ok [VZ 30433069562447761793073535565174202000].
Proof. vm_compute. reflexivity. Qed.

Lemma mul_refuted : exists p x y junk, 1 < p /\ Z.odd p = true /\ 0 <= x < p /\ 0 <= y < p /\ any_memory junk /\
  option_session UseMont p junk [Asg (ASetMpz 0 x); Asg (ASetMpz 1 y); Asg (AMul 2 0 1); Qry (QToMpz 2)] <>
  Ok [VZ ((x * y) mod p)].
Proof.
  exists (2 ^ 128 - 159), 265377443384882826851926956613825051296, 104866892950477891256008526818595234928, zeros.
  repeat split; try lia; try apply repeat_length; try apply wf_repeat0.
  rewrite lost_carry. vm_compute. congruence.
Qed.

Lemma halve_refuted : exists p x junk, 1 < p /\ Z.odd p = true /\ 0 <= x < p /\ any_memory junk /\
  forall o, o = UseFaster \/ o = UseMont ->
  exists y, option_session o p junk [Asg (ASetMpz 0 x); Asg (AHalve 1 0); Qry (QToMpz 1)] = Ok [VZ y] /\ (2 * y) mod p <> x.
Proof.
  exists P64, 1, zeros. split; [reflexivity|]. split; [reflexivity|]. split; [unfold P64; lia|].
  split; [apply zeros_memory|].
  intros o [-> | ->]; exists 0; split; vm_compute; congruence.
Qed.

Lemma cmp_refuted : exists p junk, 1 < p /\ Z.odd p = true /\ any_memory junk /\
  forall o, o = UseFaster \/ o = UseMont ->
  option_session o p junk [Asg (ASetMpz 0 5); Asg (ASetMpz 1 5); Asg (ASet0 1);
    Qry (QToMpz 0); Qry (QToMpz 1); Qry (QEq 0 1); Qry (QEq 1 0)] = Ok [VZ 5; VZ 0; VB true; VB false].
Proof.
  exists P64, zeros. split; [reflexivity|]. split; [reflexivity|]. split; [apply zeros_memory|].
  intros o [-> | ->]; vm_compute; reflexivity.
Qed.

Lemma zero_pow_zero_refuted : exists p junk, 1 < p /\ Z.odd p = true /\ any_memory junk /\
  forall o, option_session o p junk [Asg (APow 1 0 0); Qry (QToMpz 1)] =
  Ok [VZ (match o with UseNaive | UseFast => 1 | UseFaster | UseMont => 0 end)].
Proof.
  exists P64, zeros. split; [reflexivity|]. split; [reflexivity|]. split; [apply zeros_memory|].
  intros []; vm_compute; reflexivity.
Qed.

Lemma set_modulus_refuted : exists p junk, 1 < p /\ Z.odd p = true /\ any_memory junk /\
  forall o, option_session o p junk [Asg (ASetMpz 0 p); Qry (QToMpz 0); Qry (QIs0 0)] =
  Ok [VZ 0; VB (match o with UseFaster => false | _ => true end)].
Proof.
  exists P64, zeros. split; [reflexivity|]. split; [reflexivity|]. split; [apply zeros_memory|].
  intros []; vm_compute; reflexivity.
Qed.

Lemma decode_unreduced_refuted : exists p l junk, 1 < p /\ Z.odd p = true /\ any_memory junk /\
  length l = byte_length p /\ Forall (fun x => 0 <= x < 256) l /\ be_value l 0 mod p = 5 /\
  forall o, option_session o p junk [Asg (AFromBytes 0 l); Asg (ASetMpz 1 5); Qry (QToMpz 0); Qry (QEq 0 1)] =
  Ok (match o with UseNaive | UseFaster => [VZ (p + 5); VB false] | _ => [VZ 5; VB true] end).
Proof.
  exists P64, (be_bytes (byte_length P64) (P64 + 5)), zeros.
  split; [reflexivity|]. split; [reflexivity|]. split; [apply zeros_memory|].
  split; [reflexivity|]. split; [apply be_bytes_bytes|]. split; [reflexivity|].
  intros []; vm_compute; reflexivity.
Qed.

Lemma decode_modulus_refuted : exists p l junk, 1 < p /\ Z.odd p = true /\ any_memory junk /\
  length l = byte_length p /\ Forall (fun x => 0 <= x < 256) l /\ be_value l 0 mod p = 0 /\
  option_session UseMont p junk [Asg (AFromBytes 0 l); Qry (QIs0 0)] = Ok [VB false] /\
  option_session UseMont p junk [Asg (AFromBytes 0 l); Qry (QToMpz 0)] = UB.
Proof.
  exists P64, (be_bytes (byte_length P64) P64), zeros.
  split; [reflexivity|]. split; [reflexivity|]. split; [apply zeros_memory|].
  split; [reflexivity|]. split; [apply be_bytes_bytes|]. split; [reflexivity|].
  split; vm_compute; reflexivity.
Qed.

Lemma long_min_refuted : exists p junk, 1 < p /\ Z.odd p = true /\ any_memory junk /\
  forall o, option_session o p junk [Asg (ASetSi 0 (- 2 ^ 63)); Qry (QToMpz 0)] =
  match o with UseFast | UseFaster => UB | _ => Ok [VZ ((- 2 ^ 63) mod p)] end.
Proof.
  exists P64, zeros. split; [reflexivity|]. split; [reflexivity|]. split; [apply zeros_memory|].
  intros []; vm_compute; reflexivity.
Qed.

Lemma zero_divisors_refuted : exists p x y junk, 1 < p /\ Z.odd p = true /\ any_memory junk /\
  0 < x < p /\ 0 < y < p /\ (x * y) mod p = 0 /\
  (forall o, option_session o p junk [Asg (ASetMpz 0 x); Asg (ASetMpz 1 y); Asg (AMul 2 0 1); Qry (QIs0 2)] =
    Ok [VB (match o with UseNaive | UseFast => true | _ => false end)]) /\
  option_session UseMont p junk [Asg (ASetMpz 0 x); Asg (ASetMpz 1 y); Asg (AMul 2 0 1); Qry (QToMpz 2)] = UB.
Proof.
  exists (3 * P64), 3, P64, zeros. split; [reflexivity|]. split; [reflexivity|]. split; [apply zeros_memory|].
  split; [unfold P64; lia|]. split; [unfold P64; lia|]. split; [reflexivity|].
  split; [intros []; vm_compute; reflexivity | vm_compute; reflexivity].
Qed.

Lemma invert_zero_undefined : exists p junk, 1 < p /\ Z.odd p = true /\ any_memory junk /\
  forall o, option_session o p junk [Asg (AInvert 0 1)] = UB.
Proof.
  exists P64, zeros. split; [reflexivity|]. split; [reflexivity|]. split; [apply zeros_memory|].
  intros []; vm_compute; reflexivity.
Qed.

Lemma even_refuted : exists junk, any_memory junk /\
  (forall o, option_session o 2 junk [Asg (ASetMpz 0 1); Asg (AMul 1 0 0); Qry (QToMpz 1)] = match o with UseMont => UB | _ => Ok [VZ 1] end) /\
  (forall o, option_session o 2 junk [Asg (ASetMpz 0 1); Asg (AHalve 1 0); Qry (QToMpz 1)] =
    match o with UseNaive | UseFast => Ok [VZ 1] | UseFaster => Ok [VZ 0] | UseMont => UB end).
Proof. exists zeros. split; [apply zeros_memory|]. split; intros []; vm_compute; reflexivity. Qed.
