(** Witnesses for integers, random numbers and discrete logarithms. *)
From Coq Require Import ZArith Znumtheory List Bool Lia.
From Verif.Base Require Import Outcome Gmp Algebra.
From Verif.Model Require Import ZRing Random Dlog.
From Verif.Spec Require Import Integers Uniform.
From Verif.Proofs Require Import GmpFacts PowFacts FieldFacts ZpField FpWitness PowWitness ZRingFacts RandomFacts DlogFacts.
Import ListNotations.
Open Scope Z_scope.

Lemma zring_witness : zspec_run (fun _ => 0)
  [ZSetSi 0 (-7); ZSetMpz 1 5; ZMul 2 0 1; ZPow 3 2 3; ZToMpz 3; ZCmp 3 2; ZDiv 4 3 1; ZToMpz 4]
  [ON (-42875); ON (-1); ON (-8575)].
Proof.
  evar (os : list zobs). replace [ON (-42875); ON (-1); ON (-8575)] with os; subst os.
  - eapply zr_cons; [apply s_si|]. eapply zr_cons; [apply s_mpz|]. eapply zr_cons; [apply s_mul|].
    eapply zr_cons; [apply s_pow; split; [lia|reflexivity]|]. eapply zr_cons; [apply s_to|].
    eapply zr_cons; [apply (s_cmp _ 3 2 (-1)); cbn; lia|].
    eapply zr_cons; [apply (s_div _ 4 3 1 (-8575)); cbn; lia|]. eapply zr_cons; [apply s_to|]. constructor.
  - reflexivity.
Qed.

Lemma halve_wrong : forall pp a, Z.abs a < 2 ^ 64 ->
  z_run pp (fun _ => 0) [ZSetMpz 0 (2 * a); ZHalve 0 0; ZToMpz 0] = Ok [ON 0].
Proof.
  intros pp a Ha. cbn [z_run z_step bind fst snd app]. change (zset (fun _ => 0) 0 (2 * a) 0) with (2 * a).
  unfold zset. cbn [Nat.eqb]. do 3 f_equal.
  unfold z_halve, mpz_tdiv_q_2exp. change ((-1) mod 2 ^ 64) with (2 ^ 64 - 1).
  assert (E : (sizeinbase2 (2 * a) <=? 2 ^ 64 - 1) = true); [|rewrite E; reflexivity].
  apply Z.leb_le. unfold sizeinbase2. destruct (2 * a =? 0) eqn:E; [lia|]. apply Z.eqb_neq in E.
  assert (Z.log2 (Z.abs (2 * a)) < 65) by (apply Z.log2_lt_pow2; lia). lia.
Qed.

Lemma square_test_wrong : forall pp, (forall a, pp a = true <-> perfect_power a) ->
  z_run pp (fun _ => 0) [ZSetSi 0 8; ZIsSqr 0] = Ok [OB true] /\ ~ square 8.
Proof.
  intros pp H. split; [|apply eight_not_square]. cbn [z_run z_step bind fst snd app].
  change (zset (fun _ => 0) 0 8 0) with 8. rewrite is_sqr_8; auto.
Qed.

Lemma power_wrong : forall pp, z_run pp (fun _ => 0) [ZSetSi 0 (-1); ZSetSi 1 2; ZPow 0 0 (2 ^ 64); ZPow 1 1 (2 ^ 64 + 1); ZToMpz 0; ZToMpz 1] = Ok [ON 1; ON 2].
Proof. intros pp. reflexivity. Qed.

Lemma z_bytes_witness : exists bytes data, z_to_bytes [9; 9; 9; 9; 9; 9; 9] (-40000) = Ok (bytes, 7) /\ bytes = [0; 0; 0; 3; 128; 156; 64] /\
  z_from_bytes bytes = Ok (-40000, data, 3).
Proof. exists [0; 0; 0; 3; 128; 156; 64], [0; 0; 0; 3; 0; 156; 64]. split; [reflexivity|]. split; reflexivity. Qed.

Lemma random_witness : accept 1000 [255; 17] = Some 785 /\ accept 1000 [255; 240] = None /\ byte_count 1000 = 2%nat /\
  file_mpz_random [[255; 240]; [7; 1]; [0; 0]] 1000 = Some 769.
Proof. repeat split; reflexivity. Qed.

(** In the multiplicative group of F_13: 2 has order 12, 2^10 = 10. *)
Definition G13 := mul_monoid Z13.
Definition el (x : Z) : G13 := zmk 13 one_lt_13 x.
Lemma dlog_witness :
  dlog_brute_force G13 (@feqb Z13) 12 12 (el 2) (el 10) = Ok 10 /\
  dlog_pollard_rho G13 (@feqb Z13) 12 (fun x => [zval 13 x]) (fun _ => false) 100 (el 2) (el 10)
    (fun i => Z.of_nat (3 * i + 1)) (fun i => Z.of_nat (i + 5)) 3 4 = Ok (Some 10) /\
  zpow (el 2) 12 = mone G13 /\ zpow (el 10) 12 = mone G13.
Proof.
  split; [vm_compute; reflexivity|]. split; [vm_compute; reflexivity|].
  split; apply zval_inj; vm_compute; reflexivity.
Qed.
