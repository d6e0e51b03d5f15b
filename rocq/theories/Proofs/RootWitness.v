(** Witnesses for the square-root theorems. *)
From Coq Require Import ZArith Znumtheory List Bool Lia.
From Verif.Base Require Import Outcome Gmp Algebra.
From Verif.Model Require Import FieldInt Tonelli.
From Verif.Spec Require Import PrimeField FiniteField.
From Verif.Proofs Require Import FieldFacts BytesFacts ZpField RootFacts FpWitness.
Import ListNotations.
Open Scope Z_scope.

Lemma Zp_instance : forall p (Hp : 1 < p), prime p -> fld_laws (Zp p Hp) /\ has_order (Zp p Hp) p.
Proof. intros. split; [apply Zp_laws; auto|apply Zp_order]. Qed.

Lemma lt13 : 1 < 13. Proof. reflexivity. Qed.
Lemma sqrt_witness : let K := Zp 13 lt13 in
  ~ is_square (zmk 13 lt13 2 : K) /\ is_square (zmk 13 lt13 10 : K) /\
  exists x, element_tonelli K 13 (zmk 13 lt13 2) (zmk 13 lt13 10) = Ok x /\ zval 13 x = 6.
Proof.
  cbv zeta. assert (L : fld_laws (Zp 13 lt13)) by (apply Zp_laws; exact prime13).
  split; [|split].
  - intros H. apply (euler_f (Zp 13 lt13) L 13 (Zp_order 13 lt13) eq_refl) in H.
    + apply (f_equal (zval 13)) in H. vm_compute in H. discriminate.
    + discriminate.
  - exists (zmk 13 lt13 6). apply zval_inj. vm_compute. reflexivity.
  - eexists. split; [vm_compute; reflexivity|]. reflexivity.
Qed.

Lemma from_hash_cor : forall limit data, 0 < limit -> Forall (fun x => 0 <= x < 256) data ->
  exists z, FieldInt.pbc_mpz_from_hash limit data = Ok z /\ hashes_to limit data z /\ 0 <= z <= limit.
Proof. exact from_hash_spec. Qed.
