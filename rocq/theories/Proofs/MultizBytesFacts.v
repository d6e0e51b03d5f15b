(** Byte encodings of multizes do not depend on the value. *)
From Coq Require Import ZArith List Bool Lia.
From Verif.Base Require Import Outcome Gmp.
From Verif.Model Require Import Multiz ZRing MultizBytes.
Import ListNotations.
Open Scope Z_scope.

Lemma reads_zero : forall limbs w m, pad_word w = 0 -> as_mpz limbs (layout w m) = Ok 0.
Proof. intros limbs w [z|l] H; unfold layout, as_mpz; rewrite H; reflexivity. Qed.
Theorem same_bytes : forall limbs limbs' w w' buf a b, pad_word w = 0 -> pad_word w' = 0 ->
  multiz_to_bytes limbs w buf a = multiz_to_bytes limbs' w' buf b.
Proof. intros. unfold multiz_to_bytes. rewrite !reads_zero by assumption. reflexivity. Qed.
Theorem same_length : forall limbs w a, pad_word w = 0 -> multiz_length_in_bytes limbs w a = Ok 5.
Proof. intros. unfold multiz_length_in_bytes. rewrite !reads_zero by assumption. reflexivity. Qed.
Theorem wild_read : forall limbs w buf z, pad_word w <> 0 ->
  (forall n, limbs (room w + 2 ^ 32 * (Z.sgn z * limb_count z)) n = UB) -> multiz_to_bytes limbs w buf (MZ z) = UB.
Proof.
  intros limbs w buf z P H. unfold multiz_to_bytes, as_mpz, layout. destruct (Z.eqb_spec (pad_word w) 0); [contradiction|]. rewrite H. reflexivity.
Qed.
Theorem no_decoder : forall limbs w, pad_word w = 0 -> ~ exists dec : list Z -> mz, forall m bytes n,
  multiz_to_bytes limbs w [0; 0; 0; 0; 0] m = Ok (bytes, n) -> dec bytes = m.
Proof.
  intros limbs w P (dec & D). destruct (multiz_to_bytes limbs w [0; 0; 0; 0; 0] (MZ 1)) as [[bs n]| | |] eqn:E;
  try (unfold multiz_to_bytes in E; rewrite reads_zero in E by assumption; vm_compute in E; discriminate).
  pose proof (D _ _ _ E) as A. rewrite (same_bytes limbs limbs w w _ _ (MZ 2) P P) in E. pose proof (D _ _ _ E) as B. congruence.
Qed.
