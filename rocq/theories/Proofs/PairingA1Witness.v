(** A small type A1 instance: p = 59, n = 15, l = 4. *)
From Coq Require Import ZArith Znumtheory List Bool Lia.
From Verif.Base Require Import Outcome Algebra.
From Verif.Spec Require Import FiniteField Quadratic Curve PairingValue.
From Verif.Model Require Import Lucas Pairing PairingA PairingA1.
From Verif.Proofs Require Import FieldFacts QuadFacts ZpField RootWitness MntMain TwistedValue PairingA1Facts.
From Verif.Model Require Import Pairing.
Import ListNotations.
Open Scope Z_scope.

Lemma lt59 : 1 < 59. Proof. reflexivity. Qed.
Notation F59 := (Zp 59 lt59).
Definition c59 (n : Z) : F59 := zmk 59 lt59 n.
Lemma type_a1_59 : type_a1 F59 59 15 4.
Proof.
  assert (P59 : prime 59) by (apply isprime_spec; vm_compute; reflexivity).
  split; try reflexivity; try lia; auto.
  - apply Zp_laws. exact P59.
  - apply (Zp_instance 59 lt59). exact P59.
Qed.
Definition P59 : point F59 := Some (c59 4, c59 3).
Definition Q59 : point F59 := Some (c59 12, c59 18).
Lemma P59_exact : exact_order F59 f1 15 P59.
Proof.
  split; [vm_compute; reflexivity | ]. intros k Hk.
  assert (A : forallb (fun i => match pzmul F59 f1 (Z.of_nat i) P59 with None => false | _ => true end) (seq 1 14) = true) by (vm_compute; reflexivity).
  rewrite forallb_forall in A. specialize (A (Z.to_nat k)). rewrite Z2Nat.id in A by lia. intro E. rewrite E in A. assert (I : In (Z.to_nat k) (seq 1 14)) by (apply in_seq; lia). discriminate (A I).
Qed.
Lemma P59_input : a1_input F59 15 P59.
Proof.
  split; [split; [apply zval_inj; vm_compute; reflexivity | apply P59_exact] | ]. intros _. apply exact_regular; [lia | reflexivity | apply P59_exact].
Qed.
Lemma Q59_on : on_curve F59 f1 f0 Q59. Proof. apply zval_inj. vm_compute. reflexivity. Qed.
Lemma Q59_tors : torsion F59 f1 f0 15 Q59. Proof. split; [exact Q59_on | vm_compute; reflexivity]. Qed.
Definition show59 (x : res (Fq2 F59)) : option (Z * Z) := match x with Ok (a, b) => Some (zval 59 a, zval 59 b) | _ => None end.
Lemma value_59 : forall m, show59 (pairing_apply (a1_pairing F59 15 4 m) P59 P59) <> Some (1, 0).
Proof. intros []; vm_compute; discriminate. Qed.
Lemma one_59 : show59 (Ok f1) = Some (1, 0). Proof. vm_compute. reflexivity. Qed.
Lemma value_not_1 : type_a_value F59 59 15 P59 P59 <> f1.
Proof.
  intro E. assert (A := a1_apply F59 59 15 4 type_a1_59 MillerAffine P59 P59 P59_input (proj1 (proj1 P59_input))). rewrite E in A.
  apply (value_59 MillerAffine). etransitivity; [exact (f_equal show59 A) | exact one_59].
Qed.
(** a point of order 3 *)
Lemma small_order : forall m, pairing_apply (a1_pairing F59 15 4 m) Q59 P59 = UB.
Proof. intros []; vm_compute; reflexivity. Qed.
Lemma a1_small_order : exists (K : fld) p n l P Q, type_a1 K p n l /\ torsion K f1 f0 n P /\ on_curve K f1 f0 Q /\
  forall m, pairing_apply (a1_pairing K n l m) P Q = UB.
Proof.
  exists F59, 59, 15, 4, Q59, P59. split; [exact type_a1_59 | ]. split; [exact Q59_tors | ]. split; [exact (proj1 (proj1 P59_input)) | exact small_order].
Qed.
