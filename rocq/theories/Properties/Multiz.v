(** C17: nested integer polynomials. *)
From Coq Require Import ZArith List.
From Verif.Base Require Import Outcome.
From Verif.Model Require Import Multiz MultizBytes.
From Verif.Spec Require Import Multiz.
From Verif.Proofs Require Import MultizFacts MultizBytesFacts.
Import ListNotations.
Open Scope Z_scope.

(** C17: the sum of any two values, however nested, is the sum of the polynomials. *)
Theorem multiz_add_exact : forall a b, nonempty a -> nonempty b ->
  exists c, mz_add a b = Ok c /\ nonempty c /\ forall rho, eval rho c = eval rho a + eval rho b.
Proof. exact add_exact. Qed.
Print Assumptions multiz_add_exact.

Theorem multiz_mul_exact : forall a b, nonempty a -> nonempty b ->
  exists c, mz_mul a b = Ok c /\ nonempty c /\ forall rho, eval rho c = eval rho a * eval rho b.
Proof. exact mul_exact. Qed.
Print Assumptions multiz_mul_exact.

Theorem multiz_neg_exact : forall a,
  (nonempty a -> nonempty (mz_neg a)) /\ forall rho, eval rho (mz_neg a) = - eval rho a.
Proof. exact neg_exact. Qed.
Print Assumptions multiz_neg_exact.

Theorem multiz_scale_exact : forall a n,
  (nonempty a -> nonempty (mz_mul_z a n)) /\ forall rho, eval rho (mz_mul_z a n) = n * eval rho a.
Proof. exact mul_z_exact. Qed.
Print Assumptions multiz_scale_exact.

(** Conversion to an integer gives the constant coefficient. *)
Theorem multiz_to_integer : forall a, nonempty a -> first_leaf a = Ok (eval (fun _ => 0) a).
Proof. exact first_leaf_const. Qed.
Print Assumptions multiz_to_integer.

Example multiz_example : nonempty sample /\
  (forall rho, eval rho sample = (1 + 2 * rho 1%nat) + 3 * rho 0%nat +
     (4 + (5 + 6 * rho 2%nat) * rho 1%nat) * (rho 0%nat * rho 0%nat)) /\
  mz_add sample (MZ 7) = Ok (MA [MA [MZ 8; MZ 2]; MZ 3; MA [MZ 4; MA [MZ 5; MZ 6]]]) /\
  mz_mul (MA [MZ 1; MZ 2]) (MA [MZ 3; MA [MZ 0; MZ 1]]) = Ok (MA [MZ 3; MA [MZ 6; MZ 1]; MA [MZ 0; MZ 2]]) /\
  aligned (MA [MZ 1; MA [MZ 2]; MZ 3]) (MA [MZ 4; MA [MZ 5]]).
Proof. exact sample_ok. Qed.

(** C17: differences are right when integers meet integers.  Missing: an integer
    and a list, which the next two theorems refute. *)
Theorem multiz_sub_partial : forall a b, aligned a b ->
  exists c, mz_sub a b = Ok c /\ forall rho, eval rho c = eval rho a - eval rho b.
Proof. exact sub_exact. Qed.
Print Assumptions multiz_sub_partial.

Theorem multiz_sub_refuted : exists a b c rho, nonempty a /\ nonempty b /\ mz_sub a b = Ok c /\
  eval rho c <> eval rho a - eval rho b.
Proof. exact sub_wrong. Qed.
Print Assumptions multiz_sub_refuted.

(** The constant coefficient of list - integer always has the wrong sign. *)
Theorem multiz_sub_integer_refuted : forall l y, nonempty (MA l) ->
  exists c, mz_sub (MA l) (MZ y) = Ok c /\ eval (fun _ => 0) c = y - eval (fun _ => 0) (MA l).
Proof. exact sub_list_int. Qed.
Print Assumptions multiz_sub_integer_refuted.

(** Comparison: values of one shape compare equal exactly when they are equal,
    and swapping the arguments swaps the answer ... *)
Theorem multiz_cmp_same_shape : forall a b, same_shape a b ->
  exists i, mz_cmp a b = Ok i /\ (i = 0 <-> a = b).
Proof. exact cmp_same_shape. Qed.
Print Assumptions multiz_cmp_same_shape.

Theorem multiz_cmp_antisymmetric : forall a b i, mz_cmp a b = Ok i -> mz_cmp b a = Ok (- i).
Proof. exact cmp_antisym. Qed.
Print Assumptions multiz_cmp_antisymmetric.

(** ... but 5 and the list [0] compare equal, and [0] is not recognised as zero. *)
Theorem multiz_cmp_refuted : nonempty (MA [MZ 0]) /\ mz_cmp (MZ 5) (MA [MZ 0]) = Ok 0 /\
  eval (fun _ => 0) (MZ 5) <> eval (fun _ => 0) (MA [MZ 0]) /\
  eval (fun _ => 0) (MA [MZ 0]) = 0 /\ mz_is0 (MA [MZ 0]) = false.
Proof. exact cmp_wrong. Qed.
Print Assumptions multiz_cmp_refuted.

(** C17: the byte encoding loses the value.  Wherever the structures lie, if
    their padding is zero, any two values give the same bytes; the length is
    reported as 5 for all. *)
Theorem multiz_bytes_same_refuted : forall limbs limbs' w w' buf a b, pad_word w = 0 -> pad_word w' = 0 ->
  multiz_to_bytes limbs w buf a = multiz_to_bytes limbs' w' buf b.
Proof. exact same_bytes. Qed.
Print Assumptions multiz_bytes_same_refuted.
Theorem multiz_length_same_refuted : forall limbs w a, pad_word w = 0 -> multiz_length_in_bytes limbs w a = Ok 5.
Proof. exact same_length. Qed.
Print Assumptions multiz_length_same_refuted.
Theorem multiz_no_decoder_refuted : forall limbs w, pad_word w = 0 -> ~ exists dec : list Z -> mz, forall m bytes n,
  multiz_to_bytes limbs w [0; 0; 0; 0; 0] m = Ok (bytes, n) -> dec bytes = m.
Proof. exact no_decoder. Qed.
Print Assumptions multiz_no_decoder_refuted.
(** C17: if it is not zero, encoding an integer reads at an address made up of
    the capacity and the size of its mpz; undefined unless something is there. *)
Theorem multiz_bytes_wild_refuted : forall limbs w buf z, pad_word w <> 0 ->
  (forall n, limbs (room w + 2 ^ 32 * (Z.sgn z * limb_count z)) n = UB) -> multiz_to_bytes limbs w buf (MZ z) = UB.
Proof. exact wild_read. Qed.
Print Assumptions multiz_bytes_wild_refuted.
Example multiz_bytes_instance :
  let w := {| pad_tag := 0; pad_word := 0; room := 1; addr := 140000000 |} in
  layout w (MZ 300) = [0; 0; 1; 1; 140000000; 0] /\ layout w (MA [MZ 1; MZ 2]) = [1; 0; 140000000; 0; 2; 1] /\ multiz_to_bytes (fun _ _ => UB) w [0; 0; 0; 0; 0] (MZ 300) = Ok ([0; 0; 0; 1; 0], 5).
Proof. vm_compute. repeat split. Qed.
