(** C35 (and C34, C39, C53, C58, C64 for this type): type A1 pairings.  Their
    value is the same reduced Tate pairing as for type A, with the order n in
    place of r. *)
From Coq Require Import ZArith Znumtheory List Bool.
From Verif.Base Require Import Outcome Algebra Gmp.
From Verif.Spec Require Import FiniteField Quadratic Curve Tate Twist PairingValue.
From Verif.Model Require Import Lucas Pairing PairingA PairingA1.
From Verif.Proofs Require Import TwistedValue PairingA1Facts PairingA1Witness.
From Verif.Model Require Import Pairing.
Import ListNotations.
Open Scope Z_scope.

(** C35: both methods give the Tate pairing, hence the same value. *)
Theorem type_a1_pairing_is_tate : forall (K : fld) p n l, type_a1 K p n l ->
  forall (method : a_method) P Q, a1_input K n P -> on_curve K f1 f0 Q ->
  pairing_apply (a1_pairing K n l method) P Q = Ok (type_a_value K p n P Q).
Proof. exact a1_apply. Qed.
Print Assumptions type_a1_pairing_is_tate.
(** Points of order exactly n are inputs of this kind. *)
Theorem exact_order_is_input : forall (K : fld) (a : K) n, 2 < n -> Z.odd n = true -> forall P, exact_order K a n P -> regular K a n P.
Proof. exact exact_regular. Qed.
Print Assumptions exact_order_is_input.
(** So does the preprocessed pairing. *)
Theorem type_a1_preprocessed_is_tate : forall (K : fld) p n l, type_a1 K p n l ->
  forall (method : a_method) P, a1_input K n P ->
  exists pp, pairing_pp_init (a1_pairing K n l method) P = Ok pp /\
  forall Q, on_curve K f1 f0 Q -> pairing_pp_apply (a1_pairing K n l method) Q pp = Ok (type_a_value K p n P Q).
Proof. exact a1_pp. Qed.
Print Assumptions type_a1_preprocessed_is_tate.
(** C53: the table has the number of slots allocated (writing past it would be
    [UB]), all of them are written, and clearing frees every block. *)
Theorem type_a1_table_size : forall (K : fld) p n l, type_a1 K p n l ->
  forall (method : a_method) P t, a1_input K n P -> pairing_pp_init (a1_pairing K n l method) P = Ok (Some t) ->
  length t = Z.to_nat (sizeinbase2 n) /\ forall fuel, (length t <= fuel)%nat -> a1_pp_clear K fuel t 0 = Ok (length t - 1)%nat.
Proof. exact a1_pp_table. Qed.
Print Assumptions type_a1_table_size.
(** C35: and products of n >= 1 pairings; C34 as for type A. *)
Theorem type_a1_product_partial : forall (K : fld) p n l, type_a1 K p n l ->
  forall (method : a_method) in1 in2, length in1 = length in2 -> in1 <> [] ->
  Forall (a1_input K n) in1 -> Forall (on_curve K f1 f0) in2 -> Forall (fun P => P <> None) in1 -> Forall (fun Q => Q <> None) in2 ->
  element_prod_pairing (a1_pairing K n l method) in1 in2 (length in1) =
    Ok (gprod (map (fun pq => type_a_value K p n (fst pq) (snd pq)) (combine in1 in2))).
Proof. exact a1_prod. Qed.
Print Assumptions type_a1_product_partial.
Theorem type_a1_product_identity_gives_1 : forall (K : fld) n l (method : a_method) in1 in2 i P Q,
  length in1 = length in2 -> nth_error in1 i = Some P -> nth_error in2 i = Some Q -> P = None \/ Q = None ->
  element_prod_pairing (a1_pairing K n l method) in1 in2 (length in1) = Ok f1.
Proof. exact a1_prod_identity. Qed.
Print Assumptions type_a1_product_identity_gives_1.
(** The value is an n-th root of unity and is bilinear. *)
Theorem type_a1_value_order : forall (K : fld) p n l, type_a1 K p n l ->
  forall P Q, torsion K f1 f0 n P -> on_curve K f1 f0 Q -> fpow (type_a_value K p n P Q) n = f1.
Proof. exact a1_value_r. Qed.
Print Assumptions type_a1_value_order.
Theorem type_a1_bilinear : forall (K : fld) p n l, type_a1 K p n l ->
  forall i j P Q, torsion K f1 f0 n P -> on_curve K f1 f0 Q ->
  type_a_value K p n (pzmul K f1 i P) (pzmul K f1 j Q) = fpow (type_a_value K p n P Q) ((i * j) mod n).
Proof. exact a1_bilinear. Qed.
Print Assumptions type_a1_bilinear.
Theorem type_a1_additive : forall (K : fld) p n l, type_a1 K p n l ->
  forall P P' Q Q', torsion K f1 f0 n P -> torsion K f1 f0 n P' -> on_curve K f1 f0 Q -> on_curve K f1 f0 Q' ->
  type_a_value K p n (padd K f1 P P') Q = fmul (type_a_value K p n P Q) (type_a_value K p n P' Q) /\
  type_a_value K p n P (padd K f1 Q Q') = fmul (type_a_value K p n P Q) (type_a_value K p n P Q').
Proof. exact a1_additive. Qed.
Print Assumptions type_a1_additive.
(** C64. *)
Theorem type_a1_coddh_decides : forall (K : fld) p n l, type_a1 K p n l ->
  forall (method : a_method) P B Q D, a1_input K n P -> a1_input K n B -> on_curve K f1 f0 Q -> on_curve K f1 f0 D ->
  exists z, generic_is_almost_coddh (a1_pairing K n l method) P B Q D = Ok z /\
  (z = true <-> type_a_value K p n P D = type_a_value K p n B Q \/ fmul (type_a_value K p n P D) (type_a_value K p n B Q) = f1).
Proof. exact a1_coddh. Qed.
Print Assumptions type_a1_coddh_decides.
Theorem type_a1_coddh_accepts : forall (K : fld) p n l, type_a1 K p n l ->
  forall (method : a_method) P Q x s, a1_input K n P -> a1_input K n (pzmul K f1 x P) -> on_curve K f1 f0 Q -> s = 1 \/ s = -1 ->
  generic_is_almost_coddh (a1_pairing K n l method) P (pzmul K f1 x P) Q (pzmul K f1 (s * x) Q) = Ok true.
Proof. exact a1_coddh_accepts. Qed.
Print Assumptions type_a1_coddh_accepts.
(** C58: the power applied to random and hashed elements of GT. *)
Theorem type_a1_gt_random_partial : forall (K : fld) p n l, type_a1 K p n l ->
  forall (j : K) (e : Quad K (fopp f1)), e <> f0 -> exists u, a1_finalpow K l (Ok j) e = Ok u /\ fpow u n = f1.
Proof. exact a1_gt_finalpow. Qed.
Print Assumptions type_a1_gt_random_partial.
(** An instance with a value other than 1. *)
Example type_a1_example : type_a1 F59 59 15 4 /\ a1_input F59 15 P59 /\ type_a_value F59 59 15 P59 P59 <> f1.
Proof. exact (conj type_a1_59 (conj P59_input value_not_1)). Qed.
(** C35 without the condition on the multiples of P is false: with a point of
    order 3 and n = 15 both methods use the coordinates of the identity or
    invert zero. *)
Theorem type_a1_small_order_refuted : exists (K : fld) p n l P Q, type_a1 K p n l /\ torsion K f1 f0 n P /\ on_curve K f1 f0 Q /\
  forall method, pairing_apply (a1_pairing K n l method) P Q = UB.
Proof. exact a1_small_order. Qed.
Print Assumptions type_a1_small_order_refuted.
