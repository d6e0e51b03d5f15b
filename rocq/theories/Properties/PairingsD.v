(** C36 (and C34, C39, C53, C58, C64 for these types): type D and G pairings.
    Their value is the reduced Tate pairing on E over F_{q^k} of the first
    argument and the image of the second under the isomorphism of the twist
    with E. *)
From Coq Require Import ZArith Znumtheory List Bool.
From Verif.Base Require Import Outcome Algebra Gmp.
From Verif.Spec Require Import FiniteField Quadratic Polynomials Extension Curve Tate Twist PairingValue PairingValueD.
From Verif.Model Require Import Lucas Pairing PairingA Miller PairingD.
From Verif.Proofs Require Import PairingDFacts PairingDApi PairingDWitness.
From Verif.Model Require Import Pairing.
Import ListNotations.
Open Scope Z_scope.

(** C36: with method miller-affine (the default) the value is the Tate
    pairing. *)
Theorem type_d_pairing_is_tate_partial : forall (K : fld) n m (c a b : K) q r, type_d K n m c a b q r ->
  forall P Q, torsion K a b r P -> on_twist K n m c a b Q ->
  pairing_apply (d_pairing K n m (const K n m c) a r (2 * Z.of_nat n) q MillerAffine) P Q = Ok (dg_value K n m c a q r P Q).
Proof. exact d_apply. Qed.
Print Assumptions type_d_pairing_is_tate_partial.
(** So does the preprocessed pairing, unless r = 2^s - 1. *)
Theorem type_d_preprocessed_is_tate_partial : forall (K : fld) n m (c a b : K) q r, type_d K n m c a b q r -> not_all_ones r ->
  forall P, torsion K a b r P ->
  exists pp, pairing_pp_init (d_pairing K n m (const K n m c) a r (2 * Z.of_nat n) q MillerAffine) P = Ok pp /\
  forall Q, on_twist K n m c a b Q -> pairing_pp_apply (d_pairing K n m (const K n m c) a r (2 * Z.of_nat n) q MillerAffine) Q pp = Ok (dg_value K n m c a q r P Q).
Proof. exact d_pp. Qed.
Print Assumptions type_d_preprocessed_is_tate_partial.
(** C53: then the table has the 2 m entries allocated (a write past them would
    be [UB]), and clearing it touches only entries that were written. *)
Theorem type_d_table_size_partial : forall (K : fld) n m (c a b : K) q r, type_d K n m c a b q r -> not_all_ones r ->
  forall P t, torsion K a b r P -> pairing_pp_init (d_pairing K n m (const K n m c) a r (2 * Z.of_nat n) q MillerAffine) P = Ok (Some t) ->
  length t = (2 * start_bit r)%nat /\ d_pairing_pp_clear K r t = Ok tt.
Proof. exact d_pp_table. Qed.
Print Assumptions type_d_table_size_partial.
(** If r = 2^s - 1 it writes one entry too many, for every point. *)
Theorem type_d_table_overrun : forall (K : fld) n m (c a b : K) q r, type_d K n m c a b q r -> ~ not_all_ones r ->
  forall P, torsion K a b r P -> P <> None ->
  pairing_pp_init (d_pairing K n m (const K n m c) a r (2 * Z.of_nat n) q MillerAffine) P = UB.
Proof. exact d_overrun. Qed.
Print Assumptions type_d_table_overrun.
Theorem type_d_table_refuted : exists (K : fld) m c a b q r P, type_d K 3 m c a b q r /\ torsion K a b r P /\
  pairing_pp_init (d_pairing K 3 m (const K 3 m c) a r 6 q MillerAffine) P = UB.
Proof. exact d_overrun_refuted. Qed.
Print Assumptions type_d_table_refuted.
(** C36 fails for method miller: the projective loop uses one variable for
    both coordinates. *)
Theorem type_d_projective_refuted : exists (K : fld) m c a b q r P Q, type_d K 3 m c a b q r /\ torsion K a b r P /\ on_twist K 3 m c a b Q /\
  pairing_apply (d_pairing K 3 m (const K 3 m c) a r 6 q PairingA.Miller) P Q <> Ok (dg_value K 3 m c a q r P Q).
Proof. exact d_proj_refuted. Qed.
Print Assumptions type_d_projective_refuted.
(** C36, C34: products of n >= 1 pairings of points other than the identity;
    with the identity among the inputs the result is 1. *)
Theorem type_d_product_partial : forall (K : fld) n m (c a b : K) q r, type_d K n m c a b q r ->
  forall in1 in2, length in1 = length in2 -> in1 <> [] ->
  Forall (torsion K a b r) in1 -> Forall (on_twist K n m c a b) in2 -> Forall (fun P => P <> None) in1 -> Forall (fun Q => Q <> None) in2 ->
  element_prod_pairing (d_pairing K n m (const K n m c) a r (2 * Z.of_nat n) q MillerAffine) in1 in2 (length in1) =
    Ok (gprod (map (fun pq => dg_value K n m c a q r (fst pq) (snd pq)) (combine in1 in2))).
Proof. exact d_prod. Qed.
Print Assumptions type_d_product_partial.
Theorem type_d_product_identity_gives_1 : forall (K : fld) n m (c a : K) q r (method : a_method) in1 in2 i P Q,
  length in1 = length in2 -> nth_error in1 i = Some P -> nth_error in2 i = Some Q -> P = None \/ Q = None ->
  element_prod_pairing (d_pairing K n m (const K n m c) a r (2 * Z.of_nat n) q method) in1 in2 (length in1) = Ok f1.
Proof. exact d_prod_identity. Qed.
Print Assumptions type_d_product_identity_gives_1.
(** The value is an r-th root of unity and is bilinear (types D and G). *)
Theorem type_dg_value_order : forall (K : fld) n m (c a b : K) q r, type_dg K n m c a b q r ->
  forall P Q, torsion K a b r P -> on_twist K n m c a b Q -> fpow (dg_value K n m c a q r P Q) r = f1.
Proof. exact dg_value_r. Qed.
Print Assumptions type_dg_value_order.
(** C39. *)
Theorem type_dg_bilinear : forall (K : fld) n m (c a b : K) q r, type_dg K n m c a b q r ->
  forall i j P Q, torsion K a b r P -> on_twist K n m c a b Q ->
  dg_value K n m c a q r (pzmul K a i P) (pzmul (Ext K n m) (fmul (fmul (const K n m a) (const K n m c)) (const K n m c)) j Q) =
    fpow (dg_value K n m c a q r P Q) ((i * j) mod r).
Proof. exact dg_bilinear. Qed.
Print Assumptions type_dg_bilinear.
Theorem type_dg_additive : forall (K : fld) n m (c a b : K) q r, type_dg K n m c a b q r ->
  forall P P' Q Q', torsion K a b r P -> torsion K a b r P' -> on_twist K n m c a b Q -> on_twist K n m c a b Q' ->
  dg_value K n m c a q r (padd K a P P') Q = fmul (dg_value K n m c a q r P Q) (dg_value K n m c a q r P' Q) /\
  dg_value K n m c a q r P (padd (Ext K n m) (fmul (fmul (const K n m a) (const K n m c)) (const K n m c)) Q Q') =
    fmul (dg_value K n m c a q r P Q) (dg_value K n m c a q r P Q').
Proof. exact dg_additive. Qed.
Print Assumptions type_dg_additive.
(** C58: what element_random in GT produces has order dividing r. *)
Theorem type_d_random_gt_order : forall (K : fld) n m (c a b : K) q r, type_d K n m c a b q r ->
  forall x : Quad (Ext K n m) (const K n m c), x <> f0 ->
  exists u, d_tatepower K n m (const K n m c) r (2 * Z.of_nat n) q x = Ok u /\ fpow u r = f1.
Proof. exact d_gt. Qed.
Print Assumptions type_d_random_gt_order.
(** C64, away from the identity; cc_is_almost_coddh does not test for it. *)
Theorem type_d_coddh_accepts_partial : forall (K : fld) n m (c a b : K) q r, type_d K n m c a b q r ->
  forall P Q x s, torsion K a b r P -> on_twist K n m c a b Q -> s = 1 \/ s = -1 ->
  let B := pzmul K a x P in let R := pzmul (Ext K n m) (fmul (fmul (const K n m a) (const K n m c)) (const K n m c)) (s * x) Q in
  P <> None -> B <> None -> Q <> None -> R <> None ->
  cc_is_almost_coddh K n m (const K n m c) a r (d_tatepower K n m (const K n m c) r (2 * Z.of_nat n) q) MillerAffine P B Q R = Ok true.
Proof. exact d_coddh_accepts. Qed.
Print Assumptions type_d_coddh_accepts_partial.
Theorem type_d_coddh_decides_partial : forall (K : fld) n m (c a b : K) q r, type_d K n m c a b q r ->
  forall P B Q R, torsion K a b r P -> torsion K a b r B -> on_twist K n m c a b Q -> on_twist K n m c a b R ->
  P <> None -> B <> None -> Q <> None -> R <> None ->
  exists z, cc_is_almost_coddh K n m (const K n m c) a r (d_tatepower K n m (const K n m c) r (2 * Z.of_nat n) q) MillerAffine P B Q R = Ok z /\
  (z = true <-> dg_value K n m c a q r P R = dg_value K n m c a q r B Q \/ fmul (dg_value K n m c a q r P R) (dg_value K n m c a q r B Q) = f1).
Proof. exact d_coddh. Qed.
Print Assumptions type_d_coddh_decides_partial.
Theorem type_d_coddh_identity_refuted : exists (K : fld) m c a b q r P Q, type_d K 3 m c a b q r /\ torsion K a b r P /\ on_twist K 3 m c a b Q /\
  cc_is_almost_coddh K 3 m (const K 3 m c) a r (d_tatepower K 3 m (const K 3 m c) r 6 q) MillerAffine P (pzmul K a 0 P) Q (pzmul (Ext K 3 m) (fmul (fmul (const K 3 m a) (const K 3 m c)) (const K 3 m c)) 0 Q) = UB.
Proof. exact coddh_identity. Qed.
Print Assumptions type_d_coddh_identity_refuted.

(** ** Type G *)
Theorem type_g_pairing_is_tate_partial : forall (K : fld) m (c a b : K) q r, type_g K m c a b q r ->
  forall P Q, torsion K a b r P -> on_twist K 5 m c a b Q -> P = None \/ Q = None \/ dg_value K 5 m c a q r P Q <> f1 ->
  pairing_apply (g_pairing K 5 m (const K 5 m c) a r q MillerAffine) P Q = Ok (dg_value K 5 m c a q r P Q).
Proof. exact g_apply. Qed.
Print Assumptions type_g_pairing_is_tate_partial.
(** The value 1 can make the final powering divide by zero.  (The point Q here
    is on the twist but not of order r.) *)
Theorem type_g_value_1_refuted : exists (K : fld) m c a b q r P Q, type_g K m c a b q r /\ torsion K a b r P /\ on_twist K 5 m c a b Q /\ dg_value K 5 m c a q r P Q = f1 /\
  pairing_apply (g_pairing K 5 m (const K 5 m c) a r q MillerAffine) P Q = Die.
Proof. exact g_value_1_refuted. Qed.
Print Assumptions type_g_value_1_refuted.
Theorem type_g_preprocessed_is_tate_partial : forall (K : fld) m (c a b : K) q r, type_g K m c a b q r -> not_all_ones r ->
  forall P, torsion K a b r P ->
  exists pp, pairing_pp_init (g_pairing K 5 m (const K 5 m c) a r q MillerAffine) P = Ok pp /\
  forall Q, on_twist K 5 m c a b Q -> P = None \/ Q = None \/ dg_value K 5 m c a q r P Q <> f1 ->
  pairing_pp_apply (g_pairing K 5 m (const K 5 m c) a r q MillerAffine) Q pp = Ok (dg_value K 5 m c a q r P Q).
Proof. exact g_pp. Qed.
Print Assumptions type_g_preprocessed_is_tate_partial.
Theorem type_g_table_size_partial : forall (K : fld) m (c a b : K) q r, type_g K m c a b q r -> not_all_ones r ->
  forall P t, torsion K a b r P -> pairing_pp_init (g_pairing K 5 m (const K 5 m c) a r q MillerAffine) P = Ok (Some t) ->
  length t = (2 * start_bit r)%nat /\ d_pairing_pp_clear K r t = Ok tt.
Proof. exact g_pp_table. Qed.
Print Assumptions type_g_table_size_partial.
Theorem type_g_projective_refuted : exists (K : fld) m c a b q r P Q, type_g K m c a b q r /\ torsion K a b r P /\ on_twist K 5 m c a b Q /\ dg_value K 5 m c a q r P Q <> f1 /\
  pairing_apply (g_pairing K 5 m (const K 5 m c) a r q PairingA.Miller) P Q <> Ok (dg_value K 5 m c a q r P Q).
Proof. exact g_proj_refuted. Qed.
Print Assumptions type_g_projective_refuted.
Theorem type_g_product_partial : forall (K : fld) m (c a b : K) q r, type_g K m c a b q r ->
  forall in1 in2, length in1 = length in2 -> in1 <> [] ->
  Forall (torsion K a b r) in1 -> Forall (on_twist K 5 m c a b) in2 -> Forall (fun P => P <> None) in1 -> Forall (fun Q => Q <> None) in2 ->
  Forall (fun pq => dg_value K 5 m c a q r (fst pq) (snd pq) <> f1) (combine in1 in2) ->
  element_prod_pairing (g_pairing K 5 m (const K 5 m c) a r q MillerAffine) in1 in2 (length in1) =
    Ok (gprod (map (fun pq => dg_value K 5 m c a q r (fst pq) (snd pq)) (combine in1 in2))).
Proof. exact g_prod. Qed.
Print Assumptions type_g_product_partial.
Theorem type_g_coddh_decides_partial : forall (K : fld) m (c a b : K) q r, type_g K m c a b q r ->
  forall P B Q R, torsion K a b r P -> torsion K a b r B -> on_twist K 5 m c a b Q -> on_twist K 5 m c a b R ->
  P <> None -> B <> None -> Q <> None -> R <> None -> dg_value K 5 m c a q r P R <> f1 -> dg_value K 5 m c a q r B Q <> f1 ->
  exists z, cc_is_almost_coddh K 5 m (const K 5 m c) a r (g_tatepower K 5 m (const K 5 m c) r q) MillerAffine P B Q R = Ok z /\
  (z = true <-> dg_value K 5 m c a q r P R = dg_value K 5 m c a q r B Q \/ fmul (dg_value K 5 m c a q r P R) (dg_value K 5 m c a q r B Q) = f1).
Proof. exact g_coddh. Qed.
Print Assumptions type_g_coddh_decides_partial.

(** Instances: q = 17, r = 13 (type D) and q = 7, r = 11 (type G, and type D
    with k = 10); the values there are not 1. *)
Example type_d_instance : type_d F17 3 m17 (e17 3) (e17 6) (e17 8) 17 13 /\ not_all_ones 13 /\
  torsion F17 (e17 6) (e17 8) 13 PP17 /\ on_twist F17 3 m17 (e17 3) (e17 6) (e17 8) QQ17 /\ PP17 <> None /\ QQ17 <> None /\
  dg_value F17 3 m17 (e17 3) (e17 6) 17 13 PP17 QQ17 <> f1.
Proof. split; [exact type_d_17 | ]. split; [discriminate | ]. split; [exact t17 | ]. split; [exact o17 | ]. split; [discriminate | ]. split; [discriminate | exact val17_not_1]. Qed.
Example type_g_instance : type_g F7 m7 (e7 3) (e7 1) (e7 6) 7 11 /\ not_all_ones 11 /\
  torsion F7 (e7 1) (e7 6) 11 PP7 /\ on_twist F7 5 m7 (e7 3) (e7 1) (e7 6) QQ7 /\ PP7 <> None /\ QQ7 <> None /\
  dg_value F7 5 m7 (e7 3) (e7 1) 7 11 PP7 QQ7 <> f1.
Proof. split; [exact type_g_7 | ]. split; [discriminate | ]. split; [exact t7 | ]. split; [exact o7 | ]. split; [discriminate | ]. split; [discriminate | exact val7_not_1]. Qed.
Example type_d_k10_instance : type_d F7 5 m7 (e7 3) (e7 1) (e7 6) 7 11. Proof. exact type_d_7. Qed.
