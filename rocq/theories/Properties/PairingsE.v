(** C37 (and C34, C39, C58, C64 for this type): type E pairings.  Embedding
    degree one: the value is (f_P(Q + R) / f_P(R))^((q-1)/r), with f_P the
    function with divisor r(P) - r(O) and R the fixed point chosen when the
    pairing is initialised.  R is a random point of the curve; what is used of
    it is that r R is not the identity (and, for additivity in Q, that the
    order of r R is at least 5).  C65: preprocessing and its argument. *)
From Coq Require Import ZArith Znumtheory List Bool.
From Verif.Base Require Import Outcome Algebra Gmp.
From Verif.Spec Require Import FiniteField Curve Tate PairingValue PairingValueE.
From Verif.Model Require Import Pairing PairingA PairingE DefaultPP.
From Verif.Proofs Require Import PairingEFacts PairingEApi PairingEWitness.
From Verif.Model Require Import Pairing.
Import ListNotations.
Open Scope Z_scope.

(** C37: both methods, miller (projective) and miller-affine. *)
Theorem type_e_pairing_is_tate : forall (K : fld) (a b : K) q r e2 e1 s1 s0, type_e K a b q r e2 e1 s1 s0 ->
  forall R, e_shift K a b r R -> forall (m : a_method) P Q, torsion K a b r P -> torsion K a b r Q ->
  pairing_apply (e_pairing_rec K a {| ee2 := e2; ee1 := e1; es1 := s1; es0 := s0 |} q r R m) P Q = Ok (e_value K a q r R P Q).
Proof. exact e_apply. Qed.
Print Assumptions type_e_pairing_is_tate.
(** The Miller loops themselves, at any two points outside the r-torsion. *)
Theorem type_e_projective_loop : forall (K : fld) (HK : fld_laws K) (a b : K), elliptic K a b -> forall r, prime r -> 5 < r ->
  forall e2 e1 s1 s0, 0 <= e1 < e2 -> s1 = 1 \/ s1 = -1 -> s0 = 1 \/ s0 = -1 -> r = 2 ^ e2 + s1 * 2 ^ e1 + s0 ->
  forall P, torsion K a b r P -> P <> None -> forall num den,
  (on_curve K a b (Some num) /\ ~ torsion K a b r (Some num)) -> (on_curve K a b (Some den) /\ ~ torsion K a b r (Some den)) ->
  e_miller_proj K a num den {| ee2 := e2; ee1 := e1; es1 := s1; es0 := s0 |} P =
    Ok (fdiv (miller K a (Z.to_nat r) P (Some num)) (miller K a (Z.to_nat r) P (Some den))).
Proof. exact proj_correct. Qed.
Print Assumptions type_e_projective_loop.
Theorem type_e_affine_loop : forall (K : fld) (HK : fld_laws K) (a b : K), elliptic K a b -> forall r, prime r -> 5 < r ->
  forall e2 e1 s1 s0, 0 <= e1 < e2 -> s1 = 1 \/ s1 = -1 -> s0 = 1 \/ s0 = -1 -> r = 2 ^ e2 + s1 * 2 ^ e1 + s0 ->
  forall P, torsion K a b r P -> P <> None -> forall num den,
  (on_curve K a b (Some num) /\ ~ torsion K a b r (Some num)) -> (on_curve K a b (Some den) /\ ~ torsion K a b r (Some den)) ->
  e_miller_affine K a num den {| ee2 := e2; ee1 := e1; es1 := s1; es0 := s0 |} P =
    Ok (fdiv (miller K a (Z.to_nat r) P (Some num)) (miller K a (Z.to_nat r) P (Some den))).
Proof. exact affine_correct. Qed.
Print Assumptions type_e_affine_loop.
Theorem type_e_preprocessed_is_tate : forall (K : fld) (a b : K) q r e2 e1 s1 s0, type_e K a b q r e2 e1 s1 s0 ->
  forall R, e_shift K a b r R -> forall (m : a_method) P, torsion K a b r P ->
  let E := e_pairing_rec K a {| ee2 := e2; ee1 := e1; es1 := s1; es0 := s0 |} q r R m in
  exists pp, pairing_pp_init E P = Ok pp /\ forall Q, torsion K a b r Q -> pairing_pp_apply E Q pp = Ok (e_value K a q r R P Q).
Proof. exact e_pp. Qed.
Print Assumptions type_e_preprocessed_is_tate.
(** C34. *)
Theorem type_e_product : forall (K : fld) (a b : K) q r e2 e1 s1 s0, type_e K a b q r e2 e1 s1 s0 ->
  forall R, e_shift K a b r R -> forall (m : a_method) in1 in2, length in1 = length in2 -> in1 <> [] ->
  Forall (torsion K a b r) in1 -> Forall (torsion K a b r) in2 -> Forall (fun P => P <> None) in1 -> Forall (fun Q => Q <> None) in2 ->
  element_prod_pairing (e_pairing_rec K a {| ee2 := e2; ee1 := e1; es1 := s1; es0 := s0 |} q r R m) in1 in2 (length in1) =
    Ok (gprod (map (fun pq => e_value K a q r R (fst pq) (snd pq)) (combine in1 in2))).
Proof. exact e_prod. Qed.
Print Assumptions type_e_product.
Theorem type_e_product_identity_gives_1 : forall (K : fld) (a : K) q r e2 e1 s1 s0 R (m : a_method) in1 in2 i P Q,
  length in1 = length in2 -> nth_error in1 i = Some P -> nth_error in2 i = Some Q -> P = None \/ Q = None ->
  element_prod_pairing (e_pairing_rec K a {| ee2 := e2; ee1 := e1; es1 := s1; es0 := s0 |} q r R m) in1 in2 (length in1) = Ok f1.
Proof. exact e_prod_1. Qed.
Print Assumptions type_e_product_identity_gives_1.
(** The value of the identity, and the order of every value. *)
Theorem type_e_identity : forall (K : fld) (a b : K) q r e2 e1 s1 s0, type_e K a b q r e2 e1 s1 s0 ->
  forall R, e_shift K a b r R -> (forall Q, e_value K a q r R None Q = f1) /\ (forall P, torsion K a b r P -> e_value K a q r R P None = f1).
Proof. intros K a b q r e2 e1 s1 s0 T R HR. exact (conj (e_val_0l K a b q r e2 e1 s1 s0 T R) (e_val_0r K a b q r e2 e1 s1 s0 T R HR)). Qed.
Print Assumptions type_e_identity.
Theorem type_e_value_order : forall (K : fld) (a b : K) q r e2 e1 s1 s0, type_e K a b q r e2 e1 s1 s0 ->
  forall R, e_shift K a b r R -> forall P Q, torsion K a b r P -> torsion K a b r Q -> fpow (e_value K a q r R P Q) r = f1.
Proof. exact e_value_r. Qed.
Print Assumptions type_e_value_order.
(** C39: in the first argument for every R; in both if the order of r R is at
    least 5. *)
Theorem type_e_linear_first : forall (K : fld) (a b : K) q r e2 e1 s1 s0, type_e K a b q r e2 e1 s1 s0 ->
  forall R, e_shift K a b r R -> forall i P Q, torsion K a b r P -> torsion K a b r Q ->
  e_value K a q r R (pzmul K a i P) Q = fpow (e_value K a q r R P Q) (i mod r).
Proof. exact e_mul1. Qed.
Print Assumptions type_e_linear_first.
Theorem type_e_bilinear : forall (K : fld) (a b : K) q r e2 e1 s1 s0, type_e K a b q r e2 e1 s1 s0 ->
  forall R, e_shift K a b r R -> (forall k, 0 < k < 5 -> pzmul K a (k * r) R <> None) ->
  forall i j P Q, torsion K a b r P -> torsion K a b r Q ->
  e_value K a q r R (pzmul K a i P) (pzmul K a j Q) = fpow (e_value K a q r R P Q) ((i * j) mod r).
Proof. exact e_bilinear. Qed.
Print Assumptions type_e_bilinear.
Theorem type_e_additive : forall (K : fld) (a b : K) q r e2 e1 s1 s0, type_e K a b q r e2 e1 s1 s0 ->
  forall R, e_shift K a b r R -> (forall k, 0 < k < 5 -> pzmul K a (k * r) R <> None) ->
  forall P P' Q Q', torsion K a b r P -> torsion K a b r P' -> torsion K a b r Q -> torsion K a b r Q' ->
  e_value K a q r R (padd K a P P') Q = fmul (e_value K a q r R P Q) (e_value K a q r R P' Q) /\
  e_value K a q r R P (padd K a Q Q') = fmul (e_value K a q r R P Q) (e_value K a q r R P Q').
Proof. exact e_additive. Qed.
Print Assumptions type_e_additive.
(** C58. *)
Theorem type_e_random_gt_order : forall (K : fld) (a b : K) q r e2 e1 s1 s0, type_e K a b q r e2 e1 s1 s0 ->
  forall x : K, x <> f0 -> exists u, e_finalpow K q r x = Ok u /\ fpow u r = f1.
Proof. exact e_gt. Qed.
Print Assumptions type_e_random_gt_order.
(** C64. *)
Theorem type_e_coddh_decides : forall (K : fld) (a b : K) q r e2 e1 s1 s0, type_e K a b q r e2 e1 s1 s0 ->
  forall R, e_shift K a b r R -> forall (m : a_method) P B Q X, torsion K a b r P -> torsion K a b r B -> torsion K a b r Q -> torsion K a b r X -> exists z,
  generic_is_almost_coddh (e_pairing_rec K a {| ee2 := e2; ee1 := e1; es1 := s1; es0 := s0 |} q r R m) P B Q X = Ok z /\
  (z = true <-> e_value K a q r R P X = e_value K a q r R B Q \/ fmul (e_value K a q r R P X) (e_value K a q r R B Q) = f1).
Proof. exact e_coddh. Qed.
Print Assumptions type_e_coddh_decides.
Theorem type_e_coddh_accepts : forall (K : fld) (a b : K) q r e2 e1 s1 s0, type_e K a b q r e2 e1 s1 s0 ->
  forall R, e_shift K a b r R -> (forall k, 0 < k < 5 -> pzmul K a (k * r) R <> None) ->
  forall (m : a_method) P Q x s, torsion K a b r P -> torsion K a b r Q -> s = 1 \/ s = -1 ->
  generic_is_almost_coddh (e_pairing_rec K a {| ee2 := e2; ee1 := e1; es1 := s1; es0 := s0 |} q r R m) P (pzmul K a x P) Q (pzmul K a (s * x) Q) = Ok true.
Proof. exact e_coddh_accepts. Qed.
Print Assumptions type_e_coddh_accepts.

(** ** C65 *)
(** A table built from in1 does not depend on what happens to in1 later:
    after any assignments (and clears) the result is as if nothing happened. *)
Theorem table_preprocessing_is_a_snapshot : forall (p : pairing) h a P o, h a = Some P -> table_pp_init p h a = Ok o ->
  forall l Q, object_pp_apply p (assigns p h l) Q o = (pp <- pairing_pp_init p P ;; pairing_pp_apply p Q pp).
Proof. exact table_snapshot. Qed.
Print Assumptions table_preprocessing_is_a_snapshot.
(** The default (types E and F) is the pairing of in1's value only if in1 is
    left alone. *)
Theorem default_preprocessing_partial : forall (p : pairing) h a P o, h a = Some P -> default_pp_init p h a = Ok o ->
  forall l Q, Forall (fun ax => fst ax <> a) l -> object_pp_apply p (assigns p h l) Q o = pairing_apply p P Q.
Proof. exact pointer_same. Qed.
Print Assumptions default_preprocessing_partial.
Theorem default_preprocessing_refuted : exists (K : fld) a b q r e2 e1 s1 s0 R P Q h l o,
  type_e K a b q r e2 e1 s1 s0 /\ e_shift K a b r R /\ torsion K a b r P /\ torsion K a b r Q /\
  let E := e_pairing_rec K a {| ee2 := e2; ee1 := e1; es1 := s1; es0 := s0 |} q r R PairingA.Miller in
  h 0%nat = Some P /\ default_pp_init E h 0 = Ok o /\ object_pp_apply E (assigns E h l) Q o <> pairing_apply E P Q.
Proof. exact pointer_refuted. Qed.
Print Assumptions default_preprocessing_refuted.
(** and after element_clear(in1) it reads a cleared element. *)
Theorem default_preprocessing_dangles : forall (p : pairing) h a P o Q, h a = Some P -> is0_1 p P = false -> default_pp_init p h a = Ok o -> is0_2 p Q = false ->
  object_pp_apply p (assigns p h [(a, None)]) Q o = UB.
Proof. exact dangling. Qed.
Print Assumptions default_preprocessing_dangles.

(** q = 29, r = 7: the hypotheses hold and the value is not 1. *)
Example type_e_instance : type_e F29 (e29 1) (e29 7) 29 7 2 1 1 1 /\ e_shift F29 (e29 1) (e29 7) 7 RR29 /\ (forall k, 0 < k < 5 -> pzmul F29 (e29 1) (k * 7) RR29 <> None) /\
  torsion F29 (e29 1) (e29 7) 7 PP29 /\ PP29 <> None /\ e_value F29 (e29 1) 29 7 RR29 PP29 PP29 <> f1.
Proof. split; [exact type_e_29 | ]. split; [exact s29 | ]. split; [exact k29 | ]. split; [exact t29 | ]. split; [discriminate | exact val29_not_1]. Qed.
