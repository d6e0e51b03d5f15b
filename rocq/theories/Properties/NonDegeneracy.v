(** C76: the groups of types A and A1 have the announced order, random and
    hashed points lie in them, and the pairing is non-degenerate. *)
From Coq Require Import ZArith Znumtheory List Bool.
From Verif.Base Require Import Outcome Algebra Slots.
From Verif.Spec Require Import FiniteField Quadratic Curve Tate PairingValue HashToCurve.
From Verif.Model Require Import Curve CurveCodec Pairing PairingA PairingA1 Examples.
From Verif.Proofs Require Import NonDegenA PerfectA PairingAWitness PairingA1Witness DegenerateWitness.
Local Open Scope Z_scope.

(** The curve has exactly r h = q + 1 points (n l = p + 1 for type A1). *)
Theorem type_a_curve_order : forall (K : fld) q r h e2 e1 s1 s0, type_a K q r h e2 e1 s1 s0 ->
  exists pts : list (point K), NoDup pts /\ (forall A, In A pts <-> on_curve K f1 f0 A) /\ Z.of_nat (length pts) = r * h.
Proof. exact a_points. Qed.
Print Assumptions type_a_curve_order.
Theorem type_a1_curve_order : forall (K : fld) p n l, type_a1 K p n l ->
  exists pts : list (point K), NoDup pts /\ (forall A, In A pts <-> on_curve K f1 f0 A) /\ Z.of_nat (length pts) = n * l.
Proof. exact a1_points. Qed.
Print Assumptions type_a1_curve_order.

(** Random and hashed elements of G1, multiplied by the cofactor, are killed
    by the group order, whatever the random source and the hash. *)
Theorem type_a_random_in_group : forall (K : fld) q r h e2 e1 s1 s0, type_a K q r h e2 e1 s1 s0 ->
  forall is_sqr sqrt, good_roots K is_sqr sqrt ->
  forall xs P, random_solvefory K f1 f0 is_sqr sqrt (Some h) xs = Ok P -> torsion K f1 f0 r P.
Proof. exact a_random_in. Qed.
Print Assumptions type_a_random_in_group.
Theorem type_a_hash_in_group : forall (K : fld) q r h e2 e1 s1 s0, type_a K q r h e2 e1 s1 s0 ->
  forall sign hash is_sqr sqrt, is_sign K sign -> good_roots K is_sqr sqrt ->
  forall fuel data P, curve_from_hash K f1 f0 sign is_sqr sqrt hash fuel (Some h) data = Ok P -> torsion K f1 f0 r P.
Proof. exact a_hash_in. Qed.
Print Assumptions type_a_hash_in_group.
Theorem type_a1_random_in_group : forall (K : fld) p n l, type_a1 K p n l -> forall is_sqr sqrt, good_roots K is_sqr sqrt ->
  forall xs P, random_solvefory K f1 f0 is_sqr sqrt (Some l) xs = Ok P -> torsion K f1 f0 n P.
Proof. exact a1_random_in. Qed.
Print Assumptions type_a1_random_in_group.
Theorem type_a1_hash_in_group : forall (K : fld) p n l, type_a1 K p n l ->
  forall sign hash is_sqr sqrt, is_sign K sign -> good_roots K is_sqr sqrt ->
  forall fuel data P, curve_from_hash K f1 f0 sign is_sqr sqrt hash fuel (Some l) data = Ok P -> torsion K f1 f0 n P.
Proof. exact a1_hash_in. Qed.
Print Assumptions type_a1_hash_in_group.

(** Every element of G1 other than O pairs with some point of the curve to a
    value other than 1. *)
Theorem type_a_pairing_nondegenerate : forall (K : fld) q r h e2 e1 s1 s0, type_a K q r h e2 e1 s1 s0 ->
  forall j m P, torsion K f1 f0 r P -> P <> None ->
  exists Q v, on_curve K f1 f0 Q /\ pairing_apply (a_pairing K (Ok j) (a_info_of h e2 e1 s1) m) P Q = Ok v /\ v <> f1.
Proof. exact a_nondeg_api. Qed.
Print Assumptions type_a_pairing_nondegenerate.
Theorem type_a1_pairing_nondegenerate : forall (K : fld) p n l, type_a1 K p n l ->
  forall m P, a1_input K n P -> P <> None ->
  exists Q v, on_curve K f1 f0 Q /\ pairing_apply (a1_pairing K n l m) P Q = Ok v /\ v <> f1.
Proof. exact a1_nondeg_api. Qed.
Print Assumptions type_a1_pairing_nondegenerate.

(** When r does not divide h: G1 is cyclic, generated by any P other than O;
    the pairing on G1 x G1 is symmetric, is 1 only if an argument is O, and
    the pairing with P determines the other argument. *)
Theorem type_a_group_cyclic : forall (K : fld) q r h e2 e1 s1 s0, type_a K q r h e2 e1 s1 s0 -> ~ (r | h) ->
  forall P Q, torsion K f1 f0 r P -> torsion K f1 f0 r Q -> P <> None -> exists k, 0 <= k < r /\ Q = pzmul K f1 k P.
Proof. exact a_cyclic. Qed.
Print Assumptions type_a_group_cyclic.
Theorem type_a_pairing_perfect_partial : forall (K : fld) q r h e2 e1 s1 s0, type_a K q r h e2 e1 s1 s0 -> ~ (r | h) ->
  forall j m P Q, torsion K f1 f0 r P -> torsion K f1 f0 r Q ->
  exists v, pairing_apply (a_pairing K (Ok j) (a_info_of h e2 e1 s1) m) P Q = Ok v /\
    pairing_apply (a_pairing K (Ok j) (a_info_of h e2 e1 s1) m) Q P = Ok v /\ (v = f1 <-> P = None \/ Q = None).
Proof. exact a_perfect_api. Qed.
Print Assumptions type_a_pairing_perfect_partial.
Theorem type_a_pairing_injective_partial : forall (K : fld) q r h e2 e1 s1 s0, type_a K q r h e2 e1 s1 s0 -> ~ (r | h) ->
  forall P Q Q', torsion K f1 f0 r P -> torsion K f1 f0 r Q -> torsion K f1 f0 r Q' -> P <> None ->
  type_a_value K q r P Q = type_a_value K q r P Q' -> Q = Q'.
Proof. exact a_injective. Qed.
Print Assumptions type_a_pairing_injective_partial.
(** Nothing in the library checks that r does not divide h.  With q = 587,
    r = 7, h = 84 some P other than O pairs to 1 with all of G1. *)
Theorem type_a_pairing_perfect_refuted : exists (K : fld) q r h e2 e1 s1 s0 (P : point K),
  type_a K q r h e2 e1 s1 s0 /\ torsion K f1 f0 r P /\ P <> None /\
  forall j m Q, torsion K f1 f0 r Q -> pairing_apply (a_pairing K (Ok j) (a_info_of h e2 e1 s1) m) Q P = Ok f1.
Proof. exact degenerate_w. Qed.
Print Assumptions type_a_pairing_perfect_refuted.

(** C64, C75: consequently is_almost_coddh accepts exactly the tuples
    (P, xP, Q, xQ) and (P, xP, Q, -xQ), and bls.c accepts a random element as a
    signature only if it is the signature. *)
Theorem type_a_coddh_exact_partial : forall (K : fld) q r h e2 e1 s1 s0, type_a K q r h e2 e1 s1 s0 -> ~ (r | h) ->
  forall j m P B Q D, torsion K f1 f0 r P -> torsion K f1 f0 r B -> torsion K f1 f0 r Q -> torsion K f1 f0 r D -> P <> None -> Q <> None ->
  exists z, generic_is_almost_coddh (a_pairing K (Ok j) (a_info_of h e2 e1 s1) m) P B Q D = Ok z /\
  (z = true <-> exists x s, (s = 1 \/ s = -1) /\ B = pzmul K f1 x P /\ D = pzmul K f1 (s * x) Q).
Proof. exact a_coddh_exact. Qed.
Print Assumptions type_a_coddh_exact_partial.
Theorem type_a_bls_rejects_forgeries_partial : forall (K : fld) q r h e2 e1 s1 s0, type_a K q r h e2 e1 s1 s0 -> ~ (r | h) ->
  forall j m, let pr := pairing_apply (a_pairing K (Ok j) (a_info_of h e2 e1 s1) m) in
  let G := torsion K f1 f0 r in let L := Quad K (fopp f1) in
  forall blen enc dec sign is_sqr sqrt, is_code K blen enc dec -> is_sign K sign -> good_roots K is_sqr sqrt ->
  forall st0 g x hh rs, G hh -> G g -> g <> None -> G rs -> 0 <= x -> pzmul K f1 x hh <> None ->
  exists b, bls K K L f1 f0 f1 blen enc dec sign sqrt pr st0 g x hh rs = Ok (true, true, b) /\ (b = true <-> rs = pzmul K f1 x hh).
Proof. exact a_bls_sound. Qed.
Print Assumptions type_a_bls_rejects_forgeries_partial.

Example nondegeneracy_instance : type_a F83 83 7 12 3 1 (-1) 1 /\ ~ (7 | 12) /\ torsion F83 f1 f0 7 P83 /\ P83 <> None /\
  type_a_value F83 83 7 P83 P83 <> f1.
Proof. exact (conj type_a_83 (conj not_div_83 (conj P83_G1 (conj P83_nz self_83)))). Qed.
Example nondegeneracy_a1_instance : type_a1 F59 59 15 4 /\ a1_input F59 15 P59 /\ P59 <> None.
Proof. exact (conj type_a1_59 (conj P59_input P59_nz)). Qed.
