(** C48, C39: every type I parameter set the library generates gives a field
    GF(3^m), and the pairing over it is bilinear and maps into the n-th roots
    of unity.

    [i_gen g]: the parameters chosen for a group of at least g bits (m, t, n and
    the cofactor n2).  [type_i_field] (Properties/EtaTPairing.v) contains the
    irreducibility of x^m + x^t + 2; [holds_curve_point m t P a A]: a stores the
    point A of y^2 = x^3 - x + 1. *)
From Coq Require Import ZArith List Bool.
From Verif.Base Require Import Outcome Algebra.
From Verif.Spec Require Import FiniteField Polynomials Ternary EtaT TernaryPoints ParamEqs.
From Verif.Model Require Import GF3m GF3Tower EtaT3 PairingI ParamGen.
From Verif.Proofs Require Import GF3mMain EtaMain ParamGenFacts RabinTable PairingIGen.
From Verif.Properties Require Import EtaTPairing PairingsI.
Open Scope Z_scope.

Theorem i_gen_type_i_field : forall g p, i_gen g = Ok p -> exists P, type_i_field (Z.to_nat (i_m p)) (Z.to_nat (i_t p)) P.
Proof. exact i_gen_field. Qed.
Print Assumptions i_gen_type_i_field.

(** The trinomials written in the library. *)
Theorem i_gen_irreducible : forall g p, i_gen g = Ok p -> irreducible (trinomial (Z.to_nat (i_m p)) (Z.to_nat (i_t p))).
Proof. exact i_gen_irr. Qed.
Print Assumptions i_gen_irreducible.

(** With generated parameters: initialisation succeeds, n2 times any point of
    the curve is killed by n, pairing values have order dividing the number of
    points n n2, and pairing is bilinear. *)
Theorem i_gen_pairing : forall g p, i_gen g = Ok p -> let m := Z.to_nat (i_m p) in let t := Z.to_nat (i_t p) in
  exists P, field_init_gf3m (i_m p) (i_t p) = Ok P /\
    (forall a A, holds_curve_point m t P a A -> exists b B, i_point_pow P a (i_n2 p) = Ok b /\ holds_curve_point m t P b B /\ i_point_pow P b (i_n p) = Ok None) /\
    (forall a b A B i j, holds_curve_point m t P a A -> holds_curve_point m t P b B -> 0 <= i -> 0 <= j ->
       exists ai bj v w, i_point_pow P a i = Ok ai /\ i_point_pow P b j = Ok bj /\ i_pairing P a b = Ok v /\ i_gt_pow P v (i * j) = Ok w /\
         i_pairing P ai bj = Ok w) /\
    (forall a b A B, holds_curve_point m t P a A -> holds_curve_point m t P b B -> i_point_pow P a (i_n p) = Ok None ->
       exists v one, i_pairing P a b = Ok v /\ i_gt_one P = Ok one /\ i_gt_pow P v (i_n p) = Ok one).
Proof. exact i_gen_pairing_ok. Qed.
Print Assumptions i_gen_pairing.
Example i_gen_applies : exists p, i_gen 160 = Ok p /\ i_m p = 199 /\ i_t p = 164.
Proof. eexists. split; [reflexivity | split; reflexivity]. Qed.
