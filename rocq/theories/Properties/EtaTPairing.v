(** C47: the towers over GF(3^m) and the eta_T pairing of type I.

    [holds m t e x]: the stored element e stands for x in GF(3)[X]/(X^m+X^t+2);
    [holds2], [holds3], [holds6] the same for K[i]/(i^2+1), K[z]/(z^3-z-1) and
    K[i]/(i^2+1)[z]/(z^3-z-1); [returns h r x]: the call r returns and its
    result stores x (Spec/TernaryValues.v).  [eta_T], [eta_M] and [eta_N] are
    the pairing formula, the final exponent and the number of points of
    y^2 = x^3 - x + 1 (Spec/EtaT.v). *)
From Coq Require Import ZArith List Bool.
From Verif.Base Require Import Outcome Algebra.
From Verif.Spec Require Import FiniteField Polynomials Extension Ternary TernaryTower TernaryValues EtaT.
From Verif.Model Require Import GF3m GF3Tower EtaT3.
From Verif.Proofs Require Import GF3mMain EtaMain.
Open Scope nat_scope.

(** m as in every generated parameter: odd, no multiple of 3, irreducible trinomial. *)
Definition type_i_field (m t : nat) (p : params) : Prop :=
  dims m t /\ field_init_gf3m (Z.of_nat m) (Z.of_nat t) = Ok p /\ irreducible (trinomial m t) /\ Nat.odd m = true /\ m mod 3 <> 0.

Theorem towers_are_fields : forall m t p, type_i_field m t p -> let K := GF3m m t in
  (fld_laws (GF32m K) /\ has_order (GF32m K) (3 ^ Z.of_nat (2 * m))) /\ (fld_laws (GF33m K) /\ has_order (GF33m K) (3 ^ Z.of_nat (3 * m))) /\
  (fld_laws (GF36m K) /\ has_order (GF36m K) (3 ^ Z.of_nat (6 * m))).
Proof. intros m t p (D & _ & I & O & N). exact (fields m t D I O N). Qed.
Print Assumptions towers_are_fields.

Theorem gf32m_operations : forall m t p, type_i_field m t p -> forall a b x y, holds2 m t p a x -> holds2 m t p b y ->
  let h := holds2 m t p in let F := gf3m_ops p in
  returns h (gf32m_set0 F) f0 /\ returns h (gf32m_set1 F) f1 /\
  returns h (gf32m_add F a b) (fadd x y) /\ returns h (gf32m_sub F a b) (fsub x y) /\ returns h (gf32m_mult F a b) (fmul x y) /\
  (forall inplace, returns h (gf32m_neg F inplace a) (fopp x)) /\ returns h (gf32m_cubic F a) (fmul x (fmul x x)) /\
  exists r, gf32m_cmp F a b = Ok r /\ (r = 0%Z <-> x = y).
Proof. intros m t p (D & E & I & _). exact (ops2 m t p D E I). Qed.
Print Assumptions gf32m_operations.

Theorem gf33m_operations : forall m t p, type_i_field m t p -> forall a b x y, holds3 m t p a x -> holds3 m t p b y ->
  let h := holds3 m t p in let F := gf3m_ops p in
  returns h (gf33m_set0 F) f0 /\ returns h (gf33m_set1 F) f1 /\
  returns h (gf33m_add F a b) (fadd x y) /\ returns h (gf33m_sub F a b) (fsub x y) /\ returns h (gf33m_mult F a b) (fmul x y) /\
  returns h (gf33m_cubic F a) (fmul x (fmul x x)) /\ (x <> f0 -> returns h (gf33m_invert F a) (finv x)) /\
  exists r, gf33m_cmp F a b = Ok r /\ (r = 0%Z <-> x = y).
Proof. intros m t p (D & E & I & _ & N). exact (ops3 m t p D E I N). Qed.
Print Assumptions gf33m_operations.

(** GF(3^6m), which holds GT: the same code on top of gf32m. *)
Theorem gf36m_operations : forall m t p, type_i_field m t p -> forall a b x y, holds6 m t p a x -> holds6 m t p b y ->
  let h := holds6 m t p in let F := gf32m_ops (gf3m_ops p) in
  returns h (gf33m_set0 F) f0 /\ returns h (gf33m_set1 F) f1 /\
  returns h (gf33m_add F a b) (fadd x y) /\ returns h (gf33m_sub F a b) (fsub x y) /\ returns h (gf33m_mult F a b) (fmul x y) /\
  returns h (gf33m_cubic F a) (fmul x (fmul x x)) /\ exists r, gf33m_cmp F a b = Ok r /\ (r = 0%Z <-> x = y).
Proof. intros m t p (D & E & I & O & _). exact (ops6 m t p D E I O). Qed.
Print Assumptions gf36m_operations.

(** Inversion there calls the inversion of gf32m, which is never set: for
    every element, so element_invert, element_div and element_neg on GT of a
    type I pairing have no defined behaviour. *)
Theorem gf36m_inversion_refuted : forall m t p, type_i_field m t p -> forall a x, holds6 m t p a x -> gf33m_invert (gf32m_ops (gf3m_ops p)) a = UB.
Proof. intros m t p (D & E & I & _). exact (inv_ub m t p D E I). Qed.
Print Assumptions gf36m_inversion_refuted.

(** The final exponentiation. *)
Theorem algorithm6_correct : forall m t p, type_i_field m t p -> forall a x, holds6 m t p a x -> x <> f0 ->
  returns (holds6 m t p) (algorithm6 (gf3m_ops p) a) (fpow x (3 ^ Z.of_nat (3 * m) - 1)).
Proof. intros m t p (D & E & I & O & N). exact (alg6 m t p D E I O N). Qed.
Print Assumptions algorithm6_correct.
Theorem algorithm7_correct : forall m t p, type_i_field m t p -> forall a x, holds6 m t p a x -> fmul x (fpow x (3 ^ Z.of_nat (3 * m))) = f1 ->
  returns (holds6 m t p) (algorithm7 (gf3m_ops p) (Z.of_nat m) a) (fpow x (3 ^ Z.of_nat m + 1)).
Proof. intros m t p (D & E & I & O & N). exact (alg7 m t p D E I O N). Qed.
Print Assumptions algorithm7_correct.
Theorem algorithm8_correct : forall m t p, type_i_field m t p -> forall a x, holds6 m t p a x -> x <> f0 ->
  returns (holds6 m t p) (algorithm8 (gf3m_ops p) (Z.of_nat m) a) (fpow x (eta_M m)).
Proof. intros m t p (D & E & I & O & N). exact (alg8 m t p D E I O N). Qed.
Print Assumptions algorithm8_correct.

(** The whole pairing of two points: both loops give the same formula, and
    the value to the number of points is 1. *)
Theorem eta_T_pairing_correct : forall m t p, type_i_field m t p -> forall a b c d (xp yp xq yq : GF3m m t),
  holds m t a xp -> holds m t b yp -> holds m t c xq -> holds m t d yq -> on_ternary_curve (GF3m m t) xp yp ->
  returns (holds6 m t p) (eta_T_pairing (gf3m_ops p) (Z.of_nat m) (Some (a, b)) (Some (c, d))) (eta_T (GF3m m t) m xp yp xq yq) /\
  fpow (eta_T (GF3m m t) m xp yp xq yq) (eta_N m) = f1.
Proof. intros m t p (D & E & I & O & N). exact (eta_ok m t p D E I O N). Qed.
Print Assumptions eta_T_pairing_correct.
Theorem eta_T_pairing_identity : forall m t p, type_i_field m t p -> forall P,
  returns (holds6 m t p) (eta_T_pairing (gf3m_ops p) (Z.of_nat m) None P) f1 /\
  returns (holds6 m t p) (eta_T_pairing (gf3m_ops p) (Z.of_nat m) P None) f1.
Proof. intros m t p (D & E & I & O & N). exact (eta_inf m t p D E I O). Qed.
Print Assumptions eta_T_pairing_identity.

(** m = 5: a field, two points, and the value of their pairing, which is not 1. *)
Example type_i_5 : exists p, type_i_field 5 4 p /\ holds 5 4 zero5 f0 /\ holds 5 4 one5 f1 /\
  on_ternary_curve (GF3m 5 4) f0 f1 /\ on_ternary_curve (GF3m 5 4) f1 f1 /\
  eta_T_pairing (gf3m_ops p) 5 (Some (zero5, one5)) (Some (one5, one5)) = Ok (mk6 (gf3m_ops p) two5 two5 two5 zero5 two5 one5).
Proof.
  destruct eta5 as (p & E & V). exists p. split; [ | split; [exact (proj1 holds5) | split; [exact (proj2 holds5) | split; [exact (proj1 curve5) | split; [exact (proj2 curve5) | exact V]]]]].
  split; [exact dims5 | split; [exact E | split; [exact tri5_irr | split; [reflexivity | discriminate]]]].
Qed.
Print Assumptions type_i_5.
