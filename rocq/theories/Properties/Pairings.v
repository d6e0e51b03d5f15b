(** C31-C34, C39, C53, C58, C64: type A pairings and GT.  The value of a
    pairing is the reduced Tate pairing of Spec/Tate.v, see
    Spec/PairingValue.v.  [Ok j] is whatever the base field returns for the
    inverse of zero, which the final powering may ask for. *)
From Coq Require Import ZArith Znumtheory List Bool.
From Verif.Base Require Import Outcome Algebra.
From Verif.Spec Require Import FiniteField Quadratic Curve Tate Twist PairingValue.
From Verif.Model Require Import Lucas Pairing PairingA GT.
From Verif.Proofs Require Import QuadFacts LucasFacts PairingAApi PairingAWitness GTFacts.
Import ListNotations.
Open Scope Z_scope.

(** C31: with both Miller methods, the pairing is the Tate pairing of P and
    the image of Q, for all P in G1 and all points Q of the curve. *)
Theorem type_a_pairing_is_tate : forall (K : fld) q r h e2 e1 s1 s0, type_a K q r h e2 e1 s1 s0 ->
  forall (j : K) (method : a_method) P Q, torsion K f1 f0 r P -> on_curve K f1 f0 Q ->
  pairing_apply (a_pairing K (Ok j) (a_info_of h e2 e1 s1) method) P Q = Ok (type_a_value K q r P Q).
Proof. exact apply_value. Qed.
Print Assumptions type_a_pairing_is_tate.
(** C31, C53: so is the preprocessed pairing; preprocessing and its uses stay
    inside the table (an access outside an array or to a triple never written
    would be [UB]), whose size is the one allocated. *)
Theorem type_a_preprocessed_is_tate : forall (K : fld) q r h e2 e1 s1 s0, type_a K q r h e2 e1 s1 s0 ->
  forall (j : K) (method : a_method) P, torsion K f1 f0 r P ->
  exists pp, pairing_pp_init (a_pairing K (Ok j) (a_info_of h e2 e1 s1) method) P = Ok pp /\
  forall Q, on_curve K f1 f0 Q ->
  pairing_pp_apply (a_pairing K (Ok j) (a_info_of h e2 e1 s1) method) Q pp = Ok (type_a_value K q r P Q).
Proof. exact pp_value. Qed.
Print Assumptions type_a_preprocessed_is_tate.
Theorem type_a_table_size : forall (K : fld) q r h e2 e1 s1 s0, type_a K q r h e2 e1 s1 s0 ->
  forall (j : K) (method : a_method) P t, torsion K f1 f0 r P ->
  pairing_pp_init (a_pairing K (Ok j) (a_info_of h e2 e1 s1) method) P = Ok (Some t) -> length t = Z.to_nat (e2 + 1).
Proof. exact pp_table. Qed.
Print Assumptions type_a_table_size.

(** C32: its r-th power is 1. *)
Theorem type_a_value_order : forall (K : fld) q r h e2 e1 s1 s0, type_a K q r h e2 e1 s1 s0 ->
  forall P Q, torsion K f1 f0 r P -> on_curve K f1 f0 Q -> fpow (type_a_value K q r P Q) r = f1.
Proof. exact value_r. Qed.
Print Assumptions type_a_value_order.

(** C33: the Lucas ladders raise every element of norm 1 to the given power,
    even for types A, odd for types D and G. *)
Theorem lucas_odd_is_power : forall (K : fld), fld_laws K -> forall d : K, ~ is_square d -> (fadd f1 f1 : K) <> f0 ->
  forall (x : Quad K d) inv0 j k, qnorm K d x = f1 -> (snd x <> f0 \/ inv0 = Ok j) -> 0 < k -> Z.even k = true ->
  lucas_odd K d inv0 x k = Ok (fpow x k).
Proof. exact lucas_odd_correct. Qed.
Print Assumptions lucas_odd_is_power.
Theorem lucas_even_d_is_power : forall (K : fld), fld_laws K -> forall d : K, ~ is_square d -> (fadd f1 f1 : K) <> f0 ->
  forall (x : Quad K d) inv0 j k, qnorm K d x = f1 -> (snd x <> f0 \/ x = f1 \/ inv0 = Ok j) -> 0 < k -> Z.odd k = true ->
  lucas_even K d inv0 x k = Ok (fpow x k).
Proof. exact lucas_even_correct. Qed.
Print Assumptions lucas_even_d_is_power.
Theorem lucas_even_g_is_power : forall (K : fld), fld_laws K -> forall d : K, ~ is_square d -> (fadd f1 f1 : K) <> f0 ->
  forall (x : Quad K d) inv0 j k, qnorm K d x = f1 -> (snd x <> f0 \/ inv0 = Ok j) -> 0 < k -> Z.odd k = true ->
  lucas_even_core K d inv0 x k = Ok (fpow x k).
Proof. exact lucas_even_core_correct. Qed.
Print Assumptions lucas_even_g_is_power.
(** The whole final powering of type A, for every nonzero element. *)
Theorem type_a_final_powering : forall (K : fld), fld_laws K -> forall p m, prime p -> 2 < p -> 0 <= m -> has_order K (p ^ m) ->
  forall d : K, ~ is_square d -> forall (x : Quad K d) j k, (fadd f1 f1 : K) <> f0 -> x <> f0 -> 0 < k -> Z.even k = true ->
  a_tateexp K d (Ok j) x k = Ok (fpow x ((p ^ m - 1) * k)).
Proof. exact tateexp_correct. Qed.
Print Assumptions type_a_final_powering.

(** C34: the identity. *)
Theorem type_a_identity : forall (K : fld) q r h e2 e1 s1 s0, type_a K q r h e2 e1 s1 s0 ->
  forall P Q, type_a_value K q r None Q = f1 /\ type_a_value K q r P None = f1.
Proof. intros K q r h e2 e1 s1 s0 T P Q. exact (conj (value_0l K q r h e2 e1 s1 s0 T Q) (value_0r K q r h e2 e1 s1 s0 T P)). Qed.
Print Assumptions type_a_identity.
(** C34: products of n >= 1 pairings.  Missing: inputs among which the
    identity occurs, for which the claim is false. *)
Theorem type_a_product_partial : forall (K : fld) q r h e2 e1 s1 s0, type_a K q r h e2 e1 s1 s0 ->
  forall (j : K) (method : a_method) in1 in2, length in1 = length in2 -> in1 <> [] ->
  Forall (torsion K f1 f0 r) in1 -> Forall (on_curve K f1 f0) in2 -> Forall (fun P => P <> None) in1 -> Forall (fun Q => Q <> None) in2 ->
  element_prod_pairing (a_pairing K (Ok j) (a_info_of h e2 e1 s1) method) in1 in2 (length in1) =
    Ok (gprod (map (fun pq => type_a_value K q r (fst pq) (snd pq)) (combine in1 in2))).
Proof. exact prod_value_ok. Qed.
Print Assumptions type_a_product_partial.
Theorem type_a_product_identity_gives_1 : forall (K : fld) h e2 e1 s1 (j : K) (method : a_method) in1 in2 i P Q,
  length in1 = length in2 -> nth_error in1 i = Some P -> nth_error in2 i = Some Q -> P = None \/ Q = None ->
  element_prod_pairing (a_pairing K (Ok j) (a_info_of h e2 e1 s1) method) in1 in2 (length in1) = Ok f1.
Proof. exact prod_identity. Qed.
Print Assumptions type_a_product_identity_gives_1.
Theorem product_with_identity_refuted : exists (K : fld) q r h e2 e1 s1 s0 in1 in2, type_a K q r h e2 e1 s1 s0 /\
  Forall (torsion K f1 f0 r) in1 /\ Forall (on_curve K f1 f0) in2 /\ length in1 = length in2 /\ forall j method,
  element_prod_pairing (a_pairing K (Ok j) (a_info_of h e2 e1 s1) method) in1 in2 (length in1) <>
    Ok (gprod (map (fun pq => type_a_value K q r (fst pq) (snd pq)) (combine in1 in2))).
Proof. exact prod_refuted. Qed.
Print Assumptions product_with_identity_refuted.
(** The empty product is undefined. *)
Theorem empty_product_refuted : forall j method, element_prod_pairing (a_pairing F83 (Ok j) info83 method) [] [] 0 = UB.
Proof. exact prod_empty. Qed.
Print Assumptions empty_product_refuted.

(** C39: bilinearity, for all integers. *)
Theorem type_a_bilinear : forall (K : fld) q r h e2 e1 s1 s0, type_a K q r h e2 e1 s1 s0 ->
  forall m n P Q, torsion K f1 f0 r P -> on_curve K f1 f0 Q ->
  type_a_value K q r (pzmul K f1 m P) (pzmul K f1 n Q) = fpow (type_a_value K q r P Q) ((m * n) mod r).
Proof. exact value_bilinear. Qed.
Print Assumptions type_a_bilinear.
(** It is additive in each argument. *)
Theorem type_a_additive : forall (K : fld) q r h e2 e1 s1 s0, type_a K q r h e2 e1 s1 s0 ->
  forall P P' Q Q', torsion K f1 f0 r P -> torsion K f1 f0 r P' -> on_curve K f1 f0 Q -> on_curve K f1 f0 Q' ->
  type_a_value K q r (padd K f1 P P') Q = fmul (type_a_value K q r P Q) (type_a_value K q r P' Q) /\
  type_a_value K q r P (padd K f1 Q Q') = fmul (type_a_value K q r P Q) (type_a_value K q r P Q').
Proof. exact value_additive. Qed.
Print Assumptions type_a_additive.

(** C64: is_almost_coddh accepts (P, xP, Q, xQ) and (P, xP, Q, -xQ), and
    accepts only when the two pairing values are equal or inverse. *)
Theorem coddh_accepts : forall (K : fld) q r h e2 e1 s1 s0, type_a K q r h e2 e1 s1 s0 ->
  forall (j : K) (method : a_method) P Q x s, torsion K f1 f0 r P -> on_curve K f1 f0 Q -> s = 1 \/ s = -1 ->
  generic_is_almost_coddh (a_pairing K (Ok j) (a_info_of h e2 e1 s1) method) P (pzmul K f1 x P) Q (pzmul K f1 (s * x) Q) = Ok true.
Proof. exact coddh_complete. Qed.
Print Assumptions coddh_accepts.
Theorem coddh_decides : forall (K : fld) q r h e2 e1 s1 s0, type_a K q r h e2 e1 s1 s0 ->
  forall (j : K) (method : a_method) P B Q D, torsion K f1 f0 r P -> torsion K f1 f0 r B -> on_curve K f1 f0 Q -> on_curve K f1 f0 D ->
  exists b, generic_is_almost_coddh (a_pairing K (Ok j) (a_info_of h e2 e1 s1) method) P B Q D = Ok b /\
  (b = true <-> type_a_value K q r P D = type_a_value K q r B Q \/ fmul (type_a_value K q r P D) (type_a_value K q r B Q) = f1).
Proof. exact coddh_spec. Qed.
Print Assumptions coddh_decides.

(** An instance, with a pairing value other than 1. *)
Example type_a_example : type_a F83 83 7 12 3 1 (-1) 1 /\ torsion F83 f1 f0 7 P83 /\ on_curve F83 f1 f0 Q83 /\ type_a_value F83 83 7 P83 Q83 <> f1.
Proof. exact (conj type_a_83 (conj P83_G1 (conj Q83_on value_not_1))). Qed.

(** C58: the operations of GT. *)
Theorem gt_is_multiplicative : forall (T : fld), fld_laws T -> forall (a b : T) n, b <> f0 -> 0 <= n ->
  gt_add T a b = fmul a b /\ gt_mul T a b = fmul a b /\
  gt_sub T a b = Ok (fdiv a b) /\ gt_div T a b = Ok (fdiv a b) /\
  gt_neg T b = Ok (finv b) /\ gt_invert T b = Ok (finv b) /\
  gt_double T a = fmul a a /\ gt_square T a = fmul a a /\
  gt_mul_zn T a n = Ok (fpow a n) /\ gt_pow_zn T a n = Ok (fpow a n) /\
  gt_mul_mpz T a n = Ok (fpow a n) /\ gt_pow_mpz T a n = Ok (fpow a n) /\
  (gt_is0 T a = true <-> a = gt_set0 T) /\ (gt_is1 T a = true <-> a = gt_set1 T) /\ gt_set0 T = f1.
Proof. exact gt_operations. Qed.
Print Assumptions gt_is_multiplicative.
(** They stay within the r-th roots of unity and satisfy the group laws. *)
Theorem gt_roots_closed : forall (T : fld), fld_laws T -> forall r (a b : T) n, 0 < r -> 0 <= n -> fpow a r = f1 -> fpow b r = f1 ->
  fpow (gt_add T a b) r = f1 /\ fpow (gt_set0 T) r = f1 /\ (exists u, gt_neg T a = Ok u /\ fpow u r = f1 /\ gt_add T a u = gt_set0 T) /\
  (exists u, gt_sub T a b = Ok u /\ fpow u r = f1 /\ gt_add T u b = a) /\
  (exists u, gt_mul_mpz T a n = Ok u /\ fpow u r = f1 /\ gt_mul_mpz T a (n mod r) = Ok u).
Proof. exact gt_closed. Qed.
Print Assumptions gt_roots_closed.
(** Random and hashed elements of the GT of type A are roots of unity, unless
    the field element drawn is zero. *)
Theorem gt_random_in_group_partial : forall (K : fld) q r h e2 e1 s1 s0, type_a K q r h e2 e1 s1 s0 ->
  forall (j : K) (e : Quad K (fopp f1)), e <> f0 ->
  exists u, gt_random _ (tateexp K (Ok j) (a_info_of h e2 e1 s1)) e = Ok u /\ fpow u r = f1.
Proof. exact gt_finalpow. Qed.
Print Assumptions gt_random_in_group_partial.
(** C58 is false for mul_si (and halve, add_ui): they return their argument. *)
Theorem gt_mul_si_returns_argument : forall (T : fld), fld_laws T -> forall (a : T) n,
  gt_mul_si T a n = a /\ gt_halve T a = Ok a /\ gt_add_ui T a n = a.
Proof. exact gt_small_scalars_ignored. Qed.
Print Assumptions gt_mul_si_returns_argument.
Theorem gt_mul_si_refuted : exists (T : fld) (a : T) r, fld_laws T /\ 0 < r /\ fpow a r = f1 /\
  gt_mul_si T a 2 <> gt_double T a /\ gt_halve T (gt_double T a) <> Ok a.
Proof. exact gt_refuted. Qed.
Print Assumptions gt_mul_si_refuted.
