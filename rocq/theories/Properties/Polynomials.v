(** C20, C21, C22, C23: polynomials and polynomial extension fields. *)
From Coq Require Import ZArith List Bool Arith.
From Verif.Base Require Import Outcome Algebra Slots.
From Verif.Spec Require Import FiniteField FieldCalls Polynomials PolynomialCalls Extension ExtensionRuns.
From Verif.Model Require Import Poly Polymod.
From Verif.Proofs Require Import ZpField QuadWitness PolyFacts PolyRuns PolyBytes ExtFacts PolymodRuns PolyWitness.
Import ListNotations.
Open Scope nat_scope.

(** C20, C21: a history of calls on normalised polynomials does what the
    specification says, whatever arguments coincide, and leaves every
    polynomial normalised.  [fits] excludes multiplication by an integer that
    is zero in the field, doubling in characteristic two, and poly_div with
    the quotient and the remainder in the same variable. *)
Theorem polynomial_histories_exact_partial : forall (K : fld), fld_laws K ->
  forall (h : list (pcall K)) (st : nat -> list K), (forall v, normal (st v)) -> Forall (fits K) h ->
  exists N r, (forall fuel, N <= fuel -> p_run K fuel st h = r) /\ pspec_run K st h r /\
  forall t os, r = Ok (t, os) -> forall v, normal (t v).
Proof. exact p_run_ok. Qed.
Print Assumptions polynomial_histories_exact_partial.

Example polynomial_histories_example : Forall (fits Z3) phist /\
  match p_run Z3 10 pst0 phist with
  | Ok (_, [OBool true; ODegree 3; OBool false; ODegree 0; OCoeff c]) => zval 3 c = 2%Z
  | _ => False
  end.
Proof. exact poly_history_witness. Qed.

(** C20 is false for the excluded calls: the result is 0 but is0 says no and
    the degree is 1. *)
Theorem polynomial_mul_si_normal_refuted :
  match p_run Z3 0 pst0 [PMulZ 1 1 3; PDegree 1; PIs0 1] with
  | Ok (t, [ODegree 1; OBool false]) => map (zval 3) (t 1) = [0; 0]%Z
  | _ => False
  end.
Proof. exact mulz_witness. Qed.
Print Assumptions polynomial_mul_si_normal_refuted.
Theorem polynomial_double_normal_refuted :
  match p_run Z2 0 pst2 [PDbl 0 0; PDegree 0; PIs0 0] with
  | Ok (t, [ODegree 1; OBool false]) => map (zval 2) (t 0) = [0; 0]%Z
  | _ => False
  end.
Proof. exact dbl_witness. Qed.
Print Assumptions polynomial_double_normal_refuted.

(** C20: decoding.  What poly_to_bytes wrote is read back (fewer than 65536
    coefficients); other data may give an unnormalised polynomial. *)
Theorem polynomial_bytes_round_trip : forall (K : fld) (blen : nat) (enc : K -> list Z) (dec : list Z -> K),
  (forall x, length (enc x) = blen) -> (forall x, dec (enc x) = x) ->
  forall f rest, (Z.of_nat (length f) < 65536)%Z ->
  poly_from_bytes K blen dec (poly_to_bytes K enc f ++ rest) = Ok (f, length (poly_to_bytes K enc f)).
Proof. exact poly_bytes_round_trip. Qed.
Print Assumptions polynomial_bytes_round_trip.
Example polynomial_bytes_example : forall x, dec3 (enc3 x) = x.
Proof. exact dec_enc3. Qed.
Theorem polynomial_from_bytes_normal_refuted : 
  poly_from_bytes Z3 1 dec3 [2; 0; 1; 0]%Z = Ok (z3l [1; 0]%Z, 4) /\ ~ normal (z3l [1; 0]%Z).
Proof. exact from_bytes_witness. Qed.
Print Assumptions polynomial_from_bytes_normal_refuted.

(** C21: inversion modulo m of a polynomial with which m has only constant
    common divisors. *)
Theorem polynomial_inversion_exact : forall (K : fld), fld_laws K -> forall f m : list K,
  normal f -> normal m -> f <> [] -> length f < length m ->
  (forall d, divides d f -> divides d m -> constant d) ->
  exists g, (forall fuel, length m <= fuel -> poly_invert K fuel f m = Ok g) /\
  normal g /\ length g < length m /\ cong m (PolyAlgebra.mulp K g f) [f1].
Proof. exact poly_invert_ok. Qed.
Print Assumptions polynomial_inversion_exact.
Theorem polynomial_product_coefficients : forall (K : fld), fld_laws K -> forall (f g : list K) i, coef (PolyAlgebra.mulp K f g) i = conv f g i.
Proof. exact PolyAlgebra.coef_mulp. Qed.
Print Assumptions polynomial_product_coefficients.

(** C22: for every monic m of degree n > 0 (irreducible or not), element_mul
    and element_square leave the product reduced modulo m, of degree less
    than n, for any coincidence of the arguments. *)
Theorem polymod_mul_exact : forall (K : fld), fld_laws K -> forall n m, monic m n -> 0 < n ->
  forall (s : store K) (r a b : nat),
  exists s' h, run (pm_mul K n (xpwr K n m) (Reg r) (Reg a) (Reg b)) s = Ok s' /\
  (forall i, conv (map (fun i => s (Reg a, i)) (seq 0 n)) (map (fun i => s (Reg b, i)) (seq 0 n)) i =
             fadd (coef (map (fun i => s' (Reg r, i)) (seq 0 n)) i) (conv h m i)) /\
  forall k i, k <> r -> s' (Reg k, i) = s (Reg k, i).
Proof. exact mul_exact. Qed.
Print Assumptions polymod_mul_exact.
Theorem polymod_square_exact : forall (K : fld), fld_laws K -> forall n m, monic m n -> 0 < n ->
  forall (s : store K) (r a : nat),
  exists s' h, run (pm_square K n (xpwr K n m) (Reg r) (Reg a)) s = Ok s' /\
  (forall i, conv (map (fun i => s (Reg a, i)) (seq 0 n)) (map (fun i => s (Reg a, i)) (seq 0 n)) i =
             fadd (coef (map (fun i => s' (Reg r, i)) (seq 0 n)) i) (conv h m i)) /\
  forall k i, k <> r -> s' (Reg k, i) = s (Reg k, i).
Proof. exact square_exact. Qed.
Print Assumptions polymod_square_exact.
Example polymod_mul_example : monic (z3l [0; 0; 0; 0; 0; 0; 1]%Z) 6.
Proof. exact z3_pol. Qed.

(** C22, C23: K[X]/(m) is a field when m is irreducible, with q^n elements. *)
Theorem extension_is_field : forall (K : fld), fld_laws K -> forall n m, monic m n -> 0 < n -> irreducible m -> fld_laws (Ext K n m).
Proof. exact Ext_laws. Qed.
Print Assumptions extension_is_field.
Theorem extension_order : forall (K : fld) n m q, has_order K q -> has_order (Ext K n m) (q ^ Z.of_nat n)%Z.
Proof. exact Ext_order. Qed.
Print Assumptions extension_order.

(** C22, C23: every history of calls (registers may coincide) is answered as
    in that field; dividing by zero stops in pbc_die. *)
Theorem polymod_histories_exact : forall (K : fld), fld_laws K -> forall n m, monic m n -> 0 < n -> irreducible m ->
  forall fuel, length m <= fuel ->
  forall (h : list fcall) (s : store K) (v : nat -> Ext K n m), (forall k, v k = mkvec n (fun i => s (Reg k, i))) ->
  session K n m (pm_run K n m fuel s h) (frun (Ext K n m) v h).
Proof. exact pm_run_ok. Qed.
Print Assumptions polymod_histories_exact.
Example polymod_histories_example :
  monic m3 3 /\ irreducible m3 /\
  match pm_run Z3 3 m3 4 (start Z3 (zmk 3 lt3)) [FMul 0 0 1; FSqr 1 1; FInv 2 0; FMul 2 2 0; FIs1 2; FDiv 0 0 1; FMul 0 0 1; FHalve 0 0; FDbl 0 0; FMulZ 1 1 (-2); FCmp 0 1; FValue 0; FValue 1] with
  | Ok [Datatypes.inl true; Datatypes.inl true; Datatypes.inr a; Datatypes.inr b] => (vals a, vals b) = ([1; 2; 1], [1; 2; 2])%Z
  | _ => False
  end.
Proof. exact polymod_witness. Qed.
Example polymod_zero_example : pm_run Z3 3 m3 4 (start Z3 (zmk 3 lt3)) [FSet0 0; FInv 1 0] = Die.
Proof. exact polymod_invert_zero. Qed.
