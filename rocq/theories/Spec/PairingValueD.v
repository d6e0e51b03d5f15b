(** What type D and G pairings compute. *)
From Coq Require Import ZArith Znumtheory.
From Verif.Base Require Import Algebra Gmp.
From Verif.Spec Require Import FiniteField Quadratic Polynomials Extension Curve Twist PairingValue.
Local Open Scope Z_scope.

(** The constants of K[X]/(m). *)
Definition const (K : fld) (n : nat) (m : list K) (c : K) : Ext K n m := mkvec n (fun i => if Nat.eqb i 0 then c else f0).
(** E : Y^2 = X^3 + aX + b over K = F_q; F_{q^n} = K[X]/(m), n odd;
    F_{q^2n} = F_{q^n}(sqrt c) where c is not a square in K; r is an odd prime
    and the embedding degree of E is 2n. *)
Record type_dg (K : fld) (n : nat) (m : list K) (c a b : K) (q r : Z) : Prop := {
  dg_q : prime q; dg_q3 : 3 < q; dg_field : fld_laws K; dg_order : has_order K q;
  dg_n : (2 <= n)%nat; dg_odd : Nat.odd n = true; dg_monic : monic m n; dg_irred : irreducible m;
  dg_c : ~ is_square c; dg_ell : elliptic K a b;
  dg_r : prime r; dg_r2 : 2 < r; dg_deg : (r | q ^ Z.of_nat n + 1) }.
(** Type D has k = 2n, usually 6, and then r divides the sixth cyclotomic
    polynomial at q; type G has n = 5 and the tenth. *)
Definition type_d (K : fld) (n : nat) (m : list K) (c a b : K) (q r : Z) : Prop :=
  type_dg K n m c a b q r /\ (n = 3%nat -> (r | q * q - q + 1)).
Definition type_g (K : fld) (m : list K) (c a b : K) (q r : Z) : Prop :=
  type_dg K 5 m c a b q r /\ (r | 1 - q + q * q - q * q * q + q * q * q * q).
(** The second argument is a point of the twist of E by c over F_{q^n}; the
    value is the Tate pairing on E over F_{q^2n}. *)
Definition on_twist (K : fld) (n : nat) (m : list K) (c a b : K) (Q : point (Ext K n m)) : Prop :=
  let v := const K n m c in
  on_curve (Ext K n m) (fmul (fmul (const K n m a) v) v) (fmul (fmul (fmul (const K n m b) v) v) v) Q.
Definition dg_value (K : fld) (n : nat) (m : list K) (c a : K) (q r : Z) (P : point K) (Q : point (Ext K n m)) : Quad (Ext K n m) (const K n m c) :=
  twisted_value (const K n m) (const K n m c) a r ((q ^ (2 * Z.of_nat n) - 1) / r) P Q.
(** r is not 2^s - 1. *)
Definition not_all_ones (r : Z) : Prop := r + 1 <> 2 ^ sizeinbase2 r.
