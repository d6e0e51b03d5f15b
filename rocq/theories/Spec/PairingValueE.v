(** What a type E pairing computes: embedding degree one, the functions taken
    at the divisor (Q + R) - (R). *)
From Coq Require Import ZArith Znumtheory.
From Verif.Base Require Import Algebra.
From Verif.Spec Require Import FiniteField Curve Tate PairingValue.
Local Open Scope Z_scope.

(** Type E parameters: q prime, Y^2 = X^3 + aX + b over K = F_q, r prime with
    r | q - 1 and r = 2^e2 + s1 2^e1 + s0 (s0, s1 = 1 or -1).  As for type A
    r > 5, or the chord in the last step is a tangent. *)
Record type_e (K : fld) (a b : K) (q r e2 e1 s1 s0 : Z) : Prop := {
  te_q : prime q; te_field : fld_laws K; te_order : has_order K q; te_curve : elliptic K a b;
  te_r : prime r; te_big : 5 < r; te_div : (r | q - 1);
  te_exp : 0 <= e1 < e2; te_s1 : s1 = 1 \/ s1 = -1; te_s0 : s0 = 1 \/ s0 = -1;
  te_solinas : r = 2 ^ e2 + s1 * 2 ^ e1 + s0 }.
(** The fixed point: on the curve, and not killed by r. *)
Definition e_shift (K : fld) (a b : K) (r : Z) (R : point K) : Prop := on_curve K a b R /\ pzmul K a r R <> None.
(** (f_P(Q + R) / f_P(R))^((q-1)/r), f_P the function with divisor r(P) - r(O). *)
Definition e_value (K : fld) (a : K) (q r : Z) (R P Q : point K) : K :=
  fpow (fdiv (miller K a (Z.to_nat r) P (padd K a Q R)) (miller K a (Z.to_nat r) P R)) ((q - 1) / r).
