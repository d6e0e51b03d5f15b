(** The Tate pairing on Y^2 = X^3 + aX + b, in the textbook form of Miller's
    functions built one addition at a time; independent of the model. *)
From Coq Require Import ZArith.
From Verif.Base Require Import Algebra.
From Verif.Spec Require Import Curve.

Section T.
Variables (K : fld) (a : K).
Local Notation "x + y" := (fadd x y). Local Notation "x - y" := (fsub x y). Local Notation "x * y" := (fmul x y).
Local Notation "x / y" := (fdiv x y).

(** slope of the line through two points that are not opposite *)
Definition slope (x1 y1 x2 y2 : K) : K :=
  if feqb x1 x2 then (f3 K * (x1 * x1) + a) / (f2 K * y1) else (y2 - y1) / (x2 - x1).
(** The value at R of the function with divisor (A) + (B) - (A+B) - (O): the
    line through A and B over the vertical line through A+B.  It is 1 if a
    point is infinity. *)
Definition miller_step (A B R : point K) : K :=
  match A, B, R with
  | Some (x1, y1), Some (x2, y2), Some (x, y) =>
      match padd K a A B with
      | None => x - x1
      | Some (x3, _) => (y - y1 - slope x1 y1 x2 y2 * (x - x1)) / (x - x3)
      end
  | _, _, _ => f1
  end.
(** The function with divisor n(P) - (nP) - (n-1)(O). *)
Fixpoint miller (n : nat) (P R : point K) : K :=
  match n with
  | O => f1
  | S m => miller m P R * miller_step (pmul K a m P) P R
  end.
(** The reduced pairing: [r] the order of the points, [e] the final exponent. *)
Definition tate (r e : Z) (P Q : point K) : K := fpow (miller (Z.to_nat r) P Q) e.
End T.
