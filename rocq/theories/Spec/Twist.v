(** Field embeddings, and the twist map used by the pairings: if
    L = M(sqrt v), the curve Y^2 = X^3 + a v^2 X + b v^3 over M maps into
    Y^2 = X^3 + aX + b over L by (x, y) -> (x / v, (y / v^2) sqrt v). *)
From Coq Require Import ZArith.
From Verif.Base Require Import Algebra.
From Verif.Spec Require Import Quadratic Curve.

Record embedding (K M : fld) (h : K -> M) : Prop := {
  em_0 : h f0 = f0;
  em_1 : h f1 = f1;
  em_add : forall x y, h (fadd x y) = fadd (h x) (h y);
  em_mul : forall x y, h (fmul x y) = fmul (h x) (h y) }.

(** coordinates taken into a larger field *)
Definition epoint {K L : fld} (h : K -> L) (P : point K) : point L :=
  match P with None => None | Some (x, y) => Some (h x, h y) end.

Section T.
Variables (M : fld) (v : M).
Definition twist (Q : point M) : point (Quad M v) :=
  match Q with
  | None => None
  | Some (x, y) => Some ((fdiv x v, f0), (f0, fdiv y (fmul v v)))
  end.
(** the elements of the subfield *)
Definition low (x : M) : Quad M v := (x, f0).
End T.
