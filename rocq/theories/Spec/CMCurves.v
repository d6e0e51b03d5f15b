(** Pell equations and the curves found by complex multiplication; independent
    of the model. *)
From Coq Require Import ZArith.
Open Scope Z_scope.

(** x^2 - D y^2 = N *)
Definition pell_eq (D N x y : Z) : Prop := x * x - D * (y * y) = N.
Definition square (D : Z) : Prop := exists s, D = s * s.

(** cyclotomic polynomials *)
Definition Phi6 (q : Z) : Z := q ^ 2 - q + 1.
Definition Phi10 (q : Z) : Z := q ^ 4 - q ^ 3 + q ^ 2 - q + 1.

(** an order n = h r; with trace t = q + 1 - n it comes from complex
    multiplication by the discriminant D *)
Definition order_splits (n h r : Z) : Prop := n = h * r.
Definition cm_equation (q n D : Z) : Prop := exists V, 4 * q - (q + 1 - n) ^ 2 = D * V ^ 2.

(** Freeman's family: the field size and the trace at x *)
Definition freeman_q (x : Z) : Z := 25 * x ^ 4 + 25 * x ^ 3 + 25 * x ^ 2 + 10 * x + 3.
Definition freeman_t (x : Z) : Z := 10 * x ^ 2 + 5 * x + 3.
