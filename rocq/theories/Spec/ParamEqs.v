(** The equations that pairing parameters satisfy; independent of the model. *)
From Coq Require Import ZArith Znumtheory List.
Open Scope Z_scope.

(** r = 2^exp2 + sign1 2^exp1 + sign0 *)
Definition solinas_form (r e2 e1 s1 s0 : Z) : Prop :=
  r = 2 ^ e2 + s1 * 2 ^ e1 + s0 /\ (s1 = 1 \/ s1 = -1) /\ (s0 = 1 \/ s0 = -1) /\ 0 <= e2 /\ 1 <= e1.
(** Barreto-Naehrig polynomials *)
Definition bn_q (x : Z) : Z := 36 * x ^ 4 + 36 * x ^ 3 + 24 * x ^ 2 + 6 * x + 1.
Definition bn_t (x : Z) : Z := 6 * x ^ 2 + 1.
Definition bn_r (x : Z) : Z := 36 * x ^ 4 + 36 * x ^ 3 + 18 * x ^ 2 + 6 * x + 1.
(** number of points of y^2 = x^3 - x + 1 over GF(3^m), m prime to 6 *)
Definition ternary_order (m : Z) : Z :=
  3 ^ m + (if (m mod 12 =? 1) || (m mod 12 =? 11) then 1 else -1)%bool * 3 ^ ((m + 1) / 2) + 1.

(** The random numbers drawn are natural numbers. *)
Definition rand_ok (l : list Z) : Prop := Forall (fun x => 0 <= x) l.
