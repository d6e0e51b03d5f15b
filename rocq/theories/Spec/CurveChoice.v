(** What the parameter generators should produce. *)
From Coq Require Import ZArith Znumtheory List.
From Verif.Base Require Import Outcome Algebra Slots.
From Verif.Spec Require Import FiniteField Curve.
Import ListNotations.
Open Scope Z_scope.
Section C.
Variable K : fld.
(** 4 a^3 and 4 a^3 + 27 b^2 *)
Definition four_a3 (a : K) : K := fmul (fmul (f2 K) (f2 K)) (fmul (fmul a a) a).
Definition disc (a b : K) : K := fadd (four_a3 a) (fmul (fmul (fmul (f3 K) (f3 K)) (f3 K)) (fmul b b)).
(** j is the j-invariant of Y^2 = X^3 + aX + b: j = 1728 * 4 a^3 / (4 a^3 + 27 b^2) *)
Definition has_j (a b j : K) : Prop := fmul (fofz 1728) (four_a3 a) = fmul j (disc a b).
(** the quadratic twist by v *)
Definition twist_of (v : K) (ab ab' : K * K) : Prop :=
  fst ab' = fmul (fmul v v) (fst ab) /\ snd ab' = fmul (fmul (fmul v v) v) (snd ab).
(** n times every point is the identity *)
Definition killed (a b : K) (n : Z) : Prop := forall P, on_curve K a b P -> pzmul K a n P = None.
(** a point of order r, for r prime *)
Definition order_r (a b : K) (r : Z) (P : point K) : Prop := on_curve K a b P /\ P <> None /\ pzmul K a r P = None.
End C.
(** what is assumed of mpz_probab_prime_p and mpz_nextprime *)
Definition exact_primes (isprime : Z -> bool) (nextprime : Z -> Z) : Prop :=
  (forall m, 1 <= m -> isprime m = true <-> prime m) /\
  (forall p, prime p -> p < nextprime p /\ prime (nextprime p) /\ forall q, prime q -> p < q -> nextprime p <= q).

(** 1 + q + ... + q^(k-1) *)
Fixpoint geo (q : Z) (k : nat) : Z := match k with O => 0 | S k => 1 + q * geo q k end.
