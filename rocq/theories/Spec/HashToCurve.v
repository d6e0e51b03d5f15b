(** Vocabulary for hashing to a curve. *)
From Coq Require Import ZArith List Bool.
From Verif.Base Require Import Outcome Algebra.
From Verif.Spec Require Import FiniteField Curve.

Section H.
Variable K : fld.
(** the n-th iterate of X |-> X^2 + 1 *)
Fixpoint orbit (n : nat) (X : K) : K := match n with O => X | S m => orbit m (fadd (fmul X X) f1) end.
(** a square test and a square root that do what they say *)
Definition good_roots (is_sqr : K -> bool) (sqrt : K -> res K) : Prop :=
  (forall x, is_sqr x = true <-> is_square x) /\ (forall x, is_square x -> exists r, sqrt x = Ok r /\ fmul r r = x).
(** n is the first iterate at which the right-hand side is a square *)
Definition first_square (a b : K) (n : nat) (X : K) : Prop :=
  is_square (rhs K a b (orbit n X)) /\ forall m, (m < n)%nat -> ~ is_square (rhs K a b (orbit m X)).
(** clearing the cofactor, when there is one *)
Definition cleared (a : K) (cofac : option Z) (P : point K) : point K :=
  match cofac with None => P | Some c => pzmul K a c P end.
(** a sign: odd, and zero only at zero *)
Definition is_sign (sign : K -> Z) : Prop :=
  (forall x, sign (fopp x) = (- sign x)%Z) /\ forall x, sign x = 0%Z -> x = f0.
(** an encoding of fixed length with its decoder *)
Definition is_code (blen : nat) (enc : K -> list Z) (dec : list Z -> K) : Prop :=
  (forall x, length (enc x) = blen) /\ forall x, dec (enc x) = x.
End H.
