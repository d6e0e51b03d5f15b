(** What the arrays of an element of GF(3^m) stand for. *)
From Coq Require Import ZArith List Bool.
From Verif.Base Require Import Outcome Algebra.
From Verif.Spec Require Import Extension Ternary.
From Verif.Model Require Import GF3m.   (* only for the type of elements *)
Open Scope nat_scope.

(** A stored element of GF(3^m), and what it stands for. *)
Definition valid (m : nat) (e : elt) : Prop := sliced (m / 64 + 1) (d1 e) (d2 e) /\ reduced m (d1 e) (d2 e).
Definition value (m t : nat) (e : elt) : GF3m m t := sliced_value m t (d1 e) (d2 e).
Definition dims (m t : nat) : Prop := 0 < t < m /\ (Z.of_nat m < 2 ^ 30)%Z.
(** [r] returns a stored element with value [x]. *)
Definition gives (m t : nat) (r : res elt) (x : GF3m m t) : Prop := exists c, r = Ok c /\ valid m c /\ value m t c = x.
