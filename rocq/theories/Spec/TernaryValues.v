(** The elements of GF(3^m), GF(3^2m), GF(3^3m) and GF(3^6m) that a stored
    element stands for: [holds m t e x] says that the arrays of e store the
    element x of GF(3)[X]/(X^m + X^t + 2); a pair, a triple or a triple of
    pairs stores an element of the towers over it if its components store the
    coordinates. *)
From Coq Require Import ZArith List Bool.
From Verif.Base Require Import Outcome Algebra.
From Verif.Spec Require Import Quadratic Extension Ternary TernaryTower.
From Verif.Model Require Import GF3m GF3Tower EtaT3.

Section V.
Variables (m t : nat) (p : params).
Local Notation K := (GF3m m t).
Local Notation F := (gf3m_ops p).
Definition holds (e : elt) (x : K) : Prop :=
  (sliced (m / 64 + 1) (d1 e) (d2 e) /\ reduced m (d1 e) (d2 e)) /\ sliced_value m t (d1 e) (d2 e) = x.
(** x0 + x1 i *)
Definition holds2 (e : gf2 F) (x : GF32m K) : Prop := holds (fst e) (fst x) /\ holds (snd e) (snd x).
(** x0 + x1 z + x2 z^2 *)
Definition holds3 (e : gf3 F) (x : GF33m K) : Prop := holds (g_0 e) (vcoef x 0) /\ holds (g_1 e) (vcoef x 1) /\ holds (g_2 e) (vcoef x 2).
Definition holds6 (e : gf6 F) (x : GF36m K) : Prop := holds2 (g_0 e) (vcoef x 0) /\ holds2 (g_1 e) (vcoef x 1) /\ holds2 (g_2 e) (vcoef x 2).
(** The call returns, and what it returns stores x. *)
Definition returns {A X : Type} (h : A -> X -> Prop) (r : res A) (x : X) : Prop := exists c, r = Ok c /\ h c x.
End V.
