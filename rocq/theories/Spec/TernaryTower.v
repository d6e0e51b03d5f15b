(** The fields K[i]/(i^2 + 1) and K[z]/(z^3 - z - 1) on top of a field K of
    characteristic 3, and the one on top of the other. *)
From Coq Require Import List.
From Verif.Base Require Import Algebra.
From Verif.Spec Require Import Quadratic Extension.
Import ListNotations.

Definition GF32m (K : fld) : fld := Quad K (fopp f1).
Definition z3_z_1 (K : fld) : list K := [fopp f1; fopp f1; f0; f1].
Definition GF33m (K : fld) : fld := Ext K 3 (z3_z_1 K).
Definition GF36m (K : fld) : fld := GF33m (GF32m K).
(** a + b z + c z^2 *)
Definition elt3 {K : fld} (a b c : K) : GF33m K := mkvec 3 (fun i => match i with 0 => a | 1 => b | _ => c end).
(** u0 + u1 i + (u2 + u3 i) z + (u4 + u5 i) z^2 *)
Definition elt6 {K : fld} (u0 u1 u2 u3 u4 u5 : K) : GF36m K :=
  elt3 (K := GF32m K) (u0, u1) (u2, u3) (u4, u5).
