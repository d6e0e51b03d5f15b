(** Reading the observations of a quadratic-extension session as elements of
    the specification field. *)
From Coq Require Import ZArith List.
From Verif.Base Require Import Algebra.
From Verif.Spec Require Import FieldCalls Quadratic.
From Verif.Model Require Import Quadratic.

(** The element whose square root is adjoined: the chosen non-residue, or -1. *)
Definition q_d (K : fld) (k : qkind K) : K := match k with KQuadratic _ nqr => nqr | KFi _ => fopp f1 end.
Definition obs_of (K : fld) (k : qkind K) (o : bool + K * K) : fobs (Quad K (q_d K k)) :=
  match o with inl b => OBool b | inr v => OValue (v : Quad K (q_d K k)) end.
