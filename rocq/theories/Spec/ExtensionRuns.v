(** Reading the observations of a session in K[X]/(m) as elements of the
    specification field. *)
From Coq Require Import ZArith List.
From Verif.Base Require Import Outcome Algebra.
From Verif.Spec Require Import FieldCalls Polynomials Extension.

Definition ext_obs (K : fld) (n : nat) (m : list K) (o : bool + list K) : fobs (Ext K n m) :=
  match o with inl b => OBool b | inr v => OValue (mkvec n (coef v) : Ext K n m) end.
(** A history with a meaning gives the specified observations; one that
    divides by zero stops in pbc_die. *)
Definition session (K : fld) (n : nat) (m : list K) (r : res (list (bool + list K))) (q : res (list (fobs (Ext K n m)))) : Prop :=
  match q with
  | Ok os => exists os', r = Ok os' /\ map (ext_obs K n m) os' = os
  | _ => r = Die
  end.
