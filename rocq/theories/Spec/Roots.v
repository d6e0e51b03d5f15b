(** Values and roots of polynomials (constant term first). *)
From Coq Require Import List.
From Verif.Base Require Import Algebra.
Import ListNotations.
Fixpoint value {K : fld} (f : list K) (x : K) : K := match f with [] => f0 | a :: f' => fadd a (fmul x (value f' x)) end.
Definition is_root {K : fld} (f : list K) (x : K) : Prop := value f x = f0.
