(** What nested integer lists stand for (C17).

    [[1, 2], 3, [4, [5, 6]]] is the polynomial (1 + 2y) + 3x + (4 + (5 + 6z)y)x^2:
    a list at depth k is a polynomial in the k-th variable.  A polynomial with
    integer coefficients is determined by its values at the integer points. *)
From Coq Require Import ZArith List.
From Verif.Model Require Import Multiz.
Import ListNotations.
Open Scope Z_scope.

(** Value of [a], whose outermost variable is number [k], when variable i is [rho i]. *)
Fixpoint value (rho : nat -> Z) (k : nat) (a : mz) : Z :=
  match a with
  | MZ z => z
  | MA l => fold_right (fun c s => c + rho k * s) 0 (map (value rho (S k)) l)
  end.

Definition eval (rho : nat -> Z) (a : mz) : Z := value rho 0 a.

(** Lists are never empty: element lists are created with one member and grow. *)
Inductive nonempty : mz -> Prop :=
| ne_z : forall z, nonempty (MZ z)
| ne_a : forall l, l <> [] -> Forall nonempty l -> nonempty (MA l).

(** Integers meet integers and lists meet lists; members without a partner are integers. *)
Inductive aligned : mz -> mz -> Prop :=
| al_z : forall x y, aligned (MZ x) (MZ y)
| al_a : forall l l', aligned_list l l' -> aligned (MA l) (MA l')
with aligned_list : list mz -> list mz -> Prop :=
| al_nil : aligned_list [] []
| al_left : forall z l, aligned_list l [] -> aligned_list (MZ z :: l) []
| al_right : forall z l, aligned_list [] l -> aligned_list [] (MZ z :: l)
| al_cons : forall x y l l', aligned x y -> aligned_list l l' -> aligned_list (x :: l) (y :: l').

(** The same nesting, node by node. *)
Inductive same_shape : mz -> mz -> Prop :=
| ss_z : forall x y, same_shape (MZ x) (MZ y)
| ss_a : forall l l', Forall2 same_shape l l' -> same_shape (MA l) (MA l').
