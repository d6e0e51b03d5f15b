(** Finite fields. *)
From Coq Require Import ZArith List.
From Verif.Base Require Import Algebra.
Open Scope Z_scope.

(** K has exactly q elements. *)
Definition has_order (K : fld) (q : Z) : Prop :=
  exists l : list K, NoDup l /\ (forall x, In x l) /\ Z.of_nat (length l) = q.

Definition is_square {K : fld} (a : K) : Prop := exists y : K, fmul y y = a.
