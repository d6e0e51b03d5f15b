(** Counting byte strings. *)
From Coq Require Import ZArith List Bool.
Import ListNotations.
Open Scope Z_scope.

Definition byte_values : list Z := map Z.of_nat (seq 0 256).
(** every string of n bytes, once *)
Fixpoint all_blocks (n : nat) : list (list Z) :=
  match n with O => [[]] | S n' => flat_map (fun x => map (cons x) (all_blocks n')) byte_values end.
(** the number of strings of n bytes on which f gives v *)
Definition count_blocks (n : nat) (f : list Z -> option Z) (v : Z) : Z :=
  Z.of_nat (length (filter (fun b => match f b with Some w => w =? v | None => false end) (all_blocks n))).
