(** Vocabulary for the tables printed by listmnt and listfreeman. *)
From Coq Require Import ZArith.
Open Scope Z_scope.

(** n has b bits *)
Definition bits (n b : Z) : Prop := 2 ^ (b - 1) <= n < 2 ^ b.
(** the number a table starts from: the argument as an unsigned int, if any *)
Definition start (default : Z) (arg : option Z) : Z := match arg with None => default | Some x => x mod 2 ^ 32 end.
