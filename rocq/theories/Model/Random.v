(** arith/random.c:27-56: the file-based source of random integers. *)
From Coq Require Import ZArith List Bool.
From Verif.Base Require Import Outcome Gmp.
Import ListNotations.
Open Scope Z_scope.

(** :38-39 *)
Definition byte_count (limit : Z) : nat := Z.to_nat ((sizeinbase2 limit + 7) / 8).
Definition leftover (limit : Z) : Z := sizeinbase2 limit mod 8.

(** :46-50: what one block of bytes contributes; None = rejected *)
Definition mask_first (limit : Z) (block : list Z) : list Z :=
  match block with
  | [] => []
  | x :: l => if leftover limit =? 0 then block else x mod 2 ^ leftover limit :: l
  end.
Definition accept (limit : Z) (block : list Z) : option Z :=
  let z := import_be (mask_first limit block) in
  if z <? limit then Some z else None.

(** :41-51.  The stream is the list of blocks that fread delivers, all
    complete; a short final read (which the code does not detect) is not
    modelled.  [Ok None]: the file ended and the output is left unset. *)
Fixpoint file_mpz_random (blocks : list (list Z)) (limit : Z) : option Z :=
  match blocks with
  | [] => None
  | b :: rest => match accept limit b with Some z => Some z | None => file_mpz_random rest limit end
  end.
