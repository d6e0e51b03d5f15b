(** Integer helpers of arith/field.c that involve no field element. *)
From Coq Require Import ZArith List Bool.
From Verif.Base Require Import Outcome Gmp.
Import ListNotations.
Open Scope Z_scope.

(** arith/field.c:629-638 pbc_mpz_out_raw_n.  [count] bytes are written at
    offset n - count; if count > n the (size_t) offset wraps around and the
    write is out of bounds.  z must be non-negative (mpz_export writes |z|). *)
Definition pbc_mpz_out_raw_n (n : Z) (z : Z) : res (list Z) :=
  if z =? 0 then Ok (repeat 0 (Z.to_nat n))
  else
    let count := (sizeinbase2 z + 7) / 8 in
    if n <? count then UB
    else Ok (repeat 0 (Z.to_nat (n - count)) ++ export_be (Z.abs z)).

(** arith/field.c:643-662, the loop filling [buf]: returns the [count] bytes
    data || 0 || data || 1 || ...  [room] = count - i cells are left. [counter]
    is an unsigned char.  Fuel: every iteration uses at least one cell. *)
Fixpoint hash_fill (fuel : nat) (room : nat) (data : list Z) (counter : Z) : res (list Z) :=
  match fuel with
  | O => OutOfFuel
  | S f =>
    if (room <=? length data)%nat then Ok (firstn room data)        (* done = 1 *)
    else
      let room1 := (room - length data - 1)%nat in
      if (room1 =? 0)%nat then Ok (data ++ [counter])                (* i == count *)
      else rest <- hash_fill f room1 data ((counter + 1) mod 256) ;;
           Ok (data ++ counter :: rest)
  end.

(** arith/field.c:665-667: halve until z <= limit. *)
Fixpoint shift_down (fuel : nat) (z limit : Z) : res Z :=
  match fuel with
  | O => OutOfFuel
  | S f => if z >? limit then shift_down f (z / 2) limit else Ok z
  end.

(** arith/field.c:643-668 pbc_mpz_from_hash.  The fuel given is provably
    sufficient. *)
Definition pbc_mpz_from_hash (limit : Z) (data : list Z) : res Z :=
  let count := Z.to_nat ((sizeinbase2 limit + 7) / 8) in
  buf <- hash_fill (S count) count data 0 ;;
  shift_down (8 * count + 1) (import_be buf) limit.
