(** misc/memory.c: the two builds of pbc_realloc.  A block is the list of its
    cells; what malloc returns is unspecified memory [junk]. *)
From Coq Require Import ZArith List Bool.
From Verif.Base Require Import Outcome.
Import ListNotations.

Inductive build := Plain | SafeClean.

Section Mem.
Context {A : Type}.
Variable junk : nat -> list A.          (* contents of a fresh block of n cells *)

(** memcpy (dst, src, n) at the start of dst: every access must be inside the
    blocks. *)
Definition memcpy (dst src : list A) (n : nat) : res (list A) :=
  if (n <=? length dst) && (n <=? length src) then Ok (firstn n src ++ skipn n dst) else UB.

(** memory.c:96-100 (default build).  realloc of zero bytes frees the block
    and returns NULL with the usual C library, which ends in pbc_die. *)
Definition plain_realloc (old : list A) (n : nat) : res (list A) :=
  if n =? 0 then Die else Ok (firstn n old ++ skipn (length old) (junk n)).

(** memory.c:74-83 (SAFE_CLEAN): a new block, then memcpy of the OLD size. *)
Definition safe_realloc (old : list A) (n : nat) : res (list A) :=
  memcpy (junk n) old (length old).

Definition pbc_realloc (b : build) (old : list A) (n : nat) : res (list A) :=
  match b with Plain => plain_realloc old n | SafeClean => safe_realloc old n end.
End Mem.
