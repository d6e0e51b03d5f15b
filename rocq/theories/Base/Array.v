(** Bounds-checked C arrays: an access outside the array is undefined
    behaviour. *)
From Coq Require Import List Arith.
From Verif.Base Require Import Outcome.
Import ListNotations.

Definition get {A} (l : list A) (i : nat) : res A :=
  match nth_error l i with Some x => Ok x | None => UB end.

Definition put {A} (l : list A) (i : nat) (x : A) : res (list A) :=
  if i <? length l then Ok (firstn i l ++ x :: skipn (S i) l) else UB.

(** [n] consecutive cells starting at [off]. *)
Definition slice {A} (l : list A) (off n : nat) : res (list A) :=
  if off + n <=? length l then Ok (firstn n (skipn off l)) else UB.

(** Overwrite consecutive cells starting at [off]. *)
Definition splice {A} (l : list A) (off : nat) (m : list A) : res (list A) :=
  if off + length m <=? length l
  then Ok (firstn off l ++ m ++ skipn (off + length m) l) else UB.
