(** misc/darray.c.  [item] is the allocated block; its length is the number of
    cells allocated.  int overflow of count and max is not modelled. *)
From Coq Require Import ZArith List Bool.
From Verif.Base Require Import Outcome Array.
From Verif.Model Require Import Memory.
Import ListNotations.

Section D.
Context {A : Type}.
Variables (b : build) (junk : nat -> list A).
Variable eqb : A -> A -> bool.            (* comparison of pointers *)

Record darray := { max : nat; count : nat; item : list A }.

(** darray.c:10-12 *)
Definition max_init : nat := 8.
(** :14-19 *)
Definition darray_init : darray := {| max := max_init; count := 0; item := junk max_init |}.
(** :28-34 *)
Definition darray_remove_all (a : darray) : darray := darray_init.
(** :36-40; decrementing a zero count makes it negative (assertions are
    compiled out): every later use is then out of bounds. *)
Definition darray_remove_last (a : darray) : res darray :=
  if count a =? 0 then UB else Ok {| max := max a; count := count a - 1; item := item a |}.
(** :42-46 *)
Definition darray_realloc (a : darray) (size : nat) : res darray :=
  it <- pbc_realloc junk b (item a) size ;;
  Ok {| max := size; count := count a; item := it |}.
(** :48-57 *)
Definition darray_append (a : darray) (p : A) : res darray :=
  a <- (if count a =? max a
        then let m := if max a =? 0 then max_init else max a * 2 in
             it <- pbc_realloc junk b (item a) m ;;
             Ok {| max := m; count := count a; item := it |}
        else Ok a) ;;
  it <- put (item a) (count a) p ;;
  Ok {| max := max a; count := count a + 1; item := it |}.
(** :59-66: the loop from i, [m] cells remaining. *)
Fixpoint index_loop (it : list A) (m i : nat) (p : A) : res (option nat) :=
  match m with
  | O => Ok None
  | S m' => x <- get it i ;; if eqb x p then Ok (Some i) else index_loop it m' (S i) p
  end.
Definition darray_index_of (a : darray) (p : A) : res (option nat) := index_loop (item a) (count a) 0 p.
(** memmove (&item[d], &item[s], k cells) *)
Definition memmove (it : list A) (d s k : nat) : res (list A) :=
  if (k =? 0) then Ok it
  else if (d + k <=? length it) && (s + k <=? length it)
  then Ok (firstn d it ++ firstn k (skipn s it) ++ skipn (d + k) it) else UB.
(** :80-85; a negative size is a huge size_t. *)
Definition darray_remove_index (a : darray) (n : nat) : res darray :=
  if count a =? 0 then UB
  else
    let c := count a - 1 in
    if c <? n then UB
    else it <- memmove (item a) n (n + 1) (c - n) ;;
         Ok {| max := max a; count := c; item := it |}.
(** :87-98; nothing happens when p is absent (assertions are compiled out). *)
Definition darray_remove (a : darray) (p : A) : res darray :=
  i <- darray_index_of a p ;;
  match i with
  | None => Ok a
  | Some i =>
    let c := count a - 1 in
    it <- memmove (item a) i (i + 1) (c - i) ;;
    Ok {| max := max a; count := c; item := it |}
  end.
(** :100-111.  The inner loop shifts every following cell, reading one cell
    beyond the last; afterwards i = count + 1 > count - 1 ends the outer loop. *)
Fixpoint shift_loop (it : list A) (m i : nat) : res (list A) :=
  match m with
  | O => Ok it
  | S m' => x <- get it (S i) ;; it <- put it i x ;; shift_loop it m' (S i)
  end.
Fixpoint test_loop (test : A -> bool) (a : darray) (m i : nat) : res darray :=
  match m with
  | O => Ok a
  | S m' =>
    x <- get (item a) i ;;
    if test x then
      it <- shift_loop (item a) (S m') i ;;
      Ok {| max := max a; count := count a - 1; item := it |}
    else test_loop test a m' (S i)
  end.
Definition darray_remove_with_test (a : darray) (test : A -> bool) : res darray :=
  test_loop test a (count a) 0.
(** :113-118, for two different arrays *)
Definition darray_copy (dst src : darray) : res darray :=
  d <- darray_realloc dst (count src) ;;
  it <- memcpy (item d) (item src) (count src) ;;
  Ok {| max := max d; count := count src; item := it |}.
(** :120-127: the items passed to func, in order *)
Fixpoint items_loop (it : list A) (m i : nat) : res (list A) :=
  match m with O => Ok [] | S m' => x <- get it i ;; r <- items_loop it m' (S i) ;; Ok (x :: r) end.
Definition darray_forall (a : darray) : res (list A) := items_loop (item a) (count a) 0.
(** :166-176 *)
Fixpoint at_test_loop (it : list A) (m i : nat) (test : A -> bool) : res (option A) :=
  match m with
  | O => Ok None
  | S m' => x <- get it i ;; if test x then Ok (Some x) else at_test_loop it m' (S i) test
  end.
Definition darray_at_test (a : darray) (test : A -> bool) : res (option A) :=
  at_test_loop (item a) (count a) 0 test.
(** darray.h: a->item[i] and a->count are read directly. *)
Definition darray_at (a : darray) (i : nat) : res A := get (item a) i.
End D.
Arguments darray : clear implicits.

(** Histories: a register file of arrays. *)
Section M.
Context {A : Type}.
Variables (b : build) (junk : nat -> list A) (eqb : A -> A -> bool).

Inductive dcall :=
| DAppend (r : nat) (x : A) | DRemoveLast (r : nat) | DRemoveIndex (r i : nat) | DRemove (r : nat) (x : A)
| DRemoveAll (r : nat) | DCopy (d s : nat)
| DCount (r : nat) | DAt (r i : nat) | DIndexOf (r : nat) (x : A) | DForall (r : nat) | DAtTest (r : nat) (t : A -> bool).
Inductive dobs := OCount (n : nat) | OItem (x : A) | OIndex (o : option nat) | OItems (l : list A) | OFound (o : option A).

Definition set_reg {X} (s : nat -> X) (r : nat) (x : X) : nat -> X := fun i => if Nat.eqb i r then x else s i.

Definition darray_step (s : nat -> darray A) (c : dcall) : res ((nat -> darray A) * list dobs) :=
  match c with
  | DAppend r x => a <- darray_append b junk (s r) x ;; Ok (set_reg s r a, [])
  | DRemoveLast r => a <- darray_remove_last (s r) ;; Ok (set_reg s r a, [])
  | DRemoveIndex r i => a <- darray_remove_index (s r) i ;; Ok (set_reg s r a, [])
  | DRemove r x => a <- darray_remove eqb (s r) x ;; Ok (set_reg s r a, [])
  | DRemoveAll r => Ok (set_reg s r (darray_remove_all junk (s r)), [])
  | DCopy d r => a <- darray_copy b junk (s d) (s r) ;; Ok (set_reg s d a, [])
  | DCount r => Ok (s, [OCount (count (s r))])
  | DAt r i => x <- darray_at (s r) i ;; Ok (s, [OItem x])
  | DIndexOf r x => o <- darray_index_of eqb (s r) x ;; Ok (s, [OIndex o])
  | DForall r => l <- darray_forall (s r) ;; Ok (s, [OItems l])
  | DAtTest r t => o <- darray_at_test (s r) t ;; Ok (s, [OFound o])
  end.
Fixpoint darray_run (s : nat -> darray A) (h : list dcall) : res (list dobs) :=
  match h with
  | [] => Ok []
  | c :: h' => r <- darray_step s c ;; os <- darray_run (fst r) h' ;; Ok (snd r ++ os)
  end.
End M.
Arguments dcall : clear implicits.
Arguments dobs : clear implicits.
