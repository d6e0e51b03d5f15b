(** misc/symtab.c: a dynamic array of (key, data) entries.  Entries are
    separately allocated and updated through their pointer; here the entry is
    stored in the array cell.  Keys are C strings without their terminator. *)
From Coq Require Import ZArith List Bool.
From Verif.Base Require Import Outcome Array.
From Verif.Model Require Import Memory Darray.
Import ListNotations.

Section S.
Context {D : Type}.
Variables (b : build) (junk : nat -> list (list Z * D)).
Definition key_eqb (x y : list Z) : bool := if list_eq_dec Z.eq_dec x y then true else false.   (* !strcmp *)

(** the search loop common to put/has/at (symtab.c:32-35, :45-48, :54-57) *)
Fixpoint find_entry (it : list (list Z * D)) (m i : nat) (key : list Z) : res (option nat) :=
  match m with
  | O => Ok None
  | S m' => e <- get it i ;; if key_eqb (fst e) key then Ok (Some i) else find_entry it m' (S i) key
  end.
(** :14-16 *)
Definition symtab_init : darray (list Z * D) := darray_init junk.
(** :29-41 *)
Definition symtab_put (t : darray (list Z * D)) (data : D) (key : list Z) : res (darray (list Z * D)) :=
  i <- find_entry (item t) (count t) 0 key ;;
  match i with
  | Some i => it <- put (item t) i (key, data) ;; Ok {| max := max t; count := count t; item := it |}
  | None => darray_append b junk t (key, data)
  end.
(** :43-50 *)
Definition symtab_has (t : darray (list Z * D)) (key : list Z) : res bool :=
  i <- find_entry (item t) (count t) 0 key ;; Ok (match i with Some _ => true | None => false end).
(** :52-59; None is NULL *)
Definition symtab_at (t : darray (list Z * D)) (key : list Z) : res (option D) :=
  i <- find_entry (item t) (count t) 0 key ;;
  match i with Some i => e <- get (item t) i ;; Ok (Some (snd e)) | None => Ok None end.

Inductive scall := SPut (key : list Z) (d : D) | SHas (key : list Z) | SAt (key : list Z).
Inductive sobs := OHas (b : bool) | OAt (o : option D).
Fixpoint symtab_run (t : darray (list Z * D)) (h : list scall) : res (list sobs) :=
  match h with
  | [] => Ok []
  | SPut k d :: h' => t <- symtab_put t d k ;; symtab_run t h'
  | SHas k :: h' => v <- symtab_has t k ;; os <- symtab_run t h' ;; Ok (OHas v :: os)
  | SAt k :: h' => v <- symtab_at t k ;; os <- symtab_run t h' ;; Ok (OAt v :: os)
  end.
End S.
Arguments scall : clear implicits.
Arguments sobs : clear implicits.
