(** Preprocessed pairings and the element they were made from.  A pairing_pp_t
    either holds a table computed from in1 (types A, A1, D, G) or, with the
    functions every pairing starts with (ecc/pairing.c:61-72; types E, F), the
    address of the caller's element in1.  The caller's elements of G1 are
    objects in a memory: [None] is an object not initialised, or cleared. *)
From Coq Require Import List.
From Verif.Base Require Import Outcome Algebra.
From Verif.Model Require Import Pairing.

Section P.
Variable p : pairing.
Definition memory := nat -> option (g1 p).
(** p->data; [NullPP] is p->pairing = NULL, include/pbc_pairing.h:55-58 *)
Inductive ppobj := NullPP | Pointer (a : nat) | Table (t : ppt p).
Definition load (h : memory) (a : nat) : res (g1 p) := match h a with Some x => Ok x | None => UB end.
(** include/pbc_pairing.h:54-61 with default_pp_init, ecc/pairing.c:61-64 *)
Definition default_pp_init (h : memory) (a : nat) : res ppobj :=
  x <- load h a ;; if is0_1 p x then Ok NullPP else Ok (Pointer a).
(** the same with a pp_init that builds a table: a_param.c:149-207,
    1632-1716; d_param.c:794-902; g_param.c:619-722 *)
Definition table_pp_init (h : memory) (a : nat) : res ppobj :=
  x <- load h a ;; if is0_1 p x then Ok NullPP else (t <- pp_init_ p x ;; Ok (Table t)).
(** include/pbc_pairing.h:79-89; default_pp_apply, ecc/pairing.c:66-68, calls
    map on the element at the address, without testing it for the identity *)
Definition object_pp_apply (h : memory) (in2 : g2 p) (o : ppobj) : res (gt p) :=
  match o with
  | NullPP => Ok f1
  | Pointer a => if is0_2 p in2 then Ok f1 else (x <- load h a ;; map_ p x in2)
  | Table t => if is0_2 p in2 then Ok f1 else pp_apply_ p t in2
  end.
(** assignment to an element (element_set, element_add, ...) and element_clear *)
Definition assign (h : memory) (a : nat) (x : option (g1 p)) : memory := fun b => if Nat.eqb b a then x else h b.
Definition assigns (h : memory) (l : list (nat * option (g1 p))) : memory := fold_left (fun h ax => assign h (fst ax) (snd ax)) l h.
End P.
