(** What element_set_multiz should store.

    A list at depth k is a polynomial in the k-th variable (Spec/Multiz.v).
    In a tower of extensions the variables stand for the generators of the
    levels, outermost first; variables beyond the last level stand for 0. *)
From Coq Require Import ZArith List.
From Verif.Base Require Import Outcome Algebra Slots.
From Verif.Spec Require Import Extension Quadratic ElementText Multiz.
From Verif.Model Require Import Multiz.   (* only for the type of nested lists *)
Import ListNotations.
Open Scope nat_scope.

Section V.
Variable L : fld.
(** Value of [a], whose outermost variable is number [k], when variable i is [gen i]. *)
Fixpoint mvalue (gen : nat -> L) (k : nat) (a : mz) : L :=
  match a with
  | MZ z => fofz z
  | MA l => fold_right (fun c s => fadd c (fmul (gen k) s)) f0 (map (mvalue gen (S k)) l)
  end.
End V.

(** The generators of a prime field, of L = K(sqrt d) and of L = K[X]/(m),
    given those of K. *)
Definition no_gens {K : fld} : nat -> K := fun _ => f0.
Definition quad_gens {K : fld} (d : K) (g : nat -> K) : nat -> Quad K d :=
  fun k => match k with O => (f0, f1) | S k => (g k, f0) end.
Definition ext_gens {K : fld} (n : nat) (m : list K) (g : nat -> K) : nat -> Ext K n m :=
  fun k => match k with O => mkvec n (fun i => if Nat.eqb i 1 then f1 else f0) | S k => mkvec n (fun i => if Nat.eqb i 0 then g k else f0) end.

(** Lists at depth k have at most [nth k bs] entries; below the last bound
    the lists are only required to have a first entry. *)
Inductive shaped : list nat -> mz -> Prop :=
| sh_z : forall bs z, shaped bs (MZ z)
| sh_base : forall a, nonempty a -> shaped [] a
| sh_list : forall n bs l, l <> [] -> length l <= n -> Forall (shaped bs) l -> shaped (n :: bs) (MA l).

(** [set] stores the value of every list of the given shape. *)
Definition stores (L : fld) (gen : nat -> L) (bs : list nat) {A} (rep : L -> A) (set : mz -> res A) : Prop :=
  forall a, shaped bs a -> set a = Ok (rep (mvalue L gen 0 a)).

(** The nested list of the coordinates of an element of a tower. *)
Fixpoint elem_list (t : tower) : carrier t -> mz :=
  match t with
  | TFp => fun x => MZ x
  | TQuad t' => fun e => MA [elem_list t' (fst e); elem_list t' (snd e)]
  | TPoly n t' => fun l => MA (map (elem_list t') l)
  end.
