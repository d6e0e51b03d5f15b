(** Histories of calls on nested integer lists in terms of values (C79). *)
From Coq Require Import ZArith List Bool.
From Verif.Base Require Import Outcome.
From Verif.Model Require Import Multiz.         (* the values and their operations: C17 *)
From Verif.Model Require Import MultizHeap.     (* the calls, and blocks of memory *)
Import ListNotations.
Open Scope Z_scope.

(** The elements in use, with their values. *)
Definition world := nat -> option mz.
Definition val (w : world) (i : nat) : res mz := match w i with Some v => Ok v | None => UB end.
Definition now (w : world) (i : nat) (v : option mz) : world := fun j => if Nat.eqb j i then v else w j.
(** [i] must be in use. *)
Definition becomes (w : world) (i : nat) (v : mz) : res world := _ <- val w i ;; Ok (now w i (Some v)).

(** An element that was put into a list belongs to the list and is not used
    again; every other call means what it says.  [UB]: not a legal history. *)
Definition vstep (w : world) (c : call) : res world :=
  match c with
  | CInit i => match w i with None => Ok (now w i (Some (MZ 0))) | Some _ => UB end
  | CClear i => _ <- val w i ;; Ok (now w i None)
  | CSetZ i z => becomes w i (MZ z)
  | CSet i j => a <- val w j ;; becomes w i a
  | CAdd i j k => a <- val w j ;; b <- val w k ;; c <- mz_add a b ;; becomes w i c
  | CSub i j k => a <- val w j ;; b <- val w k ;; c <- mz_sub a b ;; becomes w i c
  | CMul i j k => a <- val w j ;; b <- val w k ;; c <- mz_mul a b ;; becomes w i c
  | CNeg i j => a <- val w j ;; becomes w i (mz_neg a)
  | CMulZ i j z => a <- val w j ;; becomes w i (mz_mul_z a z)
  | CDiv i j k => a <- val w j ;; b <- val w k ;; c <- mz_div a b ;; becomes w i c
  | CNewList i j =>
    a <- val w j ;;
    match now w j None i with None => Ok (now (now w j None) i (Some (MA [a]))) | Some _ => UB end
  | CAppend i j =>
    if Nat.eqb i j then UB
    else
      x <- val w i ;; a <- val w j ;;
      match x with MA l => Ok (now (now w j None) i (Some (MA (l ++ [a])))) | MZ _ => UB end
  | CItem _ _ _ => UB
  end.
Fixpoint vcalls (w : world) (l : list call) : res world :=
  match l with
  | [] => Ok w
  | c :: r => w1 <- vstep w c ;; vcalls w1 r
  end.

(** Memory [h] holds the value [v] at address [a]; [F] are the blocks it occupies. *)
Inductive holds (h : heap) : mz -> nat -> list nat -> Prop :=
| h_int a z : nth_error h a = Some (Some (NZ z)) -> holds h (MZ z) a [a]
| h_list a l vs Fs : nth_error h a = Some (Some (NA l)) -> holds_all h vs l Fs ->
    holds h (MA vs) a (a :: Fs)
with holds_all (h : heap) : list mz -> list nat -> list nat -> Prop :=
| h_nil : holds_all h [] [] []
| h_cons v a F vs l Fs : holds h v a F -> holds_all h vs l Fs ->
    holds_all h (v :: vs) (a :: l) (F ++ Fs).

(** A block that has not been given back. *)
Definition allocated (h : heap) (a : nat) : Prop := exists c, nth_error h a = Some (Some c).

(** Memory and elements represent the world: every element in use points to
    its value, the blocks of different elements are different, and no other
    block is allocated.  [Fp i] are the blocks of element i. *)
Record represents_by (Fp : nat -> list nat) (w : world) (s : mem) : Prop := {
  r_value : forall i v, w i = Some v -> exists a, slots s i = Some a /\ holds (cells s) v a (Fp i);
  r_unused : forall i, w i = None -> Fp i = [];
  r_once : forall i, NoDup (Fp i);
  r_apart : forall i j k, In k (Fp i) -> In k (Fp j) -> i = j;
  r_all : forall k, allocated (cells s) k -> exists i, In k (Fp i) }.
Definition represents (w : world) (s : mem) : Prop := exists Fp, represents_by Fp w s.
