(** Straight-line field code over memory.  An object (an element_t of an
    extension field, a point, a temporary) is a sequence of base-field slots;
    a C function that calls element_add, element_mul, ... on the components of
    its arguments is a list of instructions on slots.  Since slots are named by
    the object they belong to, running such a list on arguments that are the
    same object is exactly what the C code does under aliasing. *)
From Coq Require Import ZArith List Bool.
From Verif.Base Require Import Outcome Algebra.
Import ListNotations.

(** n as an element of K; n times x (element_set_si, element_mul_si, ...). *)
Definition fofz {K : fld} (n : Z) : K :=
  match n with
  | Z0 => f0
  | Zpos p => Pos.iter_op fadd p f1
  | Zneg p => fopp (Pos.iter_op fadd p f1)
  end.
Definition fmulz {K : fld} (x : K) (n : Z) : K := fmul (fofz n) x.

Inductive obj := Reg (n : nat) | Tmp (n : nat).
Definition obj_eqb (a b : obj) : bool :=
  match a, b with Reg n, Reg m | Tmp n, Tmp m => Nat.eqb n m | _, _ => false end.
Definition loc : Type := obj * nat.
Definition loc_eqb (a b : loc) : bool := obj_eqb (fst a) (fst b) && Nat.eqb (snd a) (snd b).

Section S.
Variable K : fld.
Definition store := loc -> K.
Definition upd (s : store) (l : loc) (v : K) : store := fun l' => if loc_eqb l' l then v else s l'.

Inductive instr :=
| IAdd (d a b : loc) | ISub (d a b : loc) | IMul (d a b : loc)
| INeg (d a : loc) | IDbl (d a : loc) | ISqr (d a : loc) | ISet (d a : loc) | IInv (d a : loc)
| IMulZ (d a : loc) (n : Z) | IConst (d : loc) (c : K) | IMulC (d a : loc) (c : K).

Definition exec (s : store) (i : instr) : res store :=
  match i with
  | IAdd d a b => Ok (upd s d (fadd (s a) (s b)))
  | ISub d a b => Ok (upd s d (fsub (s a) (s b)))
  | IMul d a b => Ok (upd s d (fmul (s a) (s b)))
  | INeg d a => Ok (upd s d (fopp (s a)))
  | IDbl d a => Ok (upd s d (fadd (s a) (s a)))
  | ISqr d a => Ok (upd s d (fmul (s a) (s a)))
  | ISet d a => Ok (upd s d (s a))
  | IInv d a => v <- finvert (s a) ;; Ok (upd s d v)
  | IMulZ d a n => Ok (upd s d (fmulz (s a) n))
  | IConst d c => Ok (upd s d c)
  | IMulC d a c => Ok (upd s d (fmul (s a) c))
  end.
Fixpoint run (l : list instr) (s : store) : res store :=
  match l with [] => Ok s | i :: l' => s <- exec s i ;; run l' s end.
End S.
Arguments upd {K}. Arguments exec {K}. Arguments run {K}.
Arguments IAdd {K}. Arguments ISub {K}. Arguments IMul {K}. Arguments INeg {K}. Arguments IDbl {K}. Arguments ISqr {K}.
Arguments ISet {K}. Arguments IInv {K}. Arguments IMulZ {K}. Arguments IConst {K}. Arguments IMulC {K}.
