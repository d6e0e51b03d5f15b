(** What a history of field calls on a register file of elements of a field L
    should do. *)
From Coq Require Import ZArith List Bool.
From Verif.Base Require Import Outcome Algebra Slots.
Import ListNotations.

(** The public arithmetic calls of an element_t (arguments are registers and
    may coincide). *)
Inductive fcall :=
| FSet (d a : nat) | FSet0 (d : nat) | FSet1 (d : nat) | FSetZ (d : nat) (n : Z)
| FAdd (d a b : nat) | FSub (d a b : nat) | FMul (d a b : nat) | FDiv (d a b : nat)
| FNeg (d a : nat) | FSqr (d a : nat) | FDbl (d a : nat) | FHalve (d a : nat) | FInv (d a : nat)
| FMulZ (d a : nat) (n : Z)
| FIs0 (a : nat) | FIs1 (a : nat) | FCmp (a b : nat) | FValue (a : nat).

Section F.
Variable L : fld.
Inductive fobs := OBool (b : bool) | OValue (x : L).
Definition setr (s : nat -> L) (d : nat) (v : L) : nat -> L := fun i => if Nat.eqb i d then v else s i.

(** Division by zero has no meaning.  element_cmp is true when different. *)
Definition fstep (s : nat -> L) (c : fcall) : res ((nat -> L) * list fobs) :=
  match c with
  | FSet d a => Ok (setr s d (s a), [])
  | FSet0 d => Ok (setr s d f0, [])
  | FSet1 d => Ok (setr s d f1, [])
  | FSetZ d n => Ok (setr s d (fofz n), [])
  | FAdd d a b => Ok (setr s d (fadd (s a) (s b)), [])
  | FSub d a b => Ok (setr s d (fsub (s a) (s b)), [])
  | FMul d a b => Ok (setr s d (fmul (s a) (s b)), [])
  | FDiv d a b => if feqb (s b) f0 then UB else Ok (setr s d (fdiv (s a) (s b)), [])
  | FNeg d a => Ok (setr s d (fopp (s a)), [])
  | FSqr d a => Ok (setr s d (fmul (s a) (s a)), [])
  | FDbl d a => Ok (setr s d (fadd (s a) (s a)), [])
  | FHalve d a => if feqb (fofz 2 : L) f0 then UB else Ok (setr s d (fdiv (s a) (fofz 2)), [])
  | FInv d a => if feqb (s a) f0 then UB else Ok (setr s d (finv (s a)), [])
  | FMulZ d a n => Ok (setr s d (fmul (fofz n) (s a)), [])
  | FIs0 a => Ok (s, [OBool (feqb (s a) f0)])
  | FIs1 a => Ok (s, [OBool (feqb (s a) f1)])
  | FCmp a b => Ok (s, [OBool (negb (feqb (s a) (s b)))])
  | FValue a => Ok (s, [OValue (s a)])
  end.
Fixpoint frun (s : nat -> L) (h : list fcall) : res (list fobs) :=
  match h with
  | [] => Ok []
  | c :: h' => r <- fstep s c ;; os <- frun (fst r) h' ;; Ok (snd r ++ os)
  end.
End F.
Arguments OBool {L}. Arguments OValue {L}.
