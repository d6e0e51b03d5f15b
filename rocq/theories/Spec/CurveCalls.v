(** What a history of calls on a register file of curve points should do. *)
From Coq Require Import ZArith List Bool.
From Verif.Base Require Import Outcome Algebra Slots.
From Verif.Spec Require Import Curve.
From Verif.Model Require Import Curve.     (* only for the call syntax *)
Import ListNotations.
Open Scope Z_scope.

Section P.
Variables (K : fld) (a : K).
Notation point := (point K).
Definition peqb (P Q : point) : bool :=
  match P, Q with
  | None, None => true
  | Some (x, y), Some (z, w) => feqb x z && feqb y w
  | _, _ => false
  end.
(** When points stand for their cosets modulo the points killed by n, they are
    equal when n times their difference is zero. *)
Definition same_point (quotient : option Z) (P Q : point) : bool :=
  match quotient with None => peqb P Q | Some n => peqb (pzmul K a n (padd K a P (pneg Q))) None end.

Definition setp (s : nat -> point) (d : nat) (P : point) : nat -> point := fun i => if Nat.eqb i d then P else s i.
Definition pstep (quotient : option Z) (s : nat -> point) (c : ccall) : (nat -> point) * list (bool + point) :=
  match c with
  | CSet d p => (setp s d (s p), [])
  | CSet0 d => (setp s d None, [])
  | CAdd d p q => (setp s d (padd K a (s p) (s q)), [])
  | CSub d p q => (setp s d (padd K a (s p) (pneg (s q))), [])
  | CNeg d p => (setp s d (pneg (s p)), [])
  | CDbl d p => (setp s d (padd K a (s p) (s p)), [])
  | CMulZ d p n => (setp s d (pzmul K a n (s p)), [])
  | CIs0 p => (s, [inl (peqb (s p) None)])
  | CCmp p q => (s, [inl (negb (same_point quotient (s p) (s q)))])
  | CValue p => (s, [inr (s p)])
  end.
Fixpoint prun (quotient : option Z) (s : nat -> point) (h : list ccall) : list (bool + point) :=
  match h with
  | [] => []
  | c :: h' => let r := pstep quotient s c in snd r ++ prun quotient (fst r) h'
  end.
(** One addition (c, (p, q)): c <- p + q, or doubling (c, p), after the other. *)
Fixpoint seq_add (v : nat -> point) (l : list (nat * (nat * nat))) : nat -> point :=
  match l with [] => v | (c, (p, q)) :: l' => seq_add (setp v c (padd K a (v p) (v q))) l' end.
Fixpoint seq_double (v : nat -> point) (l : list (nat * nat)) : nat -> point :=
  match l with [] => v | (c, p) :: l' => seq_double (setp v c (padd K a (v p) (v p))) l' end.
(** No output is an input of a later entry. *)
Fixpoint independent (l : list (nat * list nat)) : Prop :=
  match l with
  | [] => True
  | (c, _) :: l' => (forall d ps, In (d, ps) l' -> ~ In c ps) /\ independent l'
  end.
Definition add_inputs (e : nat * (nat * nat)) : nat * list nat := (fst e, [fst (snd e); snd (snd e)]).
Definition double_inputs (e : nat * nat) : nat * list nat := (fst e, [snd e]).
(** The multiplications in the history have non-negative scalars. *)
Definition scalars_ok (h : list ccall) : Prop := forall d p n, In (CMulZ d p n) h -> 0 <= n.
End P.

(** Pairs and triples of variables, as arguments of the batch operations. *)
Definition reg2 (e : nat * nat) : obj * obj := (Reg (fst e), Reg (snd e)).
Definition reg3 (e : nat * (nat * nat)) : obj * (obj * obj) := (Reg (fst e), reg2 (snd e)).
