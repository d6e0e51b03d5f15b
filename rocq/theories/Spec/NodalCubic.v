(** The cubic Y^2 = X^3 + X^2 and the group of its non-singular points (C57). *)
From Coq Require Import ZArith List Bool.
From Verif.Base Require Import Algebra.
From Verif.Spec Require Import Curve.
From Verif.Model Require Import Singular.     (* only for the call syntax *)
Import ListNotations.

Section N.
Variable K : fld.
Local Notation "x + y" := (fadd x y). Local Notation "x - y" := (fsub x y). Local Notation "x * y" := (fmul x y).
Local Notation "x / y" := (fdiv x y).
Notation point := (point K).
(** on the cubic, and not the node (0, 0) *)
Definition smooth (P : point) : Prop :=
  match P with None => True | Some (x, y) => y * y = x * x * x + x * x /\ ~ (x = f0 /\ y = f0) end.

(** the chord-and-tangent law: third point of the line, reflected *)
Definition node_third (l x1 y1 x2 : K) : point :=
  let x3 := l * l - x1 - x2 - f1 in Some (x3, l * (x1 - x3) - y1).
Definition nadd (P Q : point) : point :=
  match P, Q with
  | None, _ => Q
  | _, None => P
  | Some (x1, y1), Some (x2, y2) =>
      if negb (feqb x1 x2) then node_third ((y2 - y1) / (x2 - x1)) x1 y1 x2
      else if feqb y1 y2 && negb (feqb y1 f0) then node_third ((f3 K * (x1 * x1) + f2 K * x1) / (f2 K * y1)) x1 y1 x1
      else None
  end.
Fixpoint nmul (n : nat) (P : point) : point := match n with O => None | S n' => nadd P (nmul n' P) end.

(** the map to the multiplicative group *)
Definition node_map (P : point) : K := match P with None => f1 | Some (x, y) => (y + x) / (y - x) end.

Definition nset (s : nat -> point) (d : nat) (P : point) : nat -> point := fun i => if Nat.eqb i d then P else s i.
Definition nstep (s : nat -> point) (c : scall) : (nat -> point) * list (bool + point) :=
  match c with
  | SSet d p => (nset s d (s p), [])
  | SSet0 d => (nset s d None, [])
  | SAdd d p q => (nset s d (nadd (s p) (s q)), [])
  | SNeg d p => (nset s d (pneg (s p)), [])
  | SDbl d p => (nset s d (nadd (s p) (s p)), [])
  | SMulZ d p n => (nset s d (nmul (Z.to_nat n) (s p)), [])
  | SIs0 p => (s, [inl match s p with None => true | Some _ => false end])
  | SValue p => (s, [inr (s p)])
  end.
Fixpoint nrun (s : nat -> point) (h : list scall) : list (bool + point) :=
  match h with
  | [] => []
  | c :: h' => let r := nstep s c in snd r ++ nrun (fst r) h'
  end.
Definition nonnegative (h : list scall) : Prop := forall d p n, In (SMulZ d p n) h -> (0 <= n)%Z.
End N.
