(** GF(3) and polynomials over it written as coefficient functions. *)
From Coq Require Import ZArith List Bool.
From Verif.Base Require Import Algebra.
From Verif.Spec Require Import Polynomials Extension.
Import ListNotations.
Open Scope Z_scope.

(** The integers modulo 3. *)
Inductive trit := T0 | T1 | T2.
Definition tval (a : trit) : Z := match a with T0 => 0 | T1 => 1 | T2 => 2 end.
Definition tmod (x : Z) : trit := match x mod 3 with 0 => T0 | 1 => T1 | _ => T2 end.
Definition GF3 : fld := {|
  fcar := trit;
  f0 := T0;
  f1 := T1;
  fadd a b := tmod (tval a + tval b);
  fmul a b := tmod (tval a * tval b);
  fsub a b := tmod (tval a - tval b);
  fopp a := tmod (- tval a);
  fdiv a b := tmod (tval a * tval b);   (* 1/1 = 1, 1/2 = 2 *)
  finv a := a;
  feqb a b := tval a =? tval b |}.

(** x^m + x^t + 2 *)
Definition trinomial (m t : nat) : list GF3 :=
  map (fun i => if Nat.eqb i 0 then T2 else if Nat.eqb i t || Nat.eqb i m then T1 else T0) (seq 0 (S m)).
(** GF(3)[x] / (x^m + x^t + 2) *)
Definition GF3m (m t : nat) : fld := Ext GF3 m (trinomial m t).

(** Bit-sliced storage: word i/64, bit i mod 64 of two arrays of 64-bit words. *)
Definition bit (ws : list Z) (i : nat) : bool := Z.testbit (nth (i / 64) ws 0) (Z.of_nat (i mod 64)).
(** Coefficient i of the polynomial stored in the arrays a and b: 1 if bit i
    is set in a, 2 if it is set in b. *)
Definition tcoef (a b : list Z) (i : nat) : trit := if bit a i then T1 else if bit b i then T2 else T0.
(** Arrays of len words that store a polynomial: no coefficient is both 1 and 2. *)
Definition sliced (len : nat) (a b : list Z) : Prop :=
  length a = len /\ length b = len /\
  Forall (fun w => 0 <= w < 2 ^ 64) a /\ Forall (fun w => 0 <= w < 2 ^ 64) b /\
  forall i, bit a i && bit b i = false.
(** ... of degree less than m. *)
Definition reduced (m : nat) (a b : list Z) : Prop := forall i, (m <= i)%nat -> tcoef a b i = T0.
(** The element of GF(3)[x]/(x^m + x^t + 2) stored in the arrays a and b. *)
Definition sliced_value (m t : nat) (a b : list Z) : GF3m m t := mkvec (K := GF3) m (tcoef a b).
