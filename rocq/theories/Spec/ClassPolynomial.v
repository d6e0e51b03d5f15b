(** Reduced binary quadratic forms and the polynomial with the roots j. *)
From Coq Require Import ZArith List QArith Qcanon.
From Verif.Base Require Import Algebra.
From Verif.Spec Require Import Quadratic Polynomials.
Import ListNotations.
Open Scope Z_scope.

(** a X^2 + b XY + c Y^2 is a reduced positive definite form of discriminant -D (Cohen, def. 5.3.2). *)
Definition reduced (D a b c : Z) : Prop :=
  b * b - 4 * a * c = - D /\ 0 < a /\ Z.abs b <= a <= c /\ (Z.abs b = a \/ a = c -> 0 <= b).
(** -D is a discriminant, and a fundamental one. *)
Definition discriminant (D : Z) : Prop := 0 < D /\ (D mod 4 = 0 \/ D mod 4 = 3).
Definition fundamental (D : Z) : Prop := discriminant D /\ forall g, 1 < g -> forall E, D = g * g * E -> ~ discriminant E.
Definition primitive (a b c : Z) : Prop := Z.gcd a (Z.gcd b c) = 1.

(** The complex numbers K(i), conjugation. *)
Definition Cx (K : fld) : fld := Quad K (fopp f1).
Definition conj_c {K : fld} (z : Cx K) : Cx K := (fst z, fopp (snd z)).
(** A call that leaves v in variable r and changes no other variable. *)
Definition writes {K : fld} (s s' : nat -> K * K) (r : nat) (v : Cx K) : Prop := s' r = v /\ forall i, i <> r -> s' i = s i.
(** The product of X - j(a, b) over a list of forms. *)
Definition class_polynomial {K : fld} (j : Z -> Z -> Cx K) (l : list (Z * Z * Z)) : list (Cx K) :=
  fold_right (fun '(a, b, c) P => Xmul [fopp (j a b); f1] P) [f1] l.

(** The field of rational numbers. *)
Open Scope Qc_scope.
Definition Qfield : fld := {|
  fcar := Qc; f0 := 0; f1 := 1; fadd := Qcplus; fsub := Qcminus; fmul := Qcmult; fopp := Qcopp; fdiv := Qcdiv; finv := Qcinv;
  feqb := Qc_eq_bool |}.
Definition Qc_of (n : Z) : Qc := Q2Qc (inject_Z n).
Definition half : Qc := Q2Qc (1 # 2).
Definition within_half (x : Qc) (n : Z) : Prop := Qc_of n - half < x /\ x < Qc_of n + half.
