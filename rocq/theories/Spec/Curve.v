(** Elliptic curves Y^2 = X^3 + aX + b: points and the chord-and-tangent law,
    as in any textbook.  None is the point at infinity. *)
From Coq Require Import ZArith Bool.
From Verif.Base Require Import Algebra.

Section E.
Variables (K : fld) (a b : K).
Local Notation "x + y" := (fadd x y). Local Notation "x - y" := (fsub x y). Local Notation "x * y" := (fmul x y).
Local Notation "x / y" := (fdiv x y).
Definition point : Type := option (K * K).
Definition rhs (x : K) : K := x * x * x + a * x + b.
Definition on_curve (P : point) : Prop := match P with None => True | Some (x, y) => y * y = rhs x end.

Definition f2 : K := f1 + f1.
Definition f3 : K := f1 + f1 + f1.
(** the third point of the line of slope l through (x1,y1) and a point of
    abscissa x2, reflected *)
Definition third (l x1 y1 x2 : K) : point :=
  let x3 := l * l - x1 - x2 in Some (x3, l * (x1 - x3) - y1).
Definition pneg (P : point) : point := match P with None => None | Some (x, y) => Some (x, fopp y) end.
Definition padd (P Q : point) : point :=
  match P, Q with
  | None, _ => Q
  | _, None => P
  | Some (x1, y1), Some (x2, y2) =>
      if negb (feqb x1 x2) then third ((y2 - y1) / (x2 - x1)) x1 y1 x2
      else if feqb y1 y2 && negb (feqb y1 f0) then third ((f3 * (x1 * x1) + a) / (f2 * y1)) x1 y1 x1
      else None
  end.
(** n times P, by repeated addition. *)
Fixpoint pmul (n : nat) (P : point) : point := match n with O => None | S n' => padd P (pmul n' P) end.
Definition pzmul (n : Z) (P : point) : point :=
  match n with Z0 => None | Zpos p => pmul (Pos.to_nat p) P | Zneg p => pneg (pmul (Pos.to_nat p) P) end.

(** The curve is an elliptic curve: no singular point, characteristic not 2. *)
Definition elliptic : Prop :=
  f2 <> f0 /\ f2 * f2 * (a * a * a) + f3 * f3 * f3 * (b * b) <> f0.
End E.
Arguments pneg {K}.
