(** Polynomials in one variable over a field, by their coefficients.  A list
    gives the coefficients from the constant term up. *)
From Coq Require Import List Arith.
From Verif.Base Require Import Algebra.
Import ListNotations.

Section P.
Variable K : fld.
Implicit Types f g d : list K.
Definition coef f (i : nat) : K := nth i f f0.
(** The same polynomial (up to leading zeroes of the representation). *)
Definition eqp f g : Prop := forall i, coef f i = coef g i.
(** No leading zeroes: the length is one more than the degree; [] is 0. *)
Definition normal f : Prop := f <> [] -> last f f0 <> f0.
Fixpoint trim f : list K :=
  match f with
  | [] => []
  | a :: f' => match trim f' with [] => if feqb a f0 then [] else [a] | g => a :: g end
  end.
(** t 0 + ... + t (n-1) *)
Fixpoint sum (n : nat) (t : nat -> K) : K := match n with O => f0 | S n' => fadd (sum n' t) (t n') end.
(** Coefficients of the product. *)
Definition conv f g (i : nat) : K := sum (S i) (fun j => fmul (coef f j) (coef g (i - j))).

(** The polynomial with the given coefficients below n. *)
Definition poly_of (n : nat) (c : nat -> K) : list K := trim (map c (seq 0 n)).
Definition Xadd f g := poly_of (max (length f) (length g)) (fun i => fadd (coef f i) (coef g i)).
Definition Xsub f g := poly_of (max (length f) (length g)) (fun i => fsub (coef f i) (coef g i)).
Definition Xopp f := poly_of (length f) (fun i => fopp (coef f i)).
Definition Xscale (c : K) f := poly_of (length f) (fun i => fmul c (coef f i)).
Definition Xmul f g := poly_of (length f + length g) (conv f g).
Definition Xconst (c : K) := poly_of 1 (fun _ => c).

(** d divides f. *)
Definition divides d f : Prop := exists h, forall i, coef f i = conv d h i.
(** f and g are equal modulo m. *)
Definition cong (m f g : list K) : Prop := exists h, forall i, coef f i = fadd (coef g i) (conv h m i).
(** m is monic of degree n. *)
Definition monic (m : list K) (n : nat) : Prop := length m = S n /\ coef m n = f1.
(** Degree at least one and no factorisation into two factors of smaller
    degree. *)
Definition constant f : Prop := forall i, (0 < i)%nat -> coef f i = f0.
Definition irreducible (m : list K) : Prop :=
  ~ constant m /\ forall f g, (forall i, coef m i = conv f g i) -> constant f \/ constant g.
End P.
Arguments coef {K}. Arguments eqp {K}. Arguments normal {K}. Arguments trim {K}. Arguments sum {K}. Arguments conv {K}.
Arguments poly_of {K}. Arguments Xadd {K}. Arguments Xsub {K}. Arguments Xopp {K}. Arguments Xscale {K}. Arguments Xmul {K}.
Arguments Xconst {K}. Arguments divides {K}. Arguments cong {K}. Arguments monic {K}. Arguments constant {K}. Arguments irreducible {K}.
