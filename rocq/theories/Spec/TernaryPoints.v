(** The group of type I: the curve y^2 = x^3 - x + 1 over GF(3^m), with the
    chord-and-tangent law of Spec/Curve.v, and what a stored point stands for. *)
From Coq Require Import ZArith List Bool.
From Verif.Base Require Import Outcome Algebra.
From Verif.Spec Require Import FiniteField Curve Ternary TernaryTower TernaryValues EtaT.
From Verif.Model Require Import GF3m GF3Tower EtaT3.

Definition tp_on (K : fld) (P : point K) : Prop := on_curve K (fopp f1) f1 P.
Definition tp_add (K : fld) (P Q : point K) : point K := padd K (fopp f1) P Q.
Definition tp_mul (K : fld) (n : Z) (P : point K) : point K := pzmul K (fopp f1) n P.
(** x is the abscissa of a point, and not 0. *)
Definition tp_abscissa (K : fld) (x : K) : Prop := x <> f0 /\ is_square (fadd (fsub (fmul x (fmul x x)) x) f1).
(** The value of the pairing: the formula of Spec/EtaT.v, 1 if a point is infinity. *)
Definition tp_pair (K : fld) (m : nat) (P Q : point K) : GF36m K :=
  match P, Q with Some (xp, yp), Some (xq, yq) => eta_T K m xp yp xq yq | _, _ => f1 end.
(** The product of the pairings of the first n pairs of two lists. *)
Definition tp_prod (K : fld) (m : nat) (Ps Qs : list (point K)) : GF36m K :=
  fold_right (fun PQ r => fmul (tp_pair K m (fst PQ) (snd PQ)) r) f1 (combine Ps Qs).
(** A stored point stores a point of the curve. *)
Definition holds_point (m t : nat) (p : params) (a : pt (gf3m_ops p)) (P : point (GF3m m t)) : Prop :=
  match a, P with
  | None, None => True
  | Some (c, d), Some (x, y) => holds m t c x /\ holds m t d y
  | _, _ => False
  end.
Definition holds_curve_point (m t : nat) (p : params) (a : pt (gf3m_ops p)) (P : point (GF3m m t)) : Prop :=
  holds_point m t p a P /\ tp_on (GF3m m t) P.
