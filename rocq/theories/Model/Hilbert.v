(** Class polynomials (ecc/hilbert.c): the forms, and the product.

    Modelled: the enumeration of forms and the accumulation of the product in
    pbc_hilbert.  The value j((-b + sqrt(-D))/(2a)) is a parameter [jv a b]
    (compute_j and everything below it approximates a transcendental function
    in floating point), the arithmetic on the coefficients is exact, and
    [round] stands for the rounding of a real part (499-520). *)
From Coq Require Import ZArith List Bool QArith Qcanon.
From Verif.Base Require Import Outcome Algebra.
From Verif.Model Require Import Mpc.
Import ListNotations.
Open Scope Z_scope.

(** int arithmetic; overflow is undefined. *)
Definition cint (x : Z) : res Z := if (- 2 ^ 31 <=? x) && (x <? 2 ^ 31) then Ok x else UB.
(** B, hilbert.c:336.  Simplification: floor(sqrt(D / 3.0)) in exact arithmetic. *)
Definition form_bound (D : Z) : Z := Z.sqrt (D / 3).
(** step3 and step4, 401-405 and 493: all a from the current one on with a*a <= t; the
    visits (a, b, t) in order. *)
Fixpoint forms_a (fuel : nat) (b t a : Z) : res (list (Z * Z * Z)) :=
  match fuel with
  | O => OutOfFuel
  | S f =>
    let here := if Z.rem t a =? 0 then [(a, b, t)] else [] in
    let a := a + 1 in
    a2 <- cint (a * a) ;;
    if a2 <=? t then l <- forms_a f b t a ;; Ok (here ++ l) else Ok here
  end.
(** The loop over b: 392-497. *)
Fixpoint forms_b (fuel : nat) (D B b : Z) : res (list (Z * Z * Z)) :=
  match fuel with
  | O => OutOfFuel
  | S f =>
    n <- cint (b * b + D) ;;
    let t := Z.quot n 4 in
    l <- forms_a fuel b t (if 1 <? b then b else 1) ;;
    let b := b + 2 in
    if B <? b then Ok l else l' <- forms_b f D B b ;; Ok (l ++ l')
  end.
Definition forms (fuel : nat) (D : Z) : res (list (Z * Z * Z)) := forms_b fuel D (form_bound D) (Z.rem D 2).

(** The first pass, 348-375: h, the number of roots.  For b <= 1 the pass starts
    with a = 2, and h with 1. *)
Definition weight (v : Z * Z * Z) : Z := let '(a, b, t) := v in if (a =? b) || (a * a =? t) || (b =? 0) then 1 else 2.
Definition count_a (fuel : nat) (b t a : Z) : res Z := l <- forms_a fuel b t a ;; Ok (fold_right (fun v n => weight v + n) 0 l).
Fixpoint count_b (fuel : nat) (D B b h : Z) : res Z :=
  match fuel with
  | O => OutOfFuel
  | S f =>
    n <- cint (b * b + D) ;;
    let t := Z.quot n 4 in
    k <- (if b <=? 1 then a2 <- cint (2 * 2) ;; if a2 <=? t then count_a fuel b t 2 else Ok 0 else count_a fuel b t b) ;;
    let b := b + 2 in
    if B <? b then Ok (h + k) else count_b f D B b (h + k)
  end.
Definition class_number (fuel : nat) (D : Z) : res Z := count_b fuel D (form_bound D) (Z.rem D 2) 1.

Section P.
Variable K : fld.
Local Notation C := (cplx K).
(** The results of mpc_mul and mpc_add on separate variables. *)
Definition vmul (x y : C) : C :=
  let ac := fmul (fst x) (fst y) in
  let bd := fmul (snd x) (snd y) in
  (fsub ac bd, fsub (fsub (fmul (fadd (fst y) (snd y)) (fadd (fst x) (snd x))) ac) bd).
Definition vadd (x y : C) : C := (fadd (fst x) (fst y), fadd (snd x) (snd y)).
Definition vneg (x : C) : C := (fopp (fst x), fopp (snd x)).

(** P *= X - j: 427-445.  Pz is the list of coefficients below the leading
    1, the highest first. *)
Fixpoint times1_loop (p0 z1 : C) (items : list C) : list C * C :=
  match items with
  | [] => ([], z1)
  | c :: l =>
    let z0 := vmul z1 p0 in
    let z1 := c in
    let '(l', z) := times1_loop p0 z1 l in
    (vadd z1 z0 :: l', z)
  end.
Definition times1 (Pz : list C) (j : C) : list C :=
  let p0 := vneg j in
  match Pz with
  | [] => [p0]
  | c :: l =>
    let z1 := c in
    let '(l', z1') := times1_loop p0 z1 l in
    (vadd z1 p0 :: l') ++ [vmul p0 z1']
  end.
(** P *= X^2 - 2 Re(j) X + |j|^2: 446-492. *)
Fixpoint times2_loop (p0 p1 z1 z2 : C) (items : list C) : list C * C * C :=
  match items with
  | [] => ([], z1, z2)
  | c :: l =>
    let z0 := vmul z1 p1 in
    let alpha := vmul z2 p0 in
    let z2 := z1 in
    let z1 := c in
    let alpha := vadd alpha z0 in
    let '(l', y1, y2) := times2_loop p0 p1 z1 z2 l in
    (vadd z1 alpha :: l', y1, y2)
  end.
Definition times2 (Pz : list C) (j : C) : list C :=
  let p1 : C := (fopp (fadd (fst j) (fst j)), f0) in
  let p0 : C := (fadd (fmul (snd j) (snd j)) (fmul (fst j) (fst j)), f0) in
  match Pz with
  | [] => [p1; p0]
  | [c] =>
    let z1 := c in
    let p1' := vadd (vmul z1 p1) p0 in
    [vadd z1 p1; p1'; vmul p0 z1]
  | c0 :: c1 :: l =>
    let z2 := c0 in
    let z1 := c1 in
    let i0 := vadd z2 p1 in
    let z0 := vmul z2 p1 in
    let i1 := vadd (vadd z1 z0) p0 in
    let '(l', z1, z2) := times2_loop p0 p1 z1 z2 l in
    let z0 := vmul z2 p0 in
    let p1' := vadd (vmul p1 z1) z0 in
    (i0 :: i1 :: l') ++ [p1'; vmul p0 z1]
  end.
(** One visit: 406-493. *)
Definition visit (jv : Z -> Z -> C) (Pz : list C) (v : Z * Z * Z) : list C :=
  let '(a, b, t) := v in
  let j := jv a b in
  if (a =? b) || (a * a =? t) || (b =? 0) then times1 Pz j else times2 Pz j.
Definition accumulate (fuel : nat) (jv : Z -> Z -> C) (D : Z) : res (list C) := l <- forms fuel D ;; Ok (fold_left (visit jv) l []).
(** 499-520: the array, constant term first, with the leading 1. *)
Definition pbc_hilbert (round : K -> Z) (fuel : nat) (jv : Z -> Z -> C) (D : Z) : res (list Z) :=
  Pz <- accumulate fuel jv D ;;
  Ok (map (fun c => round (fst c)) (rev Pz) ++ [1]).
End P.

(** Rounding over the rationals, 505-512: add or subtract 0.5 by sign, then mpz_set_f,
    which truncates. *)
Definition trunc (x : Qc) : Z := Z.quot (Qnum x) (Zpos (Qden x)).
Definition round_re (x : Qc) : Z :=
  trunc (if Qle_bool 0 x then Qcplus x (Q2Qc (1 # 2)) else Qcplus x (Q2Qc (-1 # 2))).
