(** Type E pairings, ecc/e_param.c: embedding degree 1.  The functions are
    evaluated at the divisor (Q + R) - (R), R a fixed point of the curve, and
    numerators and denominators are collected separately.  Simplification as
    in Model/PairingA.v: reading the coordinates of the identity is [UB]. *)
From Coq Require Import ZArith List Bool.
From Verif.Base Require Import Outcome Array Algebra Slots Gmp.
From Verif.Spec Require Import Curve.
From Verif.Model Require Import GenericPow Curve Pairing PairingA.
Import ListNotations.
Local Open Scope Z_scope.

(** e_param.c:23-29; [expo2] etc. are exp2, exp1, sign1, sign0 *)
Record e_info := { ee2 : Z; ee1 : Z; es1 : Z; es0 : Z }.

Section E.
Variable K : fld.
Local Notation "x + y" := (fadd x y). Local Notation "x - y" := (fsub x y). Local Notation "x * y" := (fmul x y). Local Notation "- x" := (fopp x).
Variable cca : K.                 (* curve_a_coeff(P) *)
Variables num den : K * K.        (* the coordinates of QR and of R *)

(** a numerator and a denominator: the last lines of do_tangent and do_line,
    :167-177, 201-211, 351-361, 377-387 *)
Definition frac : Type := K * K.
Definition e_eval (abc : coeffs K) (pt : K * K) : K :=
  let '(a, b, c) := abc in
  let e0 := a * fst pt in
  let e1 := b * snd pt in
  let e0 := e0 + e1 in
  e0 + c.
Definition e_times (abc : coeffs K) (f : frac) : frac := (fst f * e_eval abc num, snd f * e_eval abc den).
(** do_line, :190-212, 366-388 *)
Definition e_line (A B : K * K) : coeffs K :=
  let '(Ax, Ay) := A in
  let '(Bx, By) := B in
  let b := Bx - Ax in
  let a := Ay - By in
  let c := Ax * By in
  let e0 := Ay * Bx in
  let c := c - e0 in
  (a, b, c).

(** ** e_miller_affine, :302-465 *)
(** do_tangent, :329-350 *)
Definition e_tangent (Zx Zy : K) : coeffs K :=
  let a := Zx * Zx in
  let a := fofz 3 * a in
  let a := a + cca in
  let a := - a in
  let b := Zy + Zy in
  let e0 := b * Zy in
  let c := a * Zx in
  let c := c + e0 in
  let c := - c in
  (a, b, c).
(** do_vertical(e, edenom, Ax), :321-327 *)
Definition e_vertical (f : frac) (Ax : K) : frac := (fst f * (fst num - Ax), snd f * (fst den - Ax)).
Definition swap (f : frac) : frac := (snd f, fst f).
(** the loops, :413-420, 431-438 *)
Fixpoint e_affine_loop (n : nat) (f : frac) (Z : point K) : res (frac * point K) :=
  match n with
  | O => Ok (f, Z)
  | S n' =>
      let f := (fst f * fst f, snd f * snd f) in
      ' (Zx, Zy) <- coords K Z ;;
      let f := e_times (e_tangent Zx Zy) f in
      Z <- double_value K cca Z ;;
      ' (Zx, Zy) <- coords K Z ;;
      (* do_vertical(vd, v, Zx) *)
      let f := swap (e_vertical (swap f) Zx) in
      e_affine_loop n' f Z
  end.
(** the number of iterations of the second loop: i goes on from exp1 *)
Definition loop1 (i : e_info) : nat := Z.to_nat (ee1 i).
Definition loop2 (i : e_info) : nat := Z.to_nat (ee2 i - Z.max 0 (ee1 i)).
(** :421-430 *)
Definition e_middle (i : e_info) (f : frac) (Zc : K * K) : frac * point K :=
  if es1 i <? 0 then (swap (e_vertical f (fst Zc)), Some (fst Zc, - snd Zc)) else (f, Some Zc).
(** :439-450 *)
Definition e_final (i : e_info) (Px : K) (f f1' : frac) (Z Z1 : point K) : res K :=
  let f := (fst f * fst f1', snd f * snd f1') in
  A <- coords K Z ;;
  B <- coords K Z1 ;;
  let f := e_times (e_line A B) f in
  Z <- mul_value K cca Z Z1 ;;
  ' (Zx, Zy) <- coords K Z ;;
  let f := swap (e_vertical (swap f) Zx) in
  let f := if es0 i >? 0 then e_vertical f Px else f in
  vd <- finvert (snd f) ;;
  Ok (fst f * vd).
Definition e_miller_affine (i : e_info) (P : point K) : res K :=
  ' (Px, _) <- coords K P ;;
  ' (f, Z) <- e_affine_loop (loop1 i) (f1, f1) P ;;
  Zc <- coords K Z ;;
  let '(f1', Z1) := e_middle i f Zc in
  ' (f, Z) <- e_affine_loop (loop2 i) f Z ;;
  e_final i Px f f1' Z Z1.

(** ** e_miller_proj, :64-300 *)
Definition ejac : Type := K * K * K * K.    (* Zx, Zy, z, z2 *)
(** to_affine, :88-96 *)
Definition e_to_affine (Z : ejac) : res ejac :=
  let '(Zx, Zy, z, z2) := Z in
  z <- finvert z ;;
  let e0 := z * z in
  let Zx := Zx * e0 in
  let e0 := e0 * z in
  let Zy := Zy * e0 in
  Ok (Zx, Zy, f1, f1).
(** proj_double, :98-140 *)
Definition e_proj_double (Z : ejac) : ejac :=
  let '(x, y, z, z2) := Z in
  let e0 := x * x in
  let e1 := e0 + e0 in
  let e0 := e0 + e1 in
  let e1 := z2 * z2 in
  let e1 := e1 * cca in
  let e0 := e0 + e1 in
  let z := y * z in
  let z := z + z in
  let z2 := z * z in
  let e2 := y * y in
  let e1 := x * e2 in
  let e1 := e1 + e1 in
  let e1 := e1 + e1 in
  let e3 := e1 + e1 in
  let x := e0 * e0 in
  let x := x - e3 in
  let e2 := e2 * e2 in
  let e2 := e2 + e2 in
  let e2 := e2 + e2 in
  let e2 := e2 + e2 in
  let e1 := e1 - x in
  let e0 := e0 * e1 in
  let y := e0 - e2 in
  (x, y, z, z2).
(** do_tangent, :142-166 *)
Definition e_tangent_proj (Z : ejac) : coeffs K :=
  let '(Zx, Zy, z, z2) := Z in
  let a := z2 * z2 in
  let a := a * cca in
  let b := Zx * Zx in
  let e0 := b + b in
  let b := b + e0 in
  let a := a + b in
  let a := - a in
  let e0 := Zy + Zy in
  let b := e0 * z2 in
  let b := b * z in
  let c := Zx * a in
  let a := a * z2 in
  let e0 := e0 * Zy in
  let c := c + e0 in
  let c := - c in
  (a, b, c).
(** do_vertical, :180-188 *)
Definition e_vertical_proj (f : frac) (z2 Ax : K) : frac := (fst f * (fst num * z2 - Ax), snd f * (fst den * z2 - Ax)).
Fixpoint e_proj_loop (n : nat) (f : frac) (Z : ejac) : frac * ejac :=
  match n with
  | O => (f, Z)
  | S n' =>
      let f := (fst f * fst f, snd f * snd f) in
      let f := e_times (e_tangent_proj Z) f in
      let Z := e_proj_double Z in
      let '(Zx, Zy, z, z2) := Z in
      let f := swap (e_vertical_proj (swap f) z2 Zx) in
      e_proj_loop n' f Z
  end.
(** :241-280; after to_affine, z = z2 = 1, and do_vertical multiplies by z2 *)
Definition e_middle_proj (i : e_info) (f : frac) (Z : ejac) : frac * point K :=
  let '(Zx, Zy, z, z2) := Z in
  if es1 i <? 0 then (swap (e_vertical_proj f z2 Zx), Some (Zx, - Zy)) else (f, Some (Zx, Zy)).
Definition e_final_proj (i : e_info) (Px : K) (f f1' : frac) (Z : ejac) (Z1 : point K) : res K :=
  let '(Zx, Zy, z, z2) := Z in
  let f := (fst f * fst f1', snd f * snd f1') in
  B <- coords K Z1 ;;
  let f := e_times (e_line (Zx, Zy) B) f in
  Z <- mul_value K cca (Some (Zx, Zy)) Z1 ;;
  ' (Zx, Zy) <- coords K Z ;;
  let f := swap (e_vertical_proj (swap f) z2 Zx) in
  let f := if es0 i >? 0 then e_vertical_proj f z2 Px else f in
  vd <- finvert (snd f) ;;
  Ok (fst f * vd).
Definition e_miller_proj (i : e_info) (P : point K) : res K :=
  ' (Px, Py) <- coords K P ;;
  let '(f, Z) := e_proj_loop (loop1 i) (f1, f1) (Px, Py, f1, f1) in
  Z <- e_to_affine Z ;;
  let '(f1', Z1) := e_middle_proj i f Z in
  let '(f, Z) := e_proj_loop (loop2 i) f Z in
  Z <- e_to_affine Z ;;
  e_final_proj i Px f f1' Z Z1.
End E.

Section P.
Variable K : fld.
Variable a4 : K.
Variable i : e_info.
Variables q r : Z.
(** p->R: curve_set_gen_no_cofac at e_param.c:870 *)
Variable R : point K.
(** e_pairing, :471-480; the global function pointer, :467-469, 799-813 *)
Definition e_pairing (m : a_method) (in1 in2 : point K) : res K :=
  QR <- mul_value K a4 in2 R ;;
  num <- coords K QR ;;
  den <- coords K R ;;
  f <- (match m with PairingA.Miller => e_miller_proj K a4 num den i in1 | MillerAffine => e_miller_affine K a4 num den i in1 end) ;;
  generic_pow_mpz (mul_monoid K) f ((q - 1) / r).
(** e_finalpow, :828-830 *)
Definition e_finalpow (e : K) : res K := generic_pow_mpz (mul_monoid K) e ((q - 1) / r).
(** Installation, :832-876: default products and preprocessing
    (ecc/pairing.c:61-72).  The latter keeps a pointer to in1; here the point
    itself, so this describes calls during which in1 does not change;
    Model/DefaultPP.v has the memory. *)
Definition e_pairing_rec (m : a_method) : pairing :=
  {| g1 := point K; g2 := point K; gt := K; ppt := point K;
     is0_1 := is_inf K; is0_2 := is_inf K;
     map_ := e_pairing m;
     pp_init_ := fun in1 => Ok in1;
     pp_apply_ := e_pairing m;
     prod_ := generic_prod_pairings (e_pairing m) |}.
End P.
