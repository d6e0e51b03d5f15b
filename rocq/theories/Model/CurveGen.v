(** The last part of the parameter generators: which curve, extension
    polynomial and nonresidues are chosen once q and r are known.
    ecc/d_param.c:1100-1172 and 1226-1272, ecc/g_param.c:1173-1244 and 1405-1440
    (the same text with degree 5), ecc/e_param.c:988-1007, ecc/f_param.c:517-602.
    element_random takes the next value of [src], pbc_mpz_random the next
    integer, given as [x] (random points are multiples of the generator by a
    random integer, ecc/curve.c:430-438, 719).  The field gives is_sqr and sqrt,
    and field_get_nqr as [nqr].  element_to_mpz of the results, which stores the
    representatives below q, is left out. *)
From Coq Require Import ZArith List Bool.
From Verif.Base Require Import Outcome Algebra Slots.
From Verif.Spec Require Import Curve Extension Quadratic.     (* only for types *)
From Verif.Model Require Import GenericPow Poly PolyTests Curve CurveCodec.
Import ListNotations.
Open Scope Z_scope.

Section G.
Variable K : fld.
Variable order : Z.
Variables (isprime : Z -> bool) (nextprime : Z -> Z).
Variables (is_sqr : K -> bool) (sqrt : K -> res K).

(** ** Extension polynomial and nonresidue: d_param.c:1236-1249 *)
(** poly.c:1462-1469; None when the source runs out *)
Definition random_monic (d : nat) (src : list K) : res (list K * list K) :=
  if (length src <? d)%nat then OutOfFuel else Ok (firstn d src ++ [f1], skipn d src).
(** d_param.c:1239-1241, [fuel] iterations at most *)
Fixpoint irred_loop (fuel : nat) (d : nat) (src : list K) : res (list K * list K) :=
  match fuel with
  | O => OutOfFuel
  | S fuel =>
      ' (f, src) <- random_monic d src ;;
      b <- poly_is_irred K order isprime nextprime f ;;
      if b then Ok (f, src) else irred_loop fuel d src
  end.
(** the element of Fqd whose coefficient 0 is c and the others 0 *)
Definition coeff0 (d : nat) (c : K) : vec K d := mkvec d (fun i => if Nat.eqb i 0 then c else f0).
(** d_param.c:1246-1248 *)
Fixpoint nqr_loop (d : nat) (f : list K) (src : list K) : res (K * list K) :=
  match src with
  | [] => OutOfFuel
  | c :: src =>
      b <- polymod_is_sqr (Ext K d f) (order ^ Z.of_nat d) (coeff0 d c) ;;
      if b then nqr_loop d f src else Ok (c, src)
  end.
(** d_param.c:1236-1249, g_param.c:1413-1426 *)
Definition extension_gen (fuel : nat) (d : nat) (src : list K) : res (list K * K * list K) :=
  ' (f, src) <- irred_loop fuel d src ;;
  ' (c, src) <- nqr_loop d f src ;;
  Ok (f, c, src).

(** ** Choice of a curve or of its twist *)
(** curve.c:405-422, with the rest of the source *)
Fixpoint draw_point (a b : K) (src : list K) : res (point K * list K) :=
  match src with
  | [] => OutOfFuel
  | X :: src =>
      let t := cubic K a b X in
      if is_sqr t then Y <- sqrt t ;; Ok (Some (X, Y), src) else draw_point a b src
  end.
(** curve.c:748 (a generator is drawn), element_random and element_mul_mpz;
    the answer of element_is0 *)
Definition test_order (a b : K) (n x : Z) (src : list K) : res (bool * list K) :=
  ' (G, src) <- draw_point a b src ;;
  P <- random_pointmul K a G x ;;
  R <- clear_cofactor K a (Some n) P ;;
  Ok (match R with None => true | Some _ => false end, src).
(** d_param.c:1140-1149, e_param.c:994-1002; field_reinit_curve_twist draws new
    generators (curve.c:895) *)
Definition twist_if_wrong (nqr a b : K) (n x : Z) (src : list K) : res (K * K * list K) :=
  ' (ok, src) <- test_order a b n x src ;;
  if ok then Ok (a, b, src)
  else
    let '(a, b) := twist_coeffs K a b nqr in
    ' (_, src) <- draw_point a b src ;;
    Ok (a, b, src).
(** d_param.c:1109-1154; [coeffs] is what pbc_hilbert gives.  The answer of
    poly_findroot is not looked at: with -1, root is still 0. *)
Definition cm_curve (nqr : K) (coeffs : list Z) (n x : Z) (src : list K) : res (K * K * list K) :=
  let hp : list K := map fofz coeffs in
  r <- poly_findroot K order src hp ;;
  let '(root, src) := match r with Some s => s | None => (f0, src) end in
  ' (a, b) <- j_coeffs K root ;;
  twist_if_wrong nqr a b n x src.
(** e_param.c:988-1004; field_init_curve_b takes a = 0 (curve.c:934-938) *)
Definition e_curve (nqr : K) (n x : Z) (src : list K) : res (K * K * list K) :=
  twist_if_wrong nqr f0 f1 n x src.

(** f_param.c:520-531; one integer for each curve tried *)
Fixpoint f_curve_loop (r : Z) (xs : list Z) (src : list K) : res (K * list Z * list K) :=
  match xs, src with
  | x :: xs, b :: src =>
      ' (ok, src) <- test_order f0 b r x src ;;
      if ok then Ok (b, xs, src) else f_curve_loop r xs src
  | _, _ => OutOfFuel
  end.
End G.

(** d_param.c:1155-1169: the order of the curve over the field with q^k elements,
    and hk; mpz_divexact *)
Definition extension_order (q n k : Z) : Z := q ^ k - (trace_n q (q - n + 1) k - 1).
Definition extension_cofactor (q n r k : Z) : Z := extension_order q n k / (r * r).

(** ** Type F: the sextic polynomial over L = Fq2 *)
Section F.
Variable L : fld.
Variable order : Z.
Variables (isprime : Z -> bool) (nextprime : Z -> Z).
Variables (is_sqr : L -> bool) (sqrt : L -> res L).
Definition sextic (alpha : L) : list L := [alpha; f0; f0; f0; f0; f0; f1].
(** f_param.c:541-545 *)
Fixpoint sextic_loop (src : list L) : res (L * list L) :=
  match src with
  | [] => OutOfFuel
  | alpha :: src =>
      b <- poly_is_irred L order isprime nextprime (sextic alpha) ;;
      if b then Ok (alpha, src) else sextic_loop src
  end.
(** f_param.c:555-586; [b] is the image of the coefficient in Fq2 *)
Definition fix_twist (b : L) (q t r : Z) (x : Z) (alpha : L) (src : list L) : res (L * list L) :=
  let e1 := fopp (fmul b alpha) in
  let z1 := (q ^ 12 + 1 - trace_n q t 12) / (r * r) in
  ' (ok, src) <- test_order L is_sqr sqrt f0 e1 z1 x src ;;
  if ok then alpha <- generic_pow_mpz (mul_monoid L) alpha 5 ;; Ok (alpha, src) else Ok (alpha, src).
(** f_param.c:537-590 *)
Definition sextic_gen (b : L) (q t r x : Z) (src : list L) : res (L * list L) :=
  ' (alpha, src) <- sextic_loop src ;;
  fix_twist b q t r x alpha src.
End F.
