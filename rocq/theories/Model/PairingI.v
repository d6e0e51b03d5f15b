(** Type I: the groups G1 = G2 and GT, random elements, scalars and products
    (ecc/eta_T_3.c, on the defaults of arith/field.c and ecc/pairing.c).

    Elements are the stored ones: bit-sliced GF(3^m) elements (Model/GF3m.v),
    points over them and triples of pairs of them (Model/EtaT3.v). *)
From Coq Require Import ZArith List Bool.
From Verif.Base Require Import Outcome Array Algebra.
From Verif.Model Require Import GenericPow GF3m GF3Tower EtaT3.
Import ListNotations.
Open Scope Z_scope.

(** A binary operation that may fail, as the structure the generic
    exponentiation of arith/field.c works in. *)
Definition res_monoid {A : Type} (one : res A) (mul : A -> A -> res A) : monoid :=
  {| mcar := res A; mone := one; mmul := fun u v => a <- u ;; b <- v ;; mul a b |}.
(** element_pow_mpz, where a field leaves it to generic_pow_mpz (arith/field.c:113-126);
    element_square multiplies (383-385). *)
Definition res_pow {A : Type} (one : res A) (mul : A -> A -> res A) (a : A) (n : Z) : res A :=
  v <- generic_pow_mpz (res_monoid one mul) (Ok a) n ;; v.

Section I.
Variable p : params.
Local Notation F := (gf3m_ops p).
(** arith/ternary_extension_field.c:428-437, with f->order = 3^m (516-517). *)
Definition i_sqrt (a : elt) : res elt := res_pow (gf3m_one (p_len p)) (gf3m_mult p) a (Z.quot (3 ^ p_m p + 1) (2 ^ 2)).

(** The group of points: field_init_eta_T_3 (204-221) sets mul = add, invert =
    neg, set1 = set0 and mul_mpz = pow_mpz = generic_pow_mpz.  The rest are
    defaults of arith/field.c: generic_double and generic_square (402-404,
    383-385) add a to itself, generic_sub and generic_div (442-469) negate and
    add. *)
Definition i_point_pow (a : pt F) (n : Z) : res (pt F) := res_pow (Ok None) (point_add F) a n.
Definition i_point_sub (a b : pt F) : res (pt F) := c <- point_invert F b ;; point_add F c a.
Definition i_point_double (a : pt F) : res (pt F) := point_add F a a.
(** element_mul_si and element_halve: generic_mul_si (394-400) and
    generic_halve (406-413) over element_set_si, which is zero_set_mpz
    (420-423) here and gives infinity. *)
Definition i_point_mul_si (a : pt F) (n : Z) : res (pt F) := point_add F a (point_set0 F).
Definition i_point_halve (a : pt F) : res (pt F) :=
  e0 <- point_invert F (point_set0 F) ;; point_add F a e0.

(** point_random: 89-118.  [xs] are the successive values of element_random;
    [t], [t2] start as 0 (gf3m_init, 78-81) and [y] is what the coordinate
    held before.  After `continue' the loop condition is evaluated on the t
    and t2 of the iteration before. *)
Fixpoint i_random_loop (e1 t t2 y : elt) (xs : list elt) : res (elt * elt) :=
  match xs with
  | [] => OutOfFuel
  | x :: xs' =>
    if gf3m_is0 x then
      c <- gf3m_cmp t2 t ;;
      if c =? 0 then Ok (x, y) else i_random_loop e1 t t2 y xs'
    else
      t <- gf3m_cubic p x ;;
      t <- gf3m_sub t x ;;
      t <- gf3m_add t e1 ;;
      y <- i_sqrt t ;;
      t2 <- gf3m_mult p y y ;;
      c <- gf3m_cmp t2 t ;;
      if c =? 0 then Ok (x, y) else i_random_loop e1 t t2 y xs'
  end.
Definition i_point_random (n2 : Z) (y : elt) (xs : list elt) : res (pt F) :=
  e1 <- gf3m_one (p_len p) ;;
  xy <- i_random_loop e1 (zero (p_len p)) (zero (p_len p)) y xs ;;
  i_point_pow (Some xy) n2.

(** GT: pairing_GT_init (ecc/pairing.c:232-283) over gf36m. *)
Definition i_gt_mul (a b : gf6 F) : res (gf6 F) := gf33m_mult (gf32m_ops F) a b.
Definition i_gt_one : res (gf6 F) := gf33m_set1 (gf32m_ops F).
Definition i_gt_pow (a : gf6 F) (n : Z) : res (gf6 F) := res_pow i_gt_one i_gt_mul a n.
(** element_pairing: pairing_apply, include/pbc_pairing.h:118-135. *)
Definition i_pairing (P Q : pt F) : res (gf6 F) :=
  if point_is0 F P then i_gt_one else if point_is0 F Q then i_gt_one else eta_T_pairing F (p_m p) P Q.
(** GT_random: 689-698; the new points a and b start as infinity with both
    coordinates 0 (point_init, 53-60). *)
Definition i_gt_random (n2 : Z) (xs xs' : list elt) : res (gf6 F) :=
  a <- i_point_random n2 (zero (p_len p)) xs ;;
  b <- i_point_random n2 (zero (p_len p)) xs' ;;
  i_pairing a b.
(** element_prod_pairing (include/pbc_pairing.h:153-171) with
    generic_prod_pairings (ecc/pairing.c:35-47), as in Model/Pairing.v. *)
Fixpoint i_scan (in1 in2 : list (pt F)) (i n : nat) : res bool :=
  match n with
  | O => Ok false
  | S n' => a <- get in1 i ;; b <- get in2 i ;;
    if point_is0 F a then Ok true else if point_is0 F b then Ok true else i_scan in1 in2 (S i) n'
  end.
Fixpoint i_prod_loop (out : gf6 F) (in1 in2 : list (pt F)) (i n : nat) : res (gf6 F) :=
  match n with
  | O => Ok out
  | S n' => a <- get in1 i ;; b <- get in2 i ;;
    tmp <- eta_T_pairing F (p_m p) a b ;;
    out <- i_gt_mul out tmp ;;
    i_prod_loop out in1 in2 (S i) n'
  end.
Definition i_prod_pairing (in1 in2 : list (pt F)) (n : nat) : res (gf6 F) :=
  found <- i_scan in1 in2 0 n ;;
  if found then i_gt_one else
  a <- get in1 0 ;; b <- get in2 0 ;;
  out <- eta_T_pairing F (p_m p) a b ;;
  i_prod_loop out in1 in2 1 (n - 1).
(** element_is_almost_coddh: ecc/pairing.c:15-33. *)
Definition i_is_almost_coddh (a b c d : pt F) : res bool :=
  t0 <- i_pairing a d ;;
  t1 <- i_pairing b c ;;
  r <- gf33m_cmp (gf32m_ops F) t0 t1 ;;
  if r =? 0 then Ok true else
  t0 <- i_gt_mul t0 t1 ;;
  one <- i_gt_one ;;
  r <- gf33m_cmp (gf32m_ops F) t0 one ;;
  Ok (r =? 0).
End I.
