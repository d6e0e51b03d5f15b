(** arith/poly.c: irreducibility test, root finding, squares and square roots
    in polynomial quotient rings.  Elements of the ring built by
    field_init_polymod from f, of degree n, are those of [Ext K n f]; its
    multiplication is the one of polymod_mul (property C22, any monic f).
    element_random takes the next value of a source. *)
From Coq Require Import ZArith List Bool.
From Verif.Base Require Import Outcome Gmp Array Algebra.
From Verif.Spec Require Import Extension.
From Verif.Model Require Import GenericPow IntText Poly.
Import ListNotations.
Open Scope Z_scope.

Section P.
Variable K : fld.
Notation poly := (list K).
(** field->order of K *)
Variable order : Z.
(** mpz_probab_prime_p and mpz_nextprime, used by pbc_trial_divide *)
Variables (isprime : Z -> bool) (nextprime : Z -> Z).

(** :510-519 *)
Definition to_poly {n} (e : vec K n) : res poly := poly_remove_leading_zeroes K (proj1_sig e).
(** element_set1(polymod_coeff(x, 1)) on a new element *)
Definition x_elem (n : nat) : vec K n := mkvec n (fun i => if Nat.eqb i 1 then f1 else f0).
(** x^N - x in K[x]/(f), as a polynomial *)
Definition x_power_minus_x (n : nat) (f : poly) (N : Z) : res (vec K n) :=
  xpow <- generic_pow_mpz (mul_monoid (Ext K n f)) (x_elem n) N ;;
  Ok (fsub (f := Ext K n f) xpow (x_elem n)).
Definition is0 {n} (e : vec K n) : bool := forallb (fun x => feqb x f0) (proj1_sig e).
(** poly_gcd on private variables, :1342-1364 *)
Definition gcd_value (f g : poly) : res poly := gcd_loop K (S (length f + length g)) f g.

(** :1566-1576; the degree is an int, so that mpz_get_ui is exact *)
Definition checkgcd (n : nat) (f : poly) (fac : Z) : res bool :=
  let z := Z.of_nat n / fac in
  let z := order ^ z in
  xpow <- x_power_minus_x n f z ;;
  if is0 xpow then Ok true
  else g <- to_poly xpow ;; g <- gcd_value f g ;; Ok (negb (poly_degree K g =? 0)).
(** The factors are visited until the callback returns nonzero. *)
Fixpoint visit (test : Z -> res bool) (l : list (Z * Z)) : res bool :=
  match l with [] => Ok false | fac :: l' => b <- test (fst fac) ;; if b then Ok true else visit test l' end.
(** :1583-1625 *)
Definition poly_is_irred (f : poly) : res bool :=
  if poly_degree K f <=? 0 then Ok false
  else if poly_degree K f =? 1 then Ok true
  else
    let n := Z.to_nat (poly_degree K f) in
    facs <- pbc_trial_divide isprime nextprime n (Z.of_nat n) None ;;
    b <- visit (checkgcd n f) facs ;;
    if b then Ok false
    else
      xpow <- x_power_minus_x n f (order ^ Z.of_nat n) ;;
      Ok (is0 xpow).

(** poly_make_monic (f, g), :1366-1381, with f and g different or the same *)
Definition monic_other (f g : poly) : res poly := st <- poly_make_monic K 0 1 (private K f g) ;; Ok (st 0%nat).
Definition monic_same (g : poly) : res poly := st <- poly_make_monic K 0 0 (private K g g) ;; Ok (st 0%nat).
Definition add_value (f g : poly) : res poly := st <- poly_add K 0 0 1 (private K f g) ;; Ok (st 0%nat).
(** :494-508 *)
Definition truncate_to (n : nat) (f : poly) : vec K n := mkvec n (fun i => nth i f f0).

(** :1677-1708, one pass of the for loop and of the goto loop for each value c
    drawn by poly_random_monic(r, 1) *)
Fixpoint find_loop (src : list K) (g : poly) : res (K * list K) :=
  if poly_degree K g =? 1 then c <- get g 0 ;; Ok (fopp c, src)
  else
    match src with
    | [] => OutOfFuel
    | c :: src =>
        let r := [c; f1] in
        fac <- gcd_value r g ;;
        if poly_degree K fac >? 0 then g <- monic_other g fac ;; find_loop src g
        else
          let n := Z.to_nat (poly_degree K g) in
          p <- generic_pow_mpz (mul_monoid (Ext K n g)) (truncate_to n r) ((order - 1) / 2) ;;
          r <- to_poly (n := n) p ;;
          r <- add_value r [f1] ;;
          fac <- gcd_value r g ;;
          let n := poly_degree K fac in
          if (n >? 0) && (n <? poly_degree K g) then g <- monic_other g fac ;; find_loop src g
          else find_loop src g
    end.
(** :1645-1719; None: returns -1.  [x->data[1]] does not exist in a field of
    degree 1. *)
Definition poly_findroot (src : list K) (f : poly) : res (option (K * list K)) :=
  let n := Z.to_nat (poly_degree K f) in
  if poly_degree K f <=? 1 then UB
  else
    p <- x_power_minus_x n f order ;;
    g <- to_poly p ;;
    g <- gcd_value g f ;;
    g <- monic_same g ;;
    if poly_degree K g =? 0 then Ok None
    else r <- find_loop src g ;; Ok (Some r).

(** ** Squares; here K is the quotient ring itself *)
(** :617-632 *)
Definition polymod_is_sqr (e : K) : res bool :=
  e0 <- generic_pow_mpz (mul_monoid K) e ((order - 1) / 2) ;; Ok (feqb e0 f1).
(** :671-678 and :681-688 *)
Definition fold_square (a : K) (s : poly) : res poly :=
  if poly_degree K s =? 2 then
    e1 <- get s 0 ;; e2 <- get s 2 ;;
    s <- put s 0 (fadd e1 (fmul e2 a)) ;;
    poly_remove_leading_zeroes K (poly_alloc K s 2)
  else Ok s.
(** :669-690, [i] iterations remain *)
Fixpoint sqrt_power (i : nat) (z : Z) (a : K) (r s : poly) : res poly :=
  match i with
  | O => Ok s
  | S i' =>
      s <- mul_value K s s ;; s <- fold_square a s ;;
      s <- (if mpz_tstbit z (Z.of_nat i') then s <- mul_value K s r ;; fold_square a s else Ok s) ;;
      sqrt_power i' z a r s
  end.
(** :655-703, one iteration for each x drawn *)
Fixpoint polymod_sqrt (src : list K) (a : K) : res (K * list K) :=
  match src with
  | [] => OutOfFuel
  | x :: src =>
      if feqb (fmul x x) a then Ok (x, src)
      else
        let z := (order - 1) / 2 in
        s <- sqrt_power (Z.to_nat (sizeinbase2 z)) z a [x; f1] [f1] ;;
        if poly_degree K s <? 1 then polymod_sqrt src a
        else
          e1 <- get s 0 ;; e2 <- get s 1 ;;
          let e1 := fadd e1 f1 in
          e0 <- finvert e2 ;;
          let e0 := fmul e0 e1 in
          if feqb (fmul e0 e0) a then Ok (e0, src) else polymod_sqrt src a
  end.
End P.
