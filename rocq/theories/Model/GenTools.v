(** The programs gen/genaparam.c:12-21, gen/geneparam.c:12-21,
    gen/genfparam.c:10-24 and gen/gena1param.c:5-27: generate, print, clear.  Command line and standard output are the argument and the result. *)
From Coq Require Import ZArith List Bool String.
From Verif.Base Require Import Outcome Algebra.
From Verif.Model Require Import Param CurveGen ParamGen.
From Verif.Spec Require Import ParamText Quadratic.
Import ListNotations.
Open Scope Z_scope.

Definition key_is (key : list Z) (s : string) : bool := if list_eq_dec Z.eq_dec key (chars s) then true else false.
(** The members of struct a_param_s (a_param.c:20-28) that
    pbc_param_init_a_gen sets (1504-1562) and a_out_str prints (36-46), by their
    printed names. *)
Definition a_values (p : a_param) : values := fun key =>
  if key_is key "q" then a_q p else if key_is key "h" then a_h p else if key_is key "r" then a_r p else
  if key_is key "exp2" then exp2 (a_s p) else if key_is key "exp1" then exp1 (a_s p) else
  if key_is key "sign1" then sign1 (a_s p) else if key_is key "sign0" then sign0 (a_s p) else 0.
(** struct a1_param_s, a_param.c:1566-1570, set at 2300-2321 and printed at
    1587-1593 *)
Definition a1_values (a : a1_param) : values := fun key =>
  if key_is key "p" then a1_p a else if key_is key "n" then a1_n a else if key_is key "l" then a1_l a else 0.

(** struct e_param_s, e_param.c:18-27, set at 909-1007 and printed at 50-62 *)
Definition e_values (p : a_param) (a b : Z) : values := fun key =>
  if key_is key "a" then a else if key_is key "b" then b else a_values p key.
(** e_param.c:988-1007: the curve, and element_to_mpz of its coefficients *)
Definition e_rest (K : fld) (to_mpz : K -> Z) (is_sqr : K -> bool) (sqrt : K -> res K) (nqr : K) (n x : Z) (src : list K) : res (Z * Z) :=
  ' (a, b, _) <- e_curve K is_sqr sqrt nqr n x src ;; Ok (to_mpz a, to_mpz b).

(** struct f_param_s, printed at f_param.c:60-69 *)
Definition f_values (q r b beta alpha0 alpha1 : Z) : values := fun key =>
  if key_is key "q" then q else if key_is key "r" then r else if key_is key "b" then b else
  if key_is key "beta" then beta else if key_is key "alpha0" then alpha0 else if key_is key "alpha1" then alpha1 else 0.
(** f_param.c:517-590: b, beta = field_get_nqr(Fq), alpha; t = q - r + 1 since
    r was computed as q - t + 1 (:505-506, 510-511) *)
Definition f_rest (K : fld) (beta : K) (to_mpz : K -> Z) (is_sqr : K -> bool) (sqrt : K -> res K)
    (is_sqr2 : Quad K beta -> bool) (sqrt2 : Quad K beta -> res (Quad K beta)) (isprime : Z -> bool) (nextprime : Z -> Z)
    (q r : Z) (xs : list Z) (src : list K) (x : Z) (src2 : list (Quad K beta)) : res (Z * Z * Z * Z) :=
  ' (b, _, _) <- f_curve_loop K is_sqr sqrt r xs src ;;
  ' (alpha, _) <- sextic_gen (Quad K beta) (q * q) isprime nextprime is_sqr2 sqrt2 (b, f0) q (q - r + 1) r x src2 ;;
  Ok (to_mpz b, to_mpz beta, to_mpz (fst alpha), to_mpz (snd alpha)).

Section Tools.
Variable isprime : Z -> bool.
(** genaparam.c:12-21; QBITS only bounds the random numbers [hs]. *)
Definition genaparam (fuel : nat) (rbits : Z) (rands hs : list Z) : res (list Z) :=
  p <- a_gen isprime fuel rbits rands hs ;; param_out_str TA (a_values p).
(** gena1param.c:16-20 for the product N of the two primes. *)
Definition gena1param (fuel : nat) (N : Z) : res (list Z) :=
  a <- a1_gen isprime fuel N ;; param_out_str TA1 (a1_values a).
(** geneparam.c:12-21.  [rest q n] is the choice of the curve over F_q, see
    [e_rest]; n = h r^2 as left by e_param.c:967-968 *)
Definition geneparam (rest : Z -> Z -> res (Z * Z)) (fuel : nat) (rbits : Z) (rands hs : list Z) : res (list Z) :=
  p <- e_gen isprime fuel rbits rands hs ;;
  ' (a, b) <- rest (a_q p) (a_r p * a_r p * a_h p) ;;
  param_out_str TE (e_values p a b).
(** genfparam.c:10-24 for BITS >= 1 *)
Definition genfparam (rest : Z -> Z -> res (Z * Z * Z * Z)) (fuel : nat) (bits : Z) : res (list Z) :=
  ' (q, r) <- f_gen isprime fuel bits ;;
  ' (b, beta, alpha0, alpha1) <- rest q r ;;
  param_out_str TF (f_values q r b beta alpha0 alpha1).
End Tools.
