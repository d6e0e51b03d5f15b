(** arith/naivefp.c: an element of F_p is an mpz_t. *)
From Coq Require Import ZArith List Bool.
From Verif.Base Require Import Outcome Gmp.
From Verif.Model Require Import FieldInt.
Open Scope Z_scope.

(** f->fixed_length_in_bytes, naivefp.c:269 (same expression in fastfp.c:388,
    fasterfp.c:552, montfp.c:576). *)
Definition fixed_length (p : Z) : Z := (sizeinbase2 p + 7) / 8.

Definition of_option {A} (o : option A) : res A :=
  match o with Some a => Ok a | None => UB end.

Section Naive.
Variable p : Z.                                  (* field->order *)

Definition zp_init : Z := 0.                                      (* :16-19 *)
Definition zp_set_si (op : Z) : Z := mpz_mod op p.                (* :26-29 *)
Definition zp_set_mpz (z : Z) : Z := mpz_mod z p.                 (* :31-34 *)
Definition zp_set0 : Z := 0.                                      (* :36-38 *)
Definition zp_set1 : Z := 1.                                      (* :40-42 *)
Definition zp_sgn_odd (a : Z) : Z :=                              (* :58-62 *)
  if a =? 0 then 0 else if mpz_odd_p a then 1 else -1.
Definition zp_sgn_even (a : Z) : Z :=                             (* :64-77 *)
  if a =? 0 then 0 else Z.sgn (a + a - p).
(** f->sign, naivefp.c:238 *)
Definition zp_sign (a : Z) : Z := if mpz_odd_p p then zp_sgn_odd a else zp_sgn_even a.
Definition zp_add (a b : Z) : Z :=                                (* :79-89 *)
  let n := a + b in if n >=? p then n - p else n.
Definition zp_sub (a b : Z) : Z :=                                (* :91-98 *)
  let n := a - b in if n <? 0 then n + p else n.
Definition zp_square (a : Z) : res Z := of_option (mpz_powm a 2 p). (* :100-119 *)
Definition zp_double (a : Z) : Z :=                               (* :121-127 *)
  let n := a * 2 in if n >=? p then n - p else n.
Definition zp_halve (a : Z) : Z :=                                (* :129-137 *)
  if mpz_odd_p a then (a + p) / 2 else a / 2.
Definition zp_mul (a b : Z) : Z := mpz_mod (a * b) p.             (* :139-142 *)
Definition zp_mul_mpz (a z : Z) : Z := mpz_mod (a * z) p.         (* :144-147 *)
Definition zp_mul_si (a z : Z) : Z := mpz_mod (a * z) p.          (* :149-152 *)
Definition zp_pow_mpz (a z : Z) : res Z := of_option (mpz_powm a z p). (* :154-156 *)
Definition zp_set (a : Z) : Z := a.                               (* :158-160 *)
Definition zp_neg (a : Z) : Z := if a =? 0 then 0 else p - a.     (* :162-168 *)
Definition zp_invert (a : Z) : res Z := of_option (mpz_invert a p). (* :170-172 *)
Definition zp_from_hash (data : list Z) : res Z := pbc_mpz_from_hash p data. (* :178-180 *)
Definition zp_is1 (a : Z) : bool := a =? 1.                       (* :182-184 *)
Definition zp_is0 (a : Z) : bool := a =? 0.                       (* :186-188 *)
Definition zp_cmp (a b : Z) : Z := Z.sgn (a - b).                 (* :190-192 *)
Definition zp_is_sqr (a : Z) : bool :=                            (* :194-198 *)
  if a =? 0 then true else mpz_legendre a p =? 1.
Definition zp_to_bytes (a : Z) : res (list Z) := pbc_mpz_out_raw_n (fixed_length p) a. (* :204-211 *)
(** :213-219; [data] holds exactly fixed_length_in_bytes bytes. *)
Definition zp_from_bytes (data : list Z) : Z := import_be data.
Definition zp_to_mpz (a : Z) : Z := a.                            (* :221-223 *)
End Naive.
