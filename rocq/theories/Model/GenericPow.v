(** arith/field.c: generic exponentiation (lines 13-126, 153-241, 243-331). *)
From Coq Require Import ZArith List Bool.
From Verif.Base Require Import Outcome Gmp Array Algebra.
Import ListNotations.
Open Scope Z_scope.

(** field.c:14-27 *)
Definition optimal_pow_window_size (n : Z) : Z :=
  let exp_bits := sizeinbase2 n in
  if exp_bits >? 9065 then 8 else
  if exp_bits >? 3529 then 7 else
  if exp_bits >? 1324 then 6 else
  if exp_bits >? 474 then 5 else
  if exp_bits >? 157 then 4 else
  if exp_bits >? 47 then 3 else 2.

Section Pow.
Variable G : monoid.
Notation mul := (mmul G).
Notation one := (mone G).

(** The loop field.c:43-46: [m] further entries, [prev] the last one. *)
Fixpoint window_entries (m : nat) (prev a : G) : list G :=
  match m with O => [] | S m' => let e := mul prev a in e :: window_entries m' e a end.

(** field.c:30-51: 2^k entries; [k] >= 1 (no table otherwise). *)
Definition build_pow_window (a : G) (k : Z) : list G :=
  one :: window_entries (Z.to_nat (2 ^ k) - 1) one a.

(** The loop of element_pow_wind, field.c:86-106: [s] iterations remain, the
    bit examined next is number s-1.  element_square is element_mul(r,a,a)
    (generic_square, field.c:383) in every structure this model covers. *)
Fixpoint pow_wind_loop (n k : Z) (lookup : list G) (s : nat) (inword : bool) (word wbits : Z) (result : G) : res G :=
  match s with
  | O => Ok result
  | S s' =>
    let result := mul result result in
    let bit := mpz_tstbit n (Z.of_nat s') in
    if negb inword && negb bit then pow_wind_loop n k lookup s' inword word wbits result
    else
      let '(word, wbits) :=
        if negb inword then (1, 1) else (2 * word + Z.b2z bit, wbits + 1) in
      if (wbits =? k) || Nat.eqb s' 0 then
        e <- get lookup (Z.to_nat word) ;;
        pow_wind_loop n k lookup s' false word wbits (mul result e)
      else pow_wind_loop n k lookup s' true word wbits result
  end.

(** field.c:67-111 *)
Definition element_pow_wind (n k : Z) (lookup : list G) : res G :=
  if n =? 0 then Ok one
  else pow_wind_loop n k lookup (Z.to_nat (sizeinbase2 n)) false 0 0 one.

(** field.c:113-126 *)
Definition generic_pow_mpz (a : G) (n : Z) : res G :=
  if n =? 0 then Ok one
  else let k := optimal_pow_window_size n in element_pow_wind n k (build_pow_window a k).

(** field.c:170-183 *)
Fixpoint pow2_loop (s : nat) (a1 : G) (n1 : Z) (a2 : G) (n2 : Z) (a1a2 result : G) : G :=
  match s with
  | O => result
  | S s' =>
    let result := mul result result in
    let b1 := mpz_tstbit n1 (Z.of_nat s') in
    let b2 := mpz_tstbit n2 (Z.of_nat s') in
    let result :=
      if b1 && b2 then mul result a1a2
      else if b1 then mul result a1
      else if b2 then mul result a2
      else result in
    pow2_loop s' a1 n1 a2 n2 a1a2 result
  end.

(** field.c:153-189 *)
Definition element_pow2_mpz (a1 : G) (n1 : Z) (a2 : G) (n2 : Z) : G :=
  if (n1 =? 0) && (n2 =? 0) then one
  else
    let s1 := sizeinbase2 n1 in let s2 := sizeinbase2 n2 in
    pow2_loop (Z.to_nat (if s1 >? s2 then s1 else s2)) a1 n1 a2 n2 (mul a1 a2) one.

(** field.c:229-235 *)
Fixpoint pow3_loop (s : nat) (n1 n2 n3 : Z) (lookup : list G) (result : G) : res G :=
  match s with
  | O => Ok result
  | S s' =>
    let result := mul result result in
    let b := Z.b2z (mpz_tstbit n1 (Z.of_nat s')) + 2 * Z.b2z (mpz_tstbit n2 (Z.of_nat s'))
             + 4 * Z.b2z (mpz_tstbit n3 (Z.of_nat s')) in
    e <- get lookup (Z.to_nat b) ;;
    pow3_loop s' n1 n2 n3 lookup (mul result e)
  end.

(** field.c:191-241 *)
Definition element_pow3_mpz (a1 : G) (n1 : Z) (a2 : G) (n2 : Z) (a3 : G) (n3 : Z) : res G :=
  if (n1 =? 0) && (n2 =? 0) && (n3 =? 0) then Ok one
  else
    let l6 := mul a2 a3 in
    let lookup := [one; a1; a2; mul a1 a2; a3; mul a1 a3; l6; mul l6 a1] in
    let s1 := sizeinbase2 n1 in let s2 := sizeinbase2 n2 in let s3 := sizeinbase2 n3 in
    let s := if s1 >? s2 then (if s1 >? s3 then s1 else s3) else (if s2 >? s3 then s2 else s3) in
    pow3_loop (Z.to_nat s) n1 n2 n3 lookup one.

(** The inner loop field.c:276-279: table row for [multiplier]. *)
Fixpoint base_row (m : nat) (prev multiplier : G) : list G :=
  match m with O => [] | S m' => let e := mul multiplier prev in e :: base_row m' e multiplier end.

(** field.c:272-282: [rows] further rows. *)
Fixpoint base_table (rows : nat) (lookup_size : nat) (multiplier : G) : list (list G) :=
  match rows with
  | O => []
  | S rows' =>
    let lookup := one :: base_row (lookup_size - 1) one multiplier in
    lookup :: base_table rows' lookup_size (mul multiplier (last lookup one))
  end.

(** field.c:251-286, with the caller's arguments (field.c:333-336): bits is
    the size of the declared order of the structure and k = 5. *)
Definition pp_k : Z := 5.
Definition element_pp_init (a : G) (order : Z) : list (list G) :=
  base_table (Z.to_nat (sizeinbase2 order / pp_k + 1)) (Z.to_nat (2 ^ pp_k)) a.

(** The word of k bits of n at column [row], field.c:317-320. *)
Fixpoint table_word (s : nat) (n : Z) (base : Z) : Z :=
  match s with
  | O => 0
  | S s' => Z.lor (table_word s' n base) (Z.shiftl (Z.b2z (mpz_tstbit n (base + Z.of_nat s'))) (Z.of_nat s'))
  end.

(** field.c:315-324: [m] rows remain, starting at [row]. *)
Fixpoint base_table_loop (m row : nat) (n : Z) (table : list (list G)) (result : G) : res G :=
  match m with
  | O => Ok result
  | S m' =>
    let word := table_word (Z.to_nat pp_k) n (pp_k * Z.of_nat row) in
    if word >? 0 then
      r <- get table row ;;
      e <- get r (Z.to_nat word) ;;
      base_table_loop m' (S row) n table (mul result e)
    else base_table_loop m' (S row) n table result
  end.

(** field.c:292-331.  mpz_mod by an order of zero divides by zero. *)
Definition element_pp_pow (power order : Z) (table : list (list G)) : res G :=
  if power =? 0 then Ok one
  else
    n <- (if power >? order then (if order =? 0 then UB else Ok (power mod order)) else Ok power) ;;
    base_table_loop (Z.to_nat (sizeinbase2 n / pp_k + 1)) 0 n table one.
End Pow.
