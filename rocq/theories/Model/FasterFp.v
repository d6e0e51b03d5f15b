(** arith/fasterfp.c: zero flag + array of limbs.  When the flag is 0 the
    limbs are stale; every function that writes an element takes its previous
    content [c]. *)
From Coq Require Import ZArith List Bool.
From Verif.Base Require Import Outcome Gmp Array.
From Verif.Model Require Import FieldInt NaiveFp FastFp.
Import ListNotations.
Open Scope Z_scope.

(** struct data_s, fasterfp.c:35-38 (same shape as montfp.c:36-39). *)
Record flagged := { flag : Z; d : list Z }.

Definition is_zero_flag (a : flagged) : bool := flag a =? 0.

Section Faster.
Variable f : fpdata.
Let t := nlimbs f.

(** :41-46; [junk] is the uninitialised content of the malloc'ed limbs. *)
Definition faster_init (junk : list Z) : flagged := {| flag := 0; d := junk |}.
(** set the flag to 0 and leave the limbs alone *)
Definition clear_flag (c : flagged) : flagged := {| flag := 0; d := d c |}.
Definition faster_set_mpz (c : flagged) (z : Z) : res flagged :=   (* :64-76 *)
  if z =? 0 then Ok (clear_flag c)
  else l <- export_limbs t (mpz_mod z (order f)) ;; Ok {| flag := 2; d := l |}.
Definition faster_set_si (c : flagged) (op : Z) : res flagged :=   (* :78-93 *)
  if op =? 0 then Ok (clear_flag c)
  else l <- fast_set_si f op ;; Ok {| flag := 2; d := l |}.
Definition faster_to_mpz (a : flagged) : Z :=                      (* :95-103 *)
  if is_zero_flag a then 0 else val (d a).
Definition faster_set0 (c : flagged) : flagged := clear_flag c.    (* :105-108 *)
Definition faster_set1 (c : flagged) : res flagged :=              (* :110-116 *)
  l <- fast_set1 f ;; Ok {| flag := 2; d := l |}.
Definition faster_is1 (a : flagged) : bool :=                      (* :118-128 *)
  if is_zero_flag a then false else fast_is1 (d a).
Definition faster_is0 (a : flagged) : bool := is_zero_flag a.      (* :130-133 *)
Definition faster_set (c a : flagged) : flagged :=                 (* :145-168 *)
  if is_zero_flag a then clear_flag c else {| flag := 2; d := d a |}.

(** The part of add/double after the addition, fasterfp.c:181-199, 210-224;
    identical in montfp.c:231-249, 260-274: [r] and [carry] are the raw sum. *)
Definition reduce_once (r : list Z) (carry : Z) : flagged :=
  if negb (carry =? 0) then {| flag := 2; d := fst (mpn_sub_n r (primelimbs f) t) |}
  else
    let i := mpn_cmp r (primelimbs f) in
    if i =? 0 then {| flag := 0; d := r |}
    else if i >? 0 then {| flag := 2; d := fst (mpn_sub_n r (primelimbs f) t) |}
    else {| flag := 2; d := r |}.

Definition faster_add (c a b : flagged) : flagged :=               (* :170-201 *)
  if is_zero_flag a then faster_set c b
  else if is_zero_flag b then faster_set c a
  else let '(r, carry) := mpn_add_n (d a) (d b) t in reduce_once r carry.
Definition faster_double (c a : flagged) : flagged :=              (* :203-226 *)
  if is_zero_flag a then clear_flag c
  else let '(r, carry) := mpn_lshift1 (d a) t in reduce_once r carry.
(** fasterfp.c:228-245 (= montfp.c:278-295).  When the first limb is odd the
    flag of [c] is NOT written: it keeps its old value. *)
Definition faster_halve (c a : flagged) : res flagged :=
  if is_zero_flag a then Ok (clear_flag c)
  else
    a0 <- get (d a) 0 ;;
    l <- halve_limbs f (d a) ;;
    Ok {| flag := if Z.odd a0 then flag c else 2; d := l |}.
Definition faster_neg (c a : flagged) : flagged :=                 (* :247-255 *)
  if is_zero_flag a then clear_flag c
  else {| flag := 2; d := fst (mpn_sub_n (primelimbs f) (d a) t) |}.
Definition faster_sub (c a b : flagged) : flagged :=               (* :257-280 *)
  if is_zero_flag a then faster_neg c b
  else if is_zero_flag b then faster_set c a
  else
    let i := mpn_cmp (d a) (d b) in
    if i =? 0 then clear_flag c
    else
      let r := fst (mpn_sub_n (d a) (d b) t) in
      if i <? 0 then {| flag := 2; d := fst (mpn_add_n r (primelimbs f) t) |}
      else {| flag := 2; d := r |}.
Definition faster_mul (c a b : flagged) : flagged :=               (* :282-306 *)
  if is_zero_flag a || is_zero_flag b then clear_flag c
  else {| flag := 2; d := fast_mul f (d a) (d b) |}.
Definition faster_square (c a : flagged) : res flagged :=          (* :308-345 *)
  if is_zero_flag a then Ok (clear_flag c)
  else l <- fast_square f (d a) ;; Ok {| flag := 2; d := l |}.
Definition faster_mul_si (c a : flagged) (op : Z) : res flagged := (* :347-367 *)
  if is_zero_flag a || (op =? 0) then Ok (clear_flag c)
  else if op =? LONG_MIN then UB
  else
    let '(lo, hi) := mpn_mul_1 (d a) t (Z.abs op) in
    let e := {| flag := 2; d := mpn_tdiv_r (lo ++ [hi]) (primelimbs f) t |} in
    Ok (if op <? 0 then faster_neg e e else e).
Definition faster_pow_mpz (c a : flagged) (op : Z) : res flagged := (* :369-382 *)
  if is_zero_flag a then Ok (clear_flag c)
  else z <- of_option (mpz_powm (faster_to_mpz a) op (order f)) ;;
       l <- export_limbs t z ;; Ok {| flag := 2; d := l |}.
Definition faster_invert (c a : flagged) : res flagged :=          (* :384-394 *)
  z <- of_option (mpz_invert (faster_to_mpz a) (order f)) ;;
  l <- export_limbs t z ;; Ok {| flag := 2; d := l |}.
Definition faster_from_hash (c : flagged) (data : list Z) : res flagged := (* :410-417 *)
  z <- pbc_mpz_from_hash (order f) data ;; faster_set_mpz c z.
Definition faster_cmp (a b : flagged) : Z :=                       (* :419-428 *)
  if is_zero_flag a then flag b else mpn_cmp (d a) (d b).
Definition faster_sgn_odd (a : flagged) : res Z :=                 (* :430-434 *)
  if is_zero_flag a then Ok 0
  else a0 <- get (d a) 0 ;; Ok (if Z.odd a0 then 1 else -1).
Definition faster_sgn_even (a : flagged) : Z :=                    (* :436-448 *)
  if is_zero_flag a then 0
  else let '(sum, carry) := mpn_add_n (d a) (d a) t in
       if negb (carry =? 0) then 1 else mpn_cmp sum (primelimbs f).
Definition faster_sign (a : flagged) : res Z :=                    (* :527 *)
  if mpz_odd_p (order f) then faster_sgn_odd a else Ok (faster_sgn_even a).
Definition faster_is_sqr (a : flagged) : bool :=                   (* :451-462 *)
  if is_zero_flag a then true else mpz_legendre (faster_to_mpz a) (order f) =? 1.
Definition faster_to_bytes (a : flagged) : res (list Z) :=         (* :464-478 *)
  if is_zero_flag a then Ok (repeat 0 (Z.to_nat (fixed_length (order f))))
  else pbc_mpz_out_raw_n (fixed_length (order f)) (faster_to_mpz a).
Definition faster_from_bytes (c : flagged) (data : list Z) : res flagged := (* :480-496 *)
  let z := import_be data in
  if z =? 0 then Ok (clear_flag c)
  else l <- export_limbs t z ;; Ok {| flag := 2; d := l |}.
End Faster.
