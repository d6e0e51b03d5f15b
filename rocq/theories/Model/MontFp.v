(** arith/montfp.c: Montgomery representation with a zero flag. *)
From Coq Require Import ZArith List Bool.
From Verif.Base Require Import Outcome Gmp Array.
From Verif.Model Require Import FieldInt NaiveFp FastFp FasterFp.
Import ListNotations.
Open Scope Z_scope.

(** Per-field data, montfp.c:26-33. *)
Record montdata := {
  base : fpdata;            (* order, limbs, primelimbs *)
  negpinv : Z;              (* -p^-1 mod b *)
  Rm : list Z;              (* R mod p *)
  R3m : list Z              (* R^3 mod p *)
}.

(** montfp.c:533-600 field_init_mont_fp, the computation of the data.
    ~0 - (z0 - 1) on unsigned long is B - 1 - wrap (z0 - 1). *)
Definition mont_field_init (p : Z) : res montdata :=
  let b := fpdata_init p in
  let t := nlimbs b in
  let R := mpz_mod (Bpow t) p in
  Rl <- export_limbs t R ;;
  r3 <- of_option (mpz_powm R 3 p) ;;
  R3l <- export_limbs t r3 ;;
  z <- of_option (mpz_invert p (Bpow t)) ;;
  Ok {| base := b; negpinv := wrap ((B - 1) - wrap (z mod B - 1)); Rm := Rl; R3m := R3l |}.

Section Mont.
Variable f : montdata.
(** content of freshly malloc'ed memory of n limbs *)
Variable junk : nat -> list Z.
Let fb := base f.
Let t := nlimbs (base f).

(** montfp.c:104-120 mont_reduce: loop over i; [y] has 2t limbs, [fl] is the
    variable flag. *)
Fixpoint mont_reduce_loop (n : nat) (i : nat) (y : list Z) (fl : Z) : res (list Z * Z) :=
  match n with
  | O => Ok (y, fl)
  | S n' =>
    yi <- get y i ;;
    let u := wrap (yi * negpinv f) in
    w <- slice y i t ;;
    let '(w', carry) := mpn_addmul_1 w (primelimbs fb) t u in
    y1 <- splice y i w' ;;
    h <- slice y1 (i + t) (t - i) ;;
    let '(h', c) := mpn_add_1 h (t - i) carry in
    y2 <- splice y1 (i + t) h' ;;
    mont_reduce_loop n' (S i) y2 (wrap (fl + c))
  end.

Definition mont_reduce (y : list Z) : res (list Z) :=
  '(y', fl) <- mont_reduce_loop t 0 y 0 ;;
  h <- slice y' t t ;;
  if negb (fl =? 0) || (mpn_cmp h (primelimbs fb) >=? 0)
  then Ok (fst (mpn_sub_n h (primelimbs fb) t)) else Ok h.

(** montfp.c:322-364 mont_mul.  [z] has 2t+1 limbs. *)
Fixpoint mont_mul_loop (n : nat) (i : nat) (a b z : list Z) : res (list Z) :=
  match n with
  | O => Ok z
  | S n' =>
    zi <- get z i ;;
    ai <- get a i ;;
    b0 <- get b 0 ;;
    let u := wrap (wrap (zi + wrap (ai * b0)) * negpinv f) in
    w <- slice z i t ;;
    let '(w1, c1) := mpn_addmul_1 w b t ai in
    z1 <- splice z i w1 ;;
    h <- get z1 (t + i) ;;
    let v := wrap (h + c1) in
    z2 <- put z1 (t + i) v ;;
    w2 <- slice z2 i t ;;
    let '(w3, c2) := mpn_addmul_1 w2 (primelimbs fb) t u in
    z3 <- splice z2 i w3 ;;
    let h' := wrap (v + c2) in
    z4 <- put z3 (t + i) h' ;;
    z5 <- put z4 (t + i + 1) (if h' <? v then 1 else 0) ;;
    mont_mul_loop n' (S i) a b z5
  end.

Definition mont_mul (a b : list Z) : res (list Z) :=
  let z := junk (2 * t + 1) in
  a0 <- get a 0 ;;
  b0 <- get b 0 ;;
  let u := wrap (wrap (a0 * b0) * negpinv f) in
  let '(w, v) := mpn_mul_1 b t a0 in
  z1 <- splice z 0 w ;;
  z2 <- put z1 t v ;;
  w2 <- slice z2 0 t ;;
  let '(w3, c2) := mpn_addmul_1 w2 (primelimbs fb) t u in
  z3 <- splice z2 0 w3 ;;
  let h' := wrap (v + c2) in
  z4 <- put z3 t h' ;;
  z5 <- put z4 (t + 1) (if h' <? v then 1 else 0) ;;
  z6 <- mont_mul_loop (t - 1) 1 a b z5 ;;
  top <- get z6 (t * 2) ;;
  h <- slice z6 t t ;;
  if negb (top =? 0) || (mpn_cmp h (primelimbs fb) >=? 0)
  then Ok (fst (mpn_sub_n h (primelimbs fb) t)) else Ok h.

(** z * 2^(bytes*8) mod p *)
Definition to_mont (z : Z) : Z := mpz_mod (z * Bpow t) (order fb).

Definition mont_init : flagged := {| flag := 0; d := junk t |}.    (* :51-56 *)
Definition mont_set_mpz (c : flagged) (z : Z) : res flagged :=     (* :64-80 *)
  if z =? 0 then Ok (clear_flag c)
  else let tmp := to_mont z in
       if tmp =? 0 then Ok (clear_flag c)
       else l <- export_limbs t tmp ;; Ok {| flag := 2; d := l |}.
Definition mont_set_si (c : flagged) (op : Z) : res flagged :=     (* :82-100 *)
  mont_set_mpz c op.
(** montfp.c:122-139.  The loop removing leading zero limbs runs off the
    array when all limbs are zero. *)
Definition mont_to_mpz (a : flagged) : res Z :=
  if is_zero_flag a then Ok 0
  else
    l <- slice (d a) 0 t ;;
    r <- mont_reduce (l ++ repeat 0 t) ;;
    if val r =? 0 then UB else Ok (val r).
Definition mont_set0 (c : flagged) : flagged := clear_flag c.      (* :141-144 *)
Definition mont_set1 (c : flagged) : flagged := {| flag := 2; d := Rm f |}. (* :146-151 *)
Definition mont_is1 (a : flagged) : bool :=                        (* :153-160 *)
  if is_zero_flag a then false else mpn_cmp (d a) (Rm f) =? 0.
Definition mont_is0 (a : flagged) : bool := is_zero_flag a.        (* :162-165 *)
Definition mont_set (c a : flagged) : flagged := faster_set c a.   (* :197-218, same text *)
Definition mont_add (c a b : flagged) : flagged := faster_add fb c a b.   (* :220-251, same text *)
Definition mont_double (c a : flagged) : flagged := faster_double fb c a. (* :253-276, same text *)
Definition mont_halve (c a : flagged) : res flagged := faster_halve fb c a. (* :278-295, same text *)
Definition mont_neg (c a : flagged) : flagged := faster_neg fb c a. (* :297-305, same text *)
Definition mont_sub (c a b : flagged) : flagged := faster_sub fb c a b.   (* :307-330, same text *)
Definition mont_mul_elt (c a b : flagged) : res flagged :=         (* :366-377 fp_mul *)
  if is_zero_flag a || is_zero_flag b then Ok (clear_flag c)
  else l <- mont_mul (d a) (d b) ;; Ok {| flag := 2; d := l |}.
Definition mont_square (c a : flagged) : res flagged := mont_mul_elt c a a. (* generic_square, field.c:383 *)
Definition mont_pow_mpz (c a : flagged) (op : Z) : res flagged :=  (* :379-396 *)
  if is_zero_flag a then Ok (clear_flag c)
  else
    z <- mont_to_mpz a ;;
    z1 <- of_option (mpz_powm z op (order fb)) ;;
    l <- export_limbs t (to_mont z1) ;; Ok {| flag := 2; d := l |}.
Definition mont_invert (c a : flagged) : res flagged :=            (* :401-422 *)
  z <- of_option (mpz_invert (val (d a)) (order fb)) ;;
  tmp <- export_limbs t z ;;
  l <- mont_mul tmp (R3m f) ;; Ok {| flag := 2; d := l |}.
Definition mont_from_hash (c : flagged) (data : list Z) : res flagged := (* :441-448 *)
  z <- pbc_mpz_from_hash (order fb) data ;; mont_set_mpz c z.
Definition mont_cmp (a b : flagged) : Z :=                         (* :450-458 *)
  if is_zero_flag a then flag b else mpn_cmp (d a) (d b).
Definition mont_sgn_odd (a : flagged) : res Z :=                   (* :460-472 *)
  if is_zero_flag a then Ok 0
  else z <- mont_to_mpz a ;; Ok (if mpz_odd_p z then 1 else -1).
Definition mont_is_sqr (a : flagged) : res bool :=                 (* :474-485 *)
  if is_zero_flag a then Ok true
  else z <- mont_to_mpz a ;; Ok (mpz_legendre z (order fb) =? 1).
Definition mont_to_bytes (a : flagged) : res (list Z) :=           (* :487-496 *)
  z <- mont_to_mpz a ;; pbc_mpz_out_raw_n (fixed_length (order fb)) z.
Definition mont_from_bytes (c : flagged) (data : list Z) : res flagged := (* :498-517 *)
  let z := import_be data in
  if z =? 0 then Ok (clear_flag c)
  else l <- export_limbs t (to_mont z) ;; Ok {| flag := 2; d := l |}.
(** generic_mul_mpz, field.c:386-392: element_set_mpz on a fresh element, then
    element_mul. *)
Definition mont_mul_mpz (c a : flagged) (z : Z) : res flagged :=
  e0 <- mont_set_mpz mont_init z ;; mont_mul_elt c a e0.
Definition mont_mul_si (c a : flagged) (z : Z) : res flagged :=    (* field.c:394-400 *)
  e0 <- mont_set_si mont_init z ;; mont_mul_elt c a e0.
End Mont.
