(** arith/fastfp.c: an element is an array of t limbs, no zero flag. *)
From Coq Require Import ZArith List Bool.
From Verif.Base Require Import Outcome Gmp Array.
From Verif.Model Require Import FieldInt NaiveFp.
Import ListNotations.
Open Scope Z_scope.

(** struct fp_field_data_s (fastfp.c:21-25, fasterfp.c:27-31) plus f->order. *)
Record fpdata := { order : Z; nlimbs : nat; primelimbs : list Z }.

(** mpz_size: number of limbs. *)
Definition mpz_size (z : Z) : nat := Z.to_nat ((sizeinbase2 z + 63) / 64).

(** fastfp.c:381-388 (also fasterfp.c:545-552): per-field data. *)
Definition fpdata_init (p : Z) : fpdata :=
  {| order := p; nlimbs := mpz_size p; primelimbs := limbs (mpz_size p) p |}.

(** The most negative long, whose negation overflows. *)
Definition LONG_MIN : Z := - 9223372036854775808.

Section Fast.
Variable f : fpdata.
Let t := nlimbs f.

Definition fast_init : list Z := repeat 0 t.                       (* :29-34 *)
(** from_mpz, fastfp.c:40-46 *)
Definition fast_from_mpz (z : Z) : res (list Z) := export_limbs t z.
Definition fast_set_mpz (z : Z) : res (list Z) :=                  (* :48-54 *)
  fast_from_mpz (mpz_mod z (order f)).
Definition fast_set_si (op : Z) : res (list Z) :=                  (* :56-66 *)
  if op <? 0 then
    (if op =? LONG_MIN then UB else Ok (fst (mpn_sub_1 (primelimbs f) t (- op))))
  else match t with
       | O => UB
       | S t' => Ok (op :: repeat 0 t')
       end.
Definition fast_to_mpz (a : list Z) : Z := val a.                  (* :68-71 *)
Definition fast_set0 : list Z := repeat 0 t.                       (* :73-76 *)
Definition fast_set1 : res (list Z) :=                             (* :78-83 *)
  match t with O => UB | S t' => Ok (1 :: repeat 0 t') end.
Definition fast_is1 (a : list Z) : bool :=                         (* :85-92 *)
  match a with
  | [] => false
  | d0 :: d => (d0 =? 1) && forallb (fun x => x =? 0) d
  end.
Definition fast_is0 (a : list Z) : bool := forallb (fun x => x =? 0) a. (* :94-100 *)
Definition fast_add (a b : list Z) : list Z :=                     (* :112-121 *)
  let '(r, carry) := mpn_add_n a b t in
  if negb (carry =? 0) || (mpn_cmp r (primelimbs f) >=? 0)
  then fst (mpn_sub_n r (primelimbs f) t) else r.
Definition fast_double (a : list Z) : list Z :=                    (* :123-130 *)
  let '(r, carry) := mpn_lshift1 a t in
  if negb (carry =? 0) || (mpn_cmp r (primelimbs f) >=? 0)
  then fst (mpn_sub_n r (primelimbs f) t) else r.
Definition fast_set (a : list Z) : list Z := a.                    (* :132-147 *)
(** fastfp.c:149-160 (same limb code in fasterfp.c:234-244 and montfp.c:284-293):
    halve an array: if odd add p; shift right; put the carry in the top bit. *)
Definition halve_limbs (a : list Z) : res (list Z) :=
  a0 <- get a 0 ;;
  let '(r, carry) := if Z.odd a0 then mpn_add_n a (primelimbs f) t else (a, 0) in
  let s := mpn_rshift1 r t in
  if carry =? 0 then Ok s
  else top <- get s (t - 1) ;;
       put s (t - 1) (Z.lor top 9223372036854775808).
Definition fast_halve (a : list Z) : res (list Z) := halve_limbs a.
Definition fast_sub (a b : list Z) : list Z :=                     (* :162-168 *)
  let '(r, borrow) := mpn_sub_n a b t in
  if negb (borrow =? 0) then fst (mpn_add_n r (primelimbs f) t) else r.
Definition fast_mul (a b : list Z) : list Z :=                     (* :170-186 *)
  mpn_tdiv_r (mpn_mul_n a b t) (primelimbs f) t.
(** fastfp.c:188-218: mpz_powm_ui (z1, z2, 2, order), then zero the unused
    limbs.  (Simplification: the mpz_t wrapped around unnormalised limbs is
    read as the integer those limbs denote.) *)
Definition fast_square (a : list Z) : res (list Z) :=
  z <- of_option (mpz_powm (val a) 2 (order f)) ;; export_limbs t z.
Definition fast_neg (a : list Z) : list Z :=                       (* :220-227 *)
  if fast_is0 a then fast_set0 else fst (mpn_sub_n (primelimbs f) a t).
(** fastfp.c:229-241; labs(LONG_MIN) is undefined. *)
Definition fast_mul_si (a : list Z) (op : Z) : res (list Z) :=
  if op =? LONG_MIN then UB else
  let '(lo, hi) := mpn_mul_1 a t (Z.abs op) in
  let e := mpn_tdiv_r (lo ++ [hi]) (primelimbs f) t in
  Ok (if op <? 0 then fast_neg e else e).
Definition fast_pow_mpz (a : list Z) (op : Z) : res (list Z) :=    (* :243-250 *)
  z <- of_option (mpz_powm (fast_to_mpz a) op (order f)) ;; fast_from_mpz z.
Definition fast_invert (a : list Z) : res (list Z) :=              (* :252-259 *)
  z <- of_option (mpz_invert (fast_to_mpz a) (order f)) ;; fast_from_mpz z.
Definition fast_from_hash (data : list Z) : res (list Z) :=        (* :269-276 *)
  z <- pbc_mpz_from_hash (order f) data ;; fast_set_mpz z.
Definition fast_cmp (a b : list Z) : Z := mpn_cmp a b.             (* :278-282 *)
Definition fast_sgn_odd (a : list Z) : res Z :=                    (* :284-288 *)
  if fast_is0 a then Ok 0
  else a0 <- get a 0 ;; Ok (if Z.odd a0 then 1 else -1).
Definition fast_sgn_even (a : list Z) : Z :=                       (* :290-301 *)
  if fast_is0 a then 0
  else let '(sum, carry) := mpn_add_n a a t in
       if negb (carry =? 0) then 1 else mpn_cmp sum (primelimbs f).
Definition fast_sign (a : list Z) : res Z :=                       (* :365 *)
  if mpz_odd_p (order f) then fast_sgn_odd a else Ok (fast_sgn_even a).
Definition fast_is_sqr (a : list Z) : bool :=                      (* :303-313 *)
  if fast_is0 a then true else mpz_legendre (fast_to_mpz a) (order f) =? 1.
Definition fast_to_bytes (a : list Z) : res (list Z) :=            (* :315-325 *)
  pbc_mpz_out_raw_n (fixed_length (order f)) (fast_to_mpz a).
Definition fast_from_bytes (data : list Z) : res (list Z) :=       (* :327-338 *)
  fast_set_mpz (import_be data).
End Fast.
