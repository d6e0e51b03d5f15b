(** ecc/curve.c: encodings of points, hashing to the curve, random points,
    derived curves and orders.  What the base field provides is a parameter:
    its encoding (element_to_bytes/from_bytes, of fixed length), sign, square
    test and square root, and its own element_from_hash. *)
From Coq Require Import ZArith List Bool.
From Verif.Base Require Import Outcome Array Algebra Slots.
From Verif.Spec Require Import Curve.     (* only for the type of points *)
From Verif.Model Require Import GenericPow Curve.
Import ListNotations.
Open Scope Z_scope.

Section C.
Variable K : fld.
Variables a b : K.
Variables (blen : nat) (enc : K -> list Z) (dec : list Z -> K) (sign : K -> Z)
          (is_sqr : K -> bool) (sqrt : K -> res K) (hash : list Z -> K).
Notation x o := ((o, 0%nat) : loc).
Notation y o := ((o, 1%nat) : loc).
Notation point := (point K).
Notation cst := (cst K).
Definition put_coord (l : loc) (v : K) (st : cst) : cst := {| sl := upd (sl st) l v; inf := inf st |}.

(** x^3 + ax + b as computed at :408-412, :464-467, :783-786 *)
Definition cubic (X : K) : K := fadd (fmul (fadd (fmul X X) a) X) b.

(** :603-609; the bytes written, whose number is returned *)
Definition curve_to_bytes (st : cst) (o : obj) : list Z := enc (sl st (x o)) ++ enc (sl st (y o)).
(** :611-623 *)
Definition curve_from_bytes (o : obj) (data : list Z) (st : cst) : res cst :=
  let st := set_inf o false st in
  d0 <- slice data 0 blen ;;
  let st := put_coord (x o) (dec d0) st in
  d1 <- slice data blen blen ;;
  let st := put_coord (y o) (dec d1) st in
  if curve_is_valid_point K a b st o then Ok st else Ok (set_inf o true st).
(** :762-773 *)
Definition to_bytes_compressed (st : cst) (o : obj) : list Z :=
  enc (sl st (x o)) ++ [if 0 <? sign (sl st (y o)) then 1 else 0].
(** :778-791, with x already in place *)
Definition point_from_x (o : obj) (st : cst) : res cst :=
  let st := set_inf o false st in
  r <- sqrt (cubic (sl st (x o))) ;; Ok (put_coord (y o) r st).
(** :799-813 *)
Definition from_bytes_compressed (o : obj) (data : list Z) (st : cst) : res cst :=
  d0 <- slice data 0 blen ;;
  let st := put_coord (x o) (dec d0) st in
  st <- point_from_x o st ;;
  s <- get data blen ;;
  let Y := sl st (y o) in
  if negb (s =? 0) then (if sign Y <? 0 then Ok (put_coord (y o) (fopp Y) st) else Ok st)
  else if 0 <? sign Y then Ok (put_coord (y o) (fopp Y) st) else Ok st.
(** :821-836 *)
Definition to_bytes_x_only (st : cst) (o : obj) : list Z := enc (sl st (x o)).
Definition from_bytes_x_only (o : obj) (data : list Z) (st : cst) : res cst :=
  d0 <- slice data 0 blen ;;
  point_from_x o (put_coord (x o) (dec d0) st).
(** :598-601 and :742, :815-818, :838-841 *)
Definition curve_length : nat := 2 * blen.
Definition compressed_length : nat := blen + 1.
Definition x_only_length : nat := blen.

(** Multiplication by the cofactor, if there is one (:427, :477). *)
Definition clear_cofactor (cofac : option Z) (P : point) : res point :=
  match cofac with None => Ok P | Some c => join (generic_pow_mpz (point_monoid K a) (Ok P) c) end.
(** :463-473 *)
Fixpoint hash_loop (fuel : nat) (X : K) : res (K * K) :=
  match fuel with
  | O => OutOfFuel
  | S n => let t := cubic X in if is_sqr t then Ok (X, t) else hash_loop n (fadd (fmul X X) f1)
  end.
(** :455-482 *)
Definition curve_from_hash (fuel : nat) (cofac : option Z) (data : list Z) : res point :=
  r <- hash_loop fuel (hash data) ;;
  let '(X, t) := r in
  Y <- sqrt t ;;
  let Y := if sign Y <? 0 then fopp Y else Y in
  clear_cofactor cofac (Some (X, Y)).
(** :405-422; [xs] are the successive random elements *)
Fixpoint random_no_cofac (xs : list K) : res point :=
  match xs with
  | [] => OutOfFuel
  | X :: xs' => let t := cubic X in if is_sqr t then Y <- sqrt t ;; Ok (Some (X, Y)) else random_no_cofac xs'
  end.
(** :424-428; also how the generators are made (:751-757, :895-901) *)
Definition random_solvefory (cofac : option Z) (xs : list K) : res point :=
  P <- random_no_cofac xs ;; clear_cofactor cofac P.
(** :430-438; [n] is what pbc_mpz_random gives below the order *)
Definition random_pointmul (gen : point) (n : Z) : res point := join (generic_pow_mpz (point_monoid K a) (Ok gen) n).
(** :635-656; the exponent is (order - 1) >> 1 *)
Definition point_is_sqr (order : Z) (P : point) : res bool :=
  if Z.odd order then Ok true
  else Q <- join (generic_pow_mpz (point_monoid K a) (Ok P) (Z.shiftr (order - 1) 1)) ;;
       Ok (match Q with None => true | Some _ => false end).
(** :884-894 *)
Definition twist_coeffs (nqr : K) : K * K := (fmul (fmul a nqr) nqr, fmul (fmul (fmul b nqr) nqr) nqr).
(** :911-924 *)
Definition j_coeffs (j : K) : res (K * K) :=
  let u := fsub (fofz 1728) j in
  u <- finvert u ;; let u := fmul u j in
  let w := fadd u u in Ok (fadd u w, w).
End C.

(** :942-965; the state after i iterations *)
Fixpoint trace_loop (m : nat) (q t c1 c2 : Z) : Z :=
  match m with O => c1 | S m' => trace_loop m' q t (t * c1 - q * c2) c1 end.
Definition trace_n (q t : Z) (n : Z) : Z := trace_loop (Z.to_nat (n - 1)) q t t 2.
(** :968-980 *)
Definition curve_order_extn (q t : Z) (k : Z) : Z := q ^ k + 1 - trace_n q t k.
