(** arith/z.c: the ring Z.  An element is its mpz. *)
From Coq Require Import ZArith List Bool.
From Verif.Base Require Import Outcome Gmp Array.
Import ListNotations.
Open Scope Z_scope.

Section ZR.
(** mpz_perfect_power_p: an oracle; see [perfect_power_test] in the spec. *)
Variable perfect_power_p : Z -> bool.

(** z.c:63-65 *)
Definition z_double (a : Z) : Z := Z.shiftl a 1.
(** :67-69: mpz_tdiv_q_2exp (n, a, -1); the count has type mp_bitcnt_t
    (unsigned 64-bit), so -1 means 2^64-1.  GMP returns 0 when the count is at
    least the number of bits. *)
Definition mpz_tdiv_q_2exp (a cnt : Z) : Z := if sizeinbase2 a <=? cnt then 0 else Z.quot a (2 ^ cnt).
Definition z_halve (a : Z) : Z := mpz_tdiv_q_2exp a ((-1) mod 2 ^ 64).
(** :83-85: mpz_pow_ui with mpz_get_ui of the exponent *)
Definition z_pow_mpz (a e : Z) : Z := a ^ (Z.abs e mod 2 ^ 64).
(** :95-99 *)
Definition z_invert (a : Z) : Z := if Z.abs a =? 1 then a else 0.
(** :101-103: mpz_tdiv_q; division by zero raises an exception. *)
Definition z_div (a b : Z) : res Z := if b =? 0 then UB else Ok (Z.quot a b).
(** :110-112: mpz_import with the least significant byte first *)
Definition z_from_hash (data : list Z) : Z := fold_right (fun x acc => x + 256 * acc) 0 data.
(** :122-124 *)
Definition z_cmp (a b : Z) : Z := match a ?= b with Lt => -1 | Eq => 0 | Gt => 1 end.
(** :126-128 *)
Definition z_is_sqr (a : Z) : bool := perfect_power_p a.
(** :130-132: mpz_sqrt raises an exception on negative numbers. *)
Definition z_sqrt (a : Z) : res Z := if a <? 0 then UB else Ok (Z.sqrt a).

(** Histories over a register file of elements. *)
Inductive zcall :=
| ZSetSi (d : nat) (n : Z) | ZSetMpz (d : nat) (n : Z) | ZSet (d a : nat) | ZSet0 (d : nat) | ZSet1 (d : nat)
| ZAdd (d a b : nat) | ZSub (d a b : nat) | ZMul (d a b : nat) | ZSquare (d a : nat) | ZDouble (d a : nat)
| ZHalve (d a : nat) | ZNeg (d a : nat) | ZMulMpz (d a : nat) (n : Z) | ZMulSi (d a : nat) (n : Z)
| ZPow (d a : nat) (e : Z) | ZInvert (d a : nat) | ZDiv (d a b : nat) | ZSqrt (d a : nat)
| ZFromHash (d : nat) (data : list Z)
| ZToMpz (a : nat) | ZSign (a : nat) | ZIs0 (a : nat) | ZIs1 (a : nat) | ZCmp (a b : nat) | ZIsSqr (a : nat).
Inductive zobs := ON (n : Z) | OB (b : bool).

Definition zset (s : nat -> Z) (d : nat) (v : Z) : nat -> Z := fun i => if Nat.eqb i d then v else s i.

(** z.c:26-132 and :199-201, one call *)
Definition z_step (s : nat -> Z) (c : zcall) : res ((nat -> Z) * list zobs) :=
  match c with
  | ZSetSi d n | ZSetMpz d n => Ok (zset s d n, [])
  | ZSet d a => Ok (zset s d (s a), [])
  | ZSet0 d => Ok (zset s d 0, [])
  | ZSet1 d => Ok (zset s d 1, [])
  | ZAdd d a b => Ok (zset s d (s a + s b), [])
  | ZSub d a b => Ok (zset s d (s a - s b), [])
  | ZMul d a b => Ok (zset s d (s a * s b), [])
  | ZSquare d a => Ok (zset s d (s a * s a), [])
  | ZDouble d a => Ok (zset s d (z_double (s a)), [])
  | ZHalve d a => Ok (zset s d (z_halve (s a)), [])
  | ZNeg d a => Ok (zset s d (- s a), [])
  | ZMulMpz d a n | ZMulSi d a n => Ok (zset s d (s a * n), [])
  | ZPow d a e => Ok (zset s d (z_pow_mpz (s a) e), [])
  | ZInvert d a => Ok (zset s d (z_invert (s a)), [])
  | ZDiv d a b => v <- z_div (s a) (s b) ;; Ok (zset s d v, [])
  | ZSqrt d a => v <- z_sqrt (s a) ;; Ok (zset s d v, [])
  | ZFromHash d l => Ok (zset s d (z_from_hash l), [])
  | ZToMpz a => Ok (s, [ON (s a)])
  | ZSign a => Ok (s, [ON (Z.sgn (s a))])
  | ZIs0 a => Ok (s, [OB (s a =? 0)])
  | ZIs1 a => Ok (s, [OB (s a =? 1)])
  | ZCmp a b => Ok (s, [ON (z_cmp (s a) (s b))])
  | ZIsSqr a => Ok (s, [OB (z_is_sqr (s a))])
  end.
Fixpoint z_run (s : nat -> Z) (h : list zcall) : res (list zobs) :=
  match h with
  | [] => Ok []
  | c :: h' => r <- z_step s c ;; os <- z_run (fst r) h' ;; Ok (snd r ++ os)
  end.
End ZR.

(** z.c:143-166: the buffer afterwards and the return value.  [buf] is the
    caller's buffer; bytes are 0..255. *)
Definition z_to_bytes (buf : list Z) (z : Z) : res (list Z * Z) :=
  let msb := sizeinbase2 z in
  let pad := msb mod 8 =? 0 in
  buf <- (if pad then put buf 4 0 else Ok buf) ;;
  let n := if pad then 5 else 4 in
  buf <- splice buf (Z.to_nat n) (export_be (Z.abs z)) ;;
  buf <- (if z <? 0 then x <- get buf 4 ;; put buf 4 (Z.lor x 128) else Ok buf) ;;
  let n := n + (msb + 7) / 8 - 4 in
  let byte i := (n / 2 ^ (8 * (3 - i))) mod 256 in
  buf <- splice buf 0 [byte 0; byte 1; byte 2; byte 3] ;;
  Ok (buf, n + 4).

(** :188-193: z = sum over i < n of ptr[i] * 2^(8 (n-1-i)) *)
Fixpoint z_from_loop (data : list Z) (m : nat) (ptr : nat) (z : Z) : res Z :=
  match m with
  | O => Ok z
  | S m' => x <- get data ptr ;; z_from_loop data m' (S ptr) (z + x * 2 ^ (8 * Z.of_nat m'))
  end.
(** :168-197: the integer, the buffer afterwards (data[4] loses its sign bit)
    and the return value. *)
Definition z_from_bytes (data : list Z) : res (Z * list Z * Z) :=
  b0 <- get data 0 ;; b1 <- get data 1 ;; b2 <- get data 2 ;; b3 <- get data 3 ;;
  let n := b0 * 2 ^ 24 + b1 * 2 ^ 16 + b2 * 2 ^ 8 + b3 in
  s <- get data 4 ;;
  let neg := negb (Z.land s 128 =? 0) in
  data <- (if neg then put data 4 (Z.land s 127) else Ok data) ;;
  z <- z_from_loop data (Z.to_nat n) 4 0 ;;
  Ok (if neg then - z else z, data, n).

(** :203-205 *)
Definition z_length_in_bytes (z : Z) : Z := (sizeinbase2 z + 7) / 8 + 4.
