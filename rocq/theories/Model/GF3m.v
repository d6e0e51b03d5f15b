(** Bit-sliced GF(3^m) (arith/ternary_extension_field.c:1-518).

    An element is two arrays of [len] 64-bit words, DATA1(e) and DATA2(e)
    (one allocation of 2*len words, DATA2 = DATA1 + len); unsigned long is 64
    bits (W = 64) and unsigned is 32 bits.  The C code temporarily changes
    p->len while it works on longer elements; here the length of the two lists
    plays that role.  Functions return the new value of their first argument:
    no function below writes to a destination before it has finished reading
    the words of its sources that it still needs. *)
From Coq Require Import ZArith List Bool.
From Verif.Base Require Import Outcome Array Algebra.
From Verif.Model Require Import GenericPow.
Import ListNotations.
Open Scope Z_scope.

(** gf3m_s, DATA1, DATA2: 14-40. *)
Record elt := E { d1 : list Z; d2 : list Z }.
(** params: 18-26.  len is (m + 64) / 64, from [field_init_gf3m]. *)
Record params := Params { p_len : nat; p_m : Z; p_t : Z; p_p : elt }.

Definition u32 (x : Z) : Z := x mod 2 ^ 32.
Definition top : Z := Z.shiftl 1 63.

(** gf3m_zero, gf3m_init: 73-82. *)
Definition zero (len : nat) : elt := E (repeat 0 len) (repeat 0 len).

(** shift_down: 92-103.  The C loop runs from the last word to the first; the
    second component is the bit passed to the word below. *)
Fixpoint shift_down_words (a : list Z) : list Z * Z :=
  match a with
  | [] => ([], 0)
  | w :: a' =>
    let (b, h) := shift_down_words a' in
    let l := Z.land w 1 in
    let w := Z.shiftr w 1 in
    ((if h =? 0 then w else Z.lor w top) :: b, l)
  end.
(** gf3m_shift_down: 106-109. *)
Definition shift_down (e : elt) : elt := E (fst (shift_down_words (d1 e))) (fst (shift_down_words (d2 e))).

(** shift_up: 112-121.  [l] is the bit coming from the word below. *)
Fixpoint shift_up_words (l : Z) (a : list Z) : list Z :=
  match a with
  | [] => []
  | w :: a' =>
    let h := Z.land w top in
    Z.lor (Z.shiftl (Z.land w (top - 1)) 1) l :: shift_up_words (if h =? 0 then 0 else 1) a'
  end.
(** gf3m_shift_up: 124-127. *)
Definition shift_up (e : elt) : elt := E (shift_up_words 0 (d1 e)) (shift_up_words 0 (d2 e)).

(** gf3m_get: 130-135. *)
Definition gf3m_get (e : elt) (pos : Z) : res Z :=
  let x := Z.to_nat (pos / 64) in
  let y := Z.shiftl 1 (pos mod 64) in
  a1 <- get (d1 e) x ;;
  a2 <- get (d2 e) x ;;
  Ok (if Z.land a1 y =? 0 then (if Z.land a2 y =? 0 then 0 else 2) else 1).

(** a[pos / W] |= 1ul << (pos % W) *)
Definition or_bit (a : list Z) (pos : Z) : res (list Z) :=
  w <- get a (Z.to_nat (pos / 64)) ;;
  put a (Z.to_nat (pos / 64)) (Z.lor w (Z.shiftl 1 (pos mod 64))).
(** gf3m_set: 138-145. *)
Definition gf3m_set (e : elt) (pos value : Z) : res elt :=
  if value =? 0 then Ok e
  else if value =? 2 then a <- or_bit (d2 e) pos ;; Ok (E (d1 e) a)
  else a <- or_bit (d1 e) pos ;; Ok (E a (d2 e)).

(** The loop of gf3m_add and gf3m_sub: 148-158. *)
Fixpoint add_words (a1 a2 b1 b2 : list Z) : res (list Z * list Z) :=
  match a1, a2, b1, b2 with
  | [], [], [], [] => Ok ([], [])
  | x1 :: a1, x2 :: a2, y1 :: b1, y2 :: b2 =>
    ' (c1, c2) <- add_words a1 a2 b1 b2 ;;
    let t := Z.land (Z.lor x1 x2) (Z.lor y1 y2) in
    Ok (Z.lxor t (Z.lor x1 y1) :: c1, Z.lxor t (Z.lor x2 y2) :: c2)
  | _, _, _, _ => UB
  end.
(** gf3m_add: 148-158. *)
Definition gf3m_add (a b : elt) : res elt := ' (c1, c2) <- add_words (d1 a) (d2 a) (d1 b) (d2 b) ;; Ok (E c1 c2).
(** gf3m_sub: 161-171: the same loop with the two arrays of b exchanged. *)
Definition gf3m_sub (a b : elt) : res elt := ' (c1, c2) <- add_words (d1 a) (d2 a) (d2 b) (d1 b) ;; Ok (E c1 c2).

(** gf3m_cmp: 174-181. *)
Fixpoint cmp_words (a b : list Z) : res Z :=
  match a, b with
  | [], [] => Ok 0
  | x :: a, y :: b => if x =? y then cmp_words a b else Ok 1
  | _, _ => UB
  end.
Definition gf3m_cmp (a b : elt) : res Z := cmp_words (d1 a ++ d2 a) (d1 b ++ d2 b).

(** gf3m_one: 184-187. *)
Definition gf3m_one (len : nat) : res elt := a <- put (repeat 0 len) 0 1 ;; Ok (E a (repeat 0 len)).

(** gf3m_is0: 189-195. *)
Definition gf3m_is0 (e : elt) : bool := forallb (Z.eqb 0) (d1 e ++ d2 e).
(** gf3m_is1: 197-205. *)
Definition gf3m_is1 (e : elt) : res bool :=
  match d1 e with
  | [] => UB
  | w :: a => Ok (if w =? 1 then forallb (Z.eqb 0) (a ++ d2 e) else false)
  end.

(** gf3m_random: 208-223.  [rs] are the values returned by rand(), two per
    word; rand() & i1 is rand(). *)
Fixpoint random_words (n : nat) (rs : list Z) : res (list Z * list Z * list Z) :=
  match n with
  | O => Ok ([], [], rs)
  | S n' =>
    match rs with
    | r1 :: r2 :: rs =>
      ' (a1, a2, rs) <- random_words n' rs ;;
      Ok (r1 :: a1, Z.ldiff r2 r1 :: a2, rs)
    | _ => OutOfFuel
    end
  end.
Definition gf3m_random (p : params) (rs : list Z) : res elt :=
  let rm := p_m p mod 64 in
  let x := if rm =? 0 then 2 ^ 64 - 1 else 2 ^ rm - 1 in
  ' (a1, a2, rs) <- random_words (p_len p - 1) rs ;;
  match rs with
  | r1 :: r2 :: _ =>
    let w := Z.land r1 x in
    Ok (E (a1 ++ [w]) (a2 ++ [Z.ldiff (Z.land r2 x) w]))
  | _ => OutOfFuel
  end.

(** swap: 225-229, on every word: gf3m_neg in place.  The exchange by three
    exclusive ors, since a1 and a2 are different words. *)
Fixpoint swap_words (a1 a2 : list Z) : res (list Z * list Z) :=
  match a1, a2 with
  | [], [] => Ok ([], [])
  | a :: a1, b :: a2 =>
    ' (c1, c2) <- swap_words a1 a2 ;;
    let a := Z.lxor a b in
    let b := Z.lxor b a in
    let a := Z.lxor a b in
    Ok (a :: c1, b :: c2)
  | _, _ => UB
  end.
(** gf3m_neg: 232-243.  [inplace]: the destination is the source. *)
Definition gf3m_neg (inplace : bool) (x : elt) : res elt :=
  if inplace then ' (c1, c2) <- swap_words (d1 x) (d2 x) ;; Ok (E c1 c2)
  else Ok (E (d2 x) (d1 x)).

(** gf3m_reduct: 249-270.  The while loop runs at most degree + 1 times. *)
Fixpoint reduct_loop (fuel : nat) (m : Z) (e px : elt) (degree : Z) : res elt :=
  if degree <? m then Ok e else
  match fuel with
  | O => OutOfFuel
  | S fuel' =>
    v <- gf3m_get e degree ;;
    e <- (if v =? 1 then gf3m_sub e px else if v =? 2 then gf3m_add e px else Ok e) ;;
    reduct_loop fuel' m e (shift_down px) (u32 (degree - 1))
  end.
Definition gf3m_reduct (p : params) (e : elt) (len : nat) (degree : Z) : res elt :=
  px <- gf3m_set (zero len) degree 1 ;;
  px <- gf3m_set px (u32 (degree - p_m p + p_t p)) 1 ;;
  px <- gf3m_set px (u32 (degree - p_m p)) 2 ;;
  reduct_loop (S (Z.to_nat degree)) (p_m p) e px degree.

(** gf3m_f1: 274-284. *)
Definition gf3m_f1 (n : Z) (a : elt) : elt :=
  if n =? 0 then zero (length (d1 a)) else if n =? 1 then a else E (d2 a) (d1 a).

(** gf3m_f2: 287-295. *)
Definition gf3m_f2 (p : params) (e : elt) : res elt :=
  let e := shift_up e in
  v <- gf3m_get e (p_m p) ;;
  if v =? 1 then gf3m_sub e (p_p p) else if v =? 2 then gf3m_add e (p_p p) else Ok e.

(** gf3m_mult: 299-318.  [n] is the number of iterations left, [i] the index. *)
Fixpoint mult_loop (n : nat) (p : params) (i : Z) (a b c : elt) : res elt :=
  match n with
  | O => Ok c
  | S n' =>
    v <- gf3m_get b i ;;
    c <- gf3m_add c (gf3m_f1 v a) ;;
    a <- gf3m_f2 p a ;;
    mult_loop n' p (i + 1) a b c
  end.
Definition gf3m_mult (p : params) (a b : elt) : res elt :=
  mult_loop (Z.to_nat (p_m p)) p 0 a b (zero (p_len p)).

(** gf3m_cubic: 322-341. *)
Fixpoint spread (n : nat) (i : Z) (x a : elt) : res elt :=
  match n with
  | O => Ok a
  | S n' => v <- gf3m_get x i ;; a <- gf3m_set a (u32 (3 * i)) v ;; spread n' (i + 1) x a
  end.
Definition gf3m_cubic (p : params) (x : elt) : res elt :=
  let len := Z.to_nat (u32 (3 * p_m p - 2 + 63) / 64) in
  a <- spread (Z.to_nat (p_m p)) 0 x (zero len) ;;
  a <- gf3m_reduct p a len (u32 (3 * p_m p - 3)) ;;
  e1 <- slice (d1 a) 0 (p_len p) ;;
  e2 <- slice (d2 a) 0 (p_len p) ;;
  Ok (E e1 e2).

(** gf3_mult: 346-349. *)
Definition gf3_mult (a b : Z) : res Z := get [0; 1; 2; 0; 1] (Z.to_nat (a * b)).

(** One iteration of the loop of gf3m_invert: 383-412; d is unsigned. *)
Record inv_state := Inv { iS : elt; iR : elt; iU : elt; iV : elt; i_d : Z }.
Definition invert_step (p : params) (st : inv_state) : res inv_state :=
  let (S, R, U, V, d) := st in
  r_m <- gf3m_get R (p_m p) ;;
  s_m <- gf3m_get S (p_m p) ;;
  if r_m =? 0 then
    U <- gf3m_f2 p U ;;
    Ok (Inv S (shift_up R) U V (u32 (d + 1)))
  else
    q <- gf3_mult r_m s_m ;;
    S <- gf3m_sub S (gf3m_f1 q R) ;;
    let S := shift_up S in
    V <- gf3m_sub V (gf3m_f1 q U) ;;
    if d =? 0 then
      (** S and R, U and V are exchanged: 398-399 *)
      V' <- gf3m_f2 p V ;;
      Ok (Inv R S V' U (u32 (d + 1)))
    else
      x <- gf3m_get U 0 ;;
      U <- (if x =? 1 then gf3m_add U (p_p p) else if x =? 2 then gf3m_sub U (p_p p) else Ok U) ;;
      Ok (Inv S R (shift_down U) V (d - 1)).
Fixpoint invert_loop (n : nat) (p : params) (st : inv_state) : res inv_state :=
  match n with O => Ok st | S n' => st <- invert_step p st ;; invert_loop n' p st end.
(** gf3m_invert: 362-425. *)
Definition gf3m_invert (p : params) (a : elt) : res elt :=
  let lenS := Z.to_nat (u32 (3 * p_m p + 63) / 64) in
  s1 <- splice (repeat 0 lenS) 0 (d1 (p_p p)) ;;
  s2 <- splice (repeat 0 lenS) 0 (d2 (p_p p)) ;;
  r1 <- splice (repeat 0 lenS) 0 (d1 a) ;;
  r2 <- splice (repeat 0 lenS) 0 (d2 a) ;;
  U <- gf3m_one (p_len p) ;;
  st <- invert_loop (Z.to_nat (u32 (p_m p * 2))) p (Inv (E s1 s2) (E r1 r2) U (zero (p_len p)) 0) ;;
  r_m <- gf3m_get (iR st) (p_m p) ;;
  if r_m =? 2 then gf3m_neg true (iU st) else Ok (iU st).

(** gf3m_sqrt: 428-437, element_pow_mpz on the field F that the elements
    represent (this field has no pow_mpz of its own, so generic_pow_mpz). *)
Definition gf3m_sqrt (F : fld) (order : Z) (a : F) : res F :=
  generic_pow_mpz (mul_monoid F) a (Z.quot (order + 1) (2 ^ 2)).
(** Not overridden by field_init_gf3m, hence the defaults of arith/field.c:
    generic_square 383-385, generic_double 402-404, generic_div 458-469;
    set_mpz is zero_set_mpz 420-423 (every integer is read as 0), so
    generic_set_si 429-435 gives 0 and generic_mul_si 393-399 multiplies by it. *)
Definition gf3m_square (p : params) (a : elt) : res elt := gf3m_mult p a a.
Definition gf3m_double (a : elt) : res elt := gf3m_add a a.
Definition gf3m_div (p : params) (a b : elt) : res elt := i <- gf3m_invert p b ;; gf3m_mult p i a.
Definition gf3m_set_si (p : params) (z : Z) : elt := zero (p_len p).
Definition gf3m_mul_si (p : params) (a : elt) (z : Z) : res elt := gf3m_mult p a (gf3m_set_si p z).

(** gf3m_to_bytes: 439-449. *)
Definition word_bytes (w : Z) : list Z := map (fun j => Z.shiftr w (8 * Z.of_nat j) mod 256) (seq 0 8).
Fixpoint interleave (a b : list Z) : list Z :=
  match a, b with x :: a, y :: b => x :: y :: interleave a b | _, _ => [] end.
Fixpoint to_bytes_words (a b : list Z) : res (list Z) :=
  match a, b with
  | [], [] => Ok []
  | x :: a, y :: b => r <- to_bytes_words a b ;; Ok (interleave (word_bytes x) (word_bytes y) ++ r)
  | _, _ => UB
  end.
Definition gf3m_to_bytes (e : elt) : res (list Z) := to_bytes_words (d1 e) (d2 e).

(** gf3m_from_bytes: 451-465.  [read_word d j a b]: the while loop from
    index 2 j - 2 down to 0, on 64-bit words. *)
Fixpoint read_word (d : list Z) (j : nat) (a b : Z) : res (Z * Z) :=
  match j with
  | O => Ok (a, b)
  | S j' =>
    x <- get d (2 * j') ;;
    y <- get d (2 * j' + 1) ;;
    read_word d j' ((a * 256 + x) mod 2 ^ 64) ((b * 256 + y) mod 2 ^ 64)
  end.
Fixpoint from_bytes_words (len : nat) (d : list Z) : res (list Z * list Z) :=
  match len with
  | O => Ok ([], [])
  | S len' =>
    ' (a, b) <- read_word d 8 0 0 ;;
    ' (l1, l2) <- from_bytes_words len' (skipn 16 d) ;;
    Ok (a :: l1, b :: l2)
  end.
Definition gf3m_from_bytes (p : params) (d : list Z) : res elt :=
  ' (a, b) <- from_bytes_words (p_len p) d ;; Ok (E a b).

(** field_init_gf3m: 475-491. *)
Definition field_init_gf3m (m t : Z) : res params :=
  let len := Z.to_nat (u32 (m + 63 + 1) / 64) in
  p2 <- put (repeat 0 len) 0 1 ;;
  p1 <- or_bit (repeat 0 len) t ;;
  p1 <- or_bit p1 m ;;
  Ok (Params len m t (E p1 p2)).
(** fixed_length_in_bytes, the return value of to_bytes and from_bytes: 513. *)
Definition gf3m_length_in_bytes (p : params) : Z := 2 * 8 * Z.of_nat (p_len p).
