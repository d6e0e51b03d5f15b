(** Complex numbers (ecc/mpc.c, ecc/mpc.h).

    A complex number is a pair of mpf_t; here the two components are elements
    of an arbitrary field K, so the arithmetic is exact.  Simplification: the
    code's mpf_t are floating-point numbers of a fixed precision, and rounding
    is not modelled.  Variables are slots of a store, so that an output may be
    the same variable as an input. *)
From Coq Require Import ZArith List Bool.
From Verif.Base Require Import Outcome Algebra Slots.
Open Scope Z_scope.

Section C.
Variable K : fld.
Definition cplx : Type := (K * K)%type.
Definition store : Type := nat -> cplx.
Definition set_re (s : store) (r : nat) (x : K) : store := fun i => if Nat.eqb i r then (x, snd (s i)) else s i.
Definition set_im (s : store) (r : nat) (x : K) : store := fun i => if Nat.eqb i r then (fst (s i), x) else s i.
Local Notation re s v := (fst (s v)). Local Notation im s v := (snd (s v)).

(** mpc_add: mpc.h:38-41, mpc_sub: 43-46, mpc_neg: 48-51, mpc_conj: 53-56, mpc_set: 58-61. *)
Definition mpc_add (s : store) (r z0 z1 : nat) : store :=
  let s := set_re s r (fadd (re s z0) (re s z1)) in
  set_im s r (fadd (im s z0) (im s z1)).
Definition mpc_sub (s : store) (r z0 z1 : nat) : store :=
  let s := set_re s r (fsub (re s z0) (re s z1)) in
  set_im s r (fsub (im s z0) (im s z1)).
Definition mpc_neg (s : store) (r z : nat) : store := let s := set_re s r (fopp (re s z)) in set_im s r (fopp (im s z)).
Definition mpc_conj (s : store) (r z : nat) : store := let s := set_re s r (re s z) in set_im s r (fopp (im s z)).
Definition mpc_set (s : store) (r z : nat) : store := let s := set_re s r (re s z) in set_im s r (im s z).
(** mpc_set_ui: mpc.h:63-66. *)
Definition mpc_set_ui (s : store) (r : nat) (n : Z) : store := let s := set_re s r (fofz n) in set_im s r f0.
(** mpc_add_ui: mpc.h:68-70.  Only the real part is written. *)
Definition mpc_add_ui (s : store) (r z : nat) (n : Z) : store := set_re s r (fadd (re s z) (fofz n)).
(** mpc_mul_ui: mpc.h:72-75, mpc_mul_mpf: 77-80, mpc_mul_2exp: mpc.c:26-30. *)
Definition mpc_mul_ui (s : store) (r z : nat) (n : Z) : store := let s := set_re s r (fmul (re s z) (fofz n)) in set_im s r (fmul (im s z) (fofz n)).
Definition mpc_mul_mpf (s : store) (r z : nat) (f : K) : store := let s := set_re s r (fmul (re s z) f) in set_im s r (fmul (im s z) f).
Definition mpc_mul_2exp (s : store) (r z : nat) (e : Z) : store := mpc_mul_ui s r z (2 ^ e).
(** mpc_mul: mpc.c:7-24. *)
Definition mpc_mul (s : store) (r z0 z1 : nat) : store :=
  let ac := fmul (re s z0) (re s z1) in
  let bd := fmul (im s z0) (im s z1) in
  let t := fadd (re s z0) (im s z0) in
  let s := set_im s r (fadd (re s z1) (im s z1)) in
  let s := set_im s r (fmul (im s r) t) in
  let s := set_im s r (fsub (im s r) ac) in
  let s := set_im s r (fsub (im s r) bd) in
  set_re s r (fsub ac bd).
(** mpc_sqr: mpc.c:33-46. *)
Definition mpc_sqr (s : store) (r z : nat) : store :=
  let t0 := fadd (re s z) (im s z) in
  let t1 := fsub (re s z) (im s z) in
  let t0 := fmul t0 t1 in
  let t1 := fmul (re s z) (im s z) in
  let s := set_re s r t0 in
  set_im s r (fadd t1 t1).
(** mpc_inv: mpc.c:50-64.  Division by zero: mpf_ui_div. *)
Definition mpc_inv (s : store) (r z : nat) : res store :=
  let t0 := fmul (re s z) (re s z) in
  let t1 := fmul (im s z) (im s z) in
  let t0 := fadd t0 t1 in
  t0 <- finvert t0 ;;
  let s := set_re s r (fmul (re s z) t0) in
  let t0 := fopp t0 in
  Ok (set_im s r (fmul (im s z) t0)).
(** mpc_div: mpc.c:66-73; c0 is a new variable, slot [c0] here. *)
Definition mpc_div (c0 : nat) (s : store) (r z0 z1 : nat) : res store :=
  s <- mpc_inv s c0 z1 ;;
  Ok (mpc_mul s r z0 c0).
(** mpc_muli: mpc.c:113-122. *)
Definition mpc_muli (s : store) (r z : nat) : store :=
  let t := fopp (im s z) in
  let s := set_im s r (re s z) in
  set_re s r t.

(** mpc_pow_ui: mpc.c:90-111; z0 is a new variable.  m is an unsigned int of 32 bits. *)
Fixpoint pow_start (fuel : nat) (m n : Z) : res Z :=
  match fuel with
  | O => OutOfFuel
  | S f => if m <=? n then pow_start f ((m * 2) mod 2 ^ 32) n else Ok m
  end.
Fixpoint pow_loop (fuel : nat) (z0 z : nat) (m n : Z) (s : store) : res store :=
  match fuel with
  | O => OutOfFuel
  | S f =>
    if m =? 0 then Ok s else
    let s := mpc_mul s z0 z0 z0 in
    let s := if negb (Z.land m n =? 0) then mpc_mul s z0 z0 z else s in
    pow_loop f z0 z (m / 2) n s
  end.
Definition mpc_pow_ui (fuel : nat) (z0 : nat) (s : store) (r z : nat) (n : Z) : res store :=
  m <- pow_start fuel 1 n ;;
  let s := mpc_set_ui s z0 1 in
  s <- pow_loop fuel z0 z (m / 2) n s ;;
  Ok (mpc_set s r z0).
End C.
