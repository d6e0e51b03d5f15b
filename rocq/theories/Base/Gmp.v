(** Interface to GMP, an external library: every function used by the
    modelled code is given its documented meaning.

    - mpz_t is modelled by [Z].
    - A limb (mp_limb_t, GMP_NUMB_BITS = 64) is an integer in [0, B).
    - An array of limbs is a list, least significant limb first.
    - mpn_* functions on n limbs return the n result limbs and the carry,
      borrow or most significant limb.

    Simplification: memory allocation never fails, and limb arrays passed to
    the low-level functions may overlap only in the ways GMP documents as
    allowed (identical, or disjoint), which is how the callers use them. *)

From Coq Require Import ZArith List Lia Bool.
From Verif.Base Require Import Outcome.
Import ListNotations.
Open Scope Z_scope.

Definition limb_bits : Z := 64.
Definition B : Z := 18446744073709551616.          (* 2^64 *)

(** Value of an array of limbs. *)
Fixpoint val (l : list Z) : Z :=
  match l with
  | [] => 0
  | x :: l' => x + B * val l'
  end.

(** The [t] least significant limbs of an integer (two's complement when
    negative): what mpz_export + memset, or any mpn function, stores. *)
Fixpoint limbs (t : nat) (x : Z) : list Z :=
  match t with
  | O => []
  | S t' => (x mod B) :: limbs t' (x / B)
  end.

Definition Bpow (t : nat) : Z := B ^ Z.of_nat t.

(** Well-formed array of [t] limbs. *)
Definition wf (t : nat) (l : list Z) : Prop :=
  length l = t /\ Forall (fun x => 0 <= x < B) l.

(** Unsigned limb arithmetic wraps around. *)
Definition wrap (x : Z) : Z := x mod B.

(** mpn_add_n (rp, s1p, s2p, n): returns limbs and carry. *)
Definition mpn_add_n (a b : list Z) (t : nat) : list Z * Z :=
  let s := val a + val b in (limbs t s, s / Bpow t).

(** mpn_sub_n: returns limbs and borrow (0 or 1). *)
Definition mpn_sub_n (a b : list Z) (t : nat) : list Z * Z :=
  let s := val a - val b in (limbs t s, - (s / Bpow t)).

(** mpn_sub_1 (rp, s1p, n, s2limb). *)
Definition mpn_sub_1 (a : list Z) (t : nat) (x : Z) : list Z * Z :=
  let s := val a - x in (limbs t s, - (s / Bpow t)).

(** mpn_add_1 (rp, s1p, n, s2limb): limbs and carry. *)
Definition mpn_add_1 (a : list Z) (t : nat) (x : Z) : list Z * Z :=
  let s := val a + x in (limbs t s, s / Bpow t).

(** mpn_cmp: negative, zero or positive. *)
Definition mpn_cmp (a b : list Z) : Z := Z.sgn (val a - val b).

(** mpn_lshift (rp, sp, n, 1): limbs and the bit shifted out. *)
Definition mpn_lshift1 (a : list Z) (t : nat) : list Z * Z :=
  let s := 2 * val a in (limbs t s, s / Bpow t).

(** mpn_rshift (rp, sp, n, 1): limbs (the bit shifted out is not used). *)
Definition mpn_rshift1 (a : list Z) (t : nat) : list Z := limbs t (val a / 2).

(** mpn_mul_1 (rp, s1p, n, s2limb): low limbs and most significant limb. *)
Definition mpn_mul_1 (a : list Z) (t : nat) (x : Z) : list Z * Z :=
  let s := val a * x in (limbs t s, s / Bpow t).

(** mpn_addmul_1 (rp, s1p, n, s2limb): rp += s1p * s2limb, returns carry limb. *)
Definition mpn_addmul_1 (r a : list Z) (t : nat) (x : Z) : list Z * Z :=
  let s := val r + val a * x in (limbs t s, s / Bpow t).

(** mpn_mul_n (rp, s1p, s2p, n): 2n limbs. *)
Definition mpn_mul_n (a b : list Z) (t : nat) : list Z := limbs (2 * t) (val a * val b).

(** mpn_tdiv_qr (qp, rp, 0, np, nn, dp, dn): the remainder limbs (the quotient
    is not used by the modelled code). *)
Definition mpn_tdiv_r (n d : list Z) (t : nat) : list Z := limbs t (val n mod val d).

(** mpz_export (dst, &count, -1, 8, 0, 0, z) followed by memset of the
    remaining limbs, for 0 <= z < B^t.  More limbs than [t] would overflow the
    destination: undefined behaviour. *)
Definition export_limbs (t : nat) (z : Z) : res (list Z) :=
  if (0 <=? z) && (z <? Bpow t) then Ok (limbs t z) else UB.

(** mpz_mod: always non-negative remainder (divisor positive here). *)
Definition mpz_mod (a n : Z) : Z := a mod n.

(** mpz_invert (rop, op1, op2): [Some x] with 0 <= x < |op2| when the inverse
    exists; otherwise the return value is 0 and rop is undefined ([None]).
    Extended Euclid on (op1 mod op2, op2). *)
Definition mpz_invert (a n : Z) : option Z :=
  let '(x, g) :=
    let fix egcd (fuel : nat) (r0 r1 s0 s1 : Z) : Z * Z :=
      match fuel with
      | O => (s0, r0)
      | S f => if r1 =? 0 then (s0, r0)
               else egcd f r1 (r0 mod r1) s1 (s0 - (r0 / r1) * s1)
      end in
    egcd (2 * Z.to_nat (Z.log2_up n) + 2)%nat (a mod n) n 1 0 in
  if g =? 1 then Some (x mod n) else None.

(** mpz_powm (rop, base, exp, mod), exp >= 0. *)
Fixpoint powm_pos (a : Z) (e : positive) (n : Z) : Z :=
  match e with
  | xH => a mod n
  | xO e' => let h := powm_pos a e' n in (h * h) mod n
  | xI e' => let h := powm_pos a e' n in ((h * h) mod n * a) mod n
  end.

Definition mpz_powm (a e n : Z) : option Z :=
  match e with
  | Z0 => Some (1 mod n)
  | Zpos p => Some (powm_pos a p n)
  | Zneg p => match mpz_invert a n with
              | Some i => Some (powm_pos i p n)
              | None => None
              end
  end.

(** mpz_sizeinbase (z, 2); it is 1 for z = 0. *)
Definition sizeinbase2 (z : Z) : Z := if z =? 0 then 1 else Z.log2 (Z.abs z) + 1.

(** mpz_tstbit on a non-negative number. *)
Definition mpz_tstbit (z : Z) (i : Z) : bool := Z.testbit z i.

(** mpz_odd_p *)
Definition mpz_odd_p (z : Z) : bool := Z.odd z.

(** mpz_legendre (a, p), modelled through Euler's criterion for odd prime p:
    the value a^((p-1)/2) mod p, with p - 1 read as -1.  (For prime p this is
    the definition of the Legendre symbol.) *)
Definition mpz_legendre (a p : Z) : Z :=
  match mpz_powm a ((p - 1) / 2) p with
  | Some e => if e =? 0 then 0 else if e =? 1 then 1 else -1
  | None => 0
  end.

(** Bytes. *)
Definition is_byte (x : Z) : Prop := 0 <= x < 256.

(** mpz_import (z, n, 1, 1, 1, 0, data): big-endian bytes. *)
Definition import_be (l : list Z) : Z := fold_left (fun acc x => 256 * acc + x) l 0.

(** mpz_export big-endian of a non-negative z: no leading zero bytes, empty for 0. *)
Fixpoint export_be_fuel (fuel : nat) (z : Z) (acc : list Z) : list Z :=
  match fuel with
  | O => acc
  | S f => if z =? 0 then acc else export_be_fuel f (z / 256) ((z mod 256) :: acc)
  end.
Definition export_be (z : Z) : list Z := export_be_fuel (Z.to_nat (sizeinbase2 z)) z [].
