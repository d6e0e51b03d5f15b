(** arith/tinyfp.c: F_p for moduli of one machine word (field_init_tiny_fp,
    include/pbc_fp.h:14).  An element is a pbc_mpui, an unsigned long of 64
    bits (include/pbc_utils.h:90-93); the modulus too. *)
From Coq Require Import ZArith List Bool.
From Verif.Base Require Import Outcome Gmp.
From Verif.Spec Require PrimeField.
From Verif.Model Require Import FieldInt NaiveFp FpMachine.
Import ListNotations.
Open Scope Z_scope.

(** Unsigned 64-bit arithmetic. *)
Definition ul (x : Z) : Z := x mod 2 ^ 64.

Section Tiny.
Variable p : Z.                                  (* *(pbc_mpui * ) field->data, = field->order *)

Definition tiny_init : Z := 0.                                    (* :20-23 *)
Definition tiny_set_mpz (z : Z) : Z := z mod p.                   (* :29-37 *)
(** :39-48; -op overflows for LONG_MIN. *)
Definition tiny_set_si (op : Z) : res Z :=
  if op <? 0 then if op =? - 2 ^ 63 then UB else let d := (- op) mod p in Ok (ul (p - d))
  else Ok (op mod p).
Definition tiny_to_mpz (a : Z) : Z := a.                          (* :50-53 *)
Definition tiny_set0 : Z := 0.                                    (* :55-58 *)
Definition tiny_set1 : Z := 1.                                    (* :60-63 *)
Definition tiny_is1 (a : Z) : bool := a =? 1.                     (* :65-68 *)
Definition tiny_is0 (a : Z) : bool := a =? 0.                     (* :70-73 *)
Definition tiny_add (a b : Z) : Z :=                              (* :85-97 *)
  let l0 := ul (a + b) in
  let l0 := if l0 <? a then ul (l0 - p) else l0 in
  l0 mod p.
(** :99-109; [same]: c and a are the same element, so that *p is the doubled
    value when it is compared. *)
Definition tiny_double (same : bool) (a : Z) : Z :=
  let r := ul (2 * a) in
  let r := if r <? (if same then r else a) then ul (r - p) else r in
  r mod p.
Definition tiny_sub (a b : Z) : Z :=                              (* :111-122 *)
  if b <=? a then a - b else ul (ul (p - b) + a).
(** :124-133: the product is computed in unsigned long, then widened. *)
Definition tiny_mul (a b : Z) : Z := ul (a * b) mod p.
Definition tiny_square (a : Z) : Z := tiny_mul a a.               (* :135-137 *)
Definition tiny_neg (a : Z) : Z := if a =? 0 then 0 else ul (p - a). (* :139-148 *)
(** :150-158: op is converted to unsigned long. *)
Definition tiny_mul_si (a op : Z) : Z := ul (a * ul op) mod p.
(** :160-168; mpz_get_ui keeps the low word. *)
Definition tiny_pow_mpz (a n : Z) : res Z := z <- of_option (mpz_powm a n p) ;; Ok (ul z).
Definition tiny_set (a : Z) : Z := a.                             (* :170-174 *)
Definition tiny_invert (a : Z) : res Z := z <- of_option (mpz_invert a p) ;; Ok (ul z). (* :176-184 *)
(** :195-202: the bytes are read least significant first. *)
Definition tiny_from_hash (data : list Z) : Z := tiny_set_mpz (import_be (rev data)).
Definition tiny_cmp (a b : Z) : Z := if a =? b then 0 else 1.     (* :204-208 *)
Definition tiny_sgn_odd (a : Z) : Z :=                            (* :210-214 *)
  if a =? 0 then 0 else if Z.odd a then 1 else -1.
Definition tiny_is_sqr (a : Z) : bool :=                          (* :216-226 *)
  if a =? 0 then true else mpz_legendre a p =? 1.
(** :291-300, the loop for fixed_length_in_bytes; [l] is all ones in n bytes. *)
Fixpoint tiny_length_loop (fuel : nat) (n : nat) (l : Z) : res nat :=
  match fuel with
  | O => OutOfFuel
  | S f => if l <? p then tiny_length_loop f (S n) (ul (ul (l * 256) + 255)) else Ok n
  end.
Definition tiny_length : res nat := tiny_length_loop 9 1 255.
(** :228-237: data[n - i - 1] = (unsigned char) l; l >>= 8. *)
Fixpoint tiny_put (n : nat) (l : Z) (acc : list Z) : list Z :=
  match n with O => acc | S n' => tiny_put n' (l / 256) (l mod 256 :: acc) end.
Definition tiny_to_bytes (a : Z) : res (list Z) := n <- tiny_length ;; Ok (tiny_put n a []).
(** :239-250; [data] holds the n bytes read. *)
Definition tiny_from_bytes (data : list Z) : Z := fold_left (fun acc x => ul (ul (acc * 256) + x)) data 0.
(** arith/field.c:386-392 and 406-413, which tinyfp.c does not replace. *)
Definition tiny_mul_mpz (a z : Z) : Z := tiny_mul a (tiny_set_mpz z).
Definition tiny_halve (a : Z) : res Z := e <- tiny_set_si 2 ;; e <- tiny_invert e ;; Ok (tiny_mul a e).

(** field_init_tiny_fp, :256-304.  Simplification: [b_double] is element_double
    into a different element; in place it differs only if 2a does not fit a word. *)
Definition tiny_be : backend := {|
  elt := Z; b_init := tiny_init;
  b_set0 := fun _ => Ok tiny_set0; b_set1 := fun _ => Ok tiny_set1;
  b_set_si := fun _ n => tiny_set_si n; b_set_mpz := fun _ n => Ok (tiny_set_mpz n);
  b_set := fun _ a => Ok (tiny_set a);
  b_add := fun _ a b => Ok (tiny_add a b); b_sub := fun _ a b => Ok (tiny_sub a b);
  b_mul := fun _ a b => Ok (tiny_mul a b);
  b_neg := fun _ a => Ok (tiny_neg a); b_double := fun _ a => Ok (tiny_double false a);
  b_halve := fun _ a => tiny_halve a; b_square := fun _ a => Ok (tiny_square a);
  b_invert := fun _ a => tiny_invert a;
  b_mul_mpz := fun _ a n => Ok (tiny_mul_mpz a n); b_mul_si := fun _ a n => Ok (tiny_mul_si a n);
  b_pow_mpz := fun _ a n => tiny_pow_mpz a n;
  b_from_bytes := fun _ l => Ok (tiny_from_bytes l); b_from_hash := fun _ l => Ok (tiny_from_hash l);
  b_to_mpz := fun a => Ok (tiny_to_mpz a);
  b_is0 := tiny_is0; b_is1 := tiny_is1; b_cmp := tiny_cmp;
  b_sign := fun a => Ok (tiny_sgn_odd a); b_is_sqr := fun a => Ok (tiny_is_sqr a);
  b_to_bytes := tiny_to_bytes |}.
(** A history of calls on fresh elements. *)
Definition tiny_session (h : list PrimeField.call) : res (list PrimeField.obs) := run tiny_be h (start tiny_be).
End Tiny.
