(** Text and integer helpers: arith/field.c:722-845 and the set_str functions
    of arith/naivefp.c, arith/z.c.  Characters are their codes. *)
From Coq Require Import ZArith List Bool.
From Verif.Base Require Import Outcome Gmp.
Import ListNotations.
Open Scope Z_scope.

(** isspace, isdigit in the C locale *)
Definition isspace (c : Z) : bool := (c =? 32) || ((9 <=? c) && (c <=? 13)).
Definition isdigit (c : Z) : bool := (48 <=? c) && (c <=? 57).

(** field.c:741-748: the digit value of a character. *)
Definition digit_of_char (c : Z) : option Z :=
  if isdigit c then Some (c - 48)
  else if (65 <=? c) && (c <=? 90) then Some (c - 65 + 10)
  else if (97 <=? c) && (c <=? 122) then Some (c - 97 + 10)
  else None.

(** field.c:732-753: reading past the end of the array is undefined. *)
Fixpoint set_str_loop (s : list Z) (b z i : Z) : res (Z * Z) :=
  match s with
  | [] => UB
  | c :: s' =>
    if c =? 0 then Ok (z, i)
    else if isspace c then set_str_loop s' b z (i + 1)
    else match digit_of_char c with
         | None => Ok (z, i)
         | Some j => if j >=? b then Ok (z, i) else set_str_loop s' b (z * b + j) (i + 1)
         end
  end.

(** field.c:725-755: (value, characters read). *)
Definition pbc_mpz_set_str (s : list Z) (base : Z) : res (Z * Z) :=
  if base =? 0 then set_str_loop s 10 0 0
  else if (base <? 2) || (base >? 36) then Ok (0, 0)
  else set_str_loop s base 0 0.

(** naivefp.c:52-56; montfp.c:187-195 then stores the residue. *)
Definition zp_set_str (p : Z) (s : list Z) (base : Z) : res (Z * Z) :=
  r <- pbc_mpz_set_str s base ;; Ok (fst r mod p, snd r).

(** z.c:212-219 *)
Definition z_set_str (s : list Z) (base : Z) : res (Z * Z) := pbc_mpz_set_str s base.

(** field.c:554-559, used by fastfp and fasterfp: stores zero, reads nothing. *)
Definition default_element_set_str (s : list Z) (base : Z) : res (Z * Z) := Ok (0, 0).

(** field.c:786-789: divide m by p as long as it divides. Fuel: m >= 1 and
    p >= 2 make m smaller at each step. *)
Fixpoint divide_out (fuel : nat) (m p mul : Z) : res (Z * Z) :=
  match fuel with
  | O => OutOfFuel
  | S f =>
    let m := m / p in let mul := mul + 1 in
    if m mod p =? 0 then divide_out f m p mul else Ok (m, mul)
  end.

(** field.c:760-804 pbc_trial_divide.  [isprime] is mpz_probab_prime_p(m,10)
    and [nextprime] mpz_nextprime: both are probabilistic, so they are
    parameters.  [limit] is None for a null pointer.  The result is the list
    of (factor, multiplicity) passed to the callback, which is taken to return
    zero always. *)
Section TrialDivide.
Variables (isprime : Z -> bool) (nextprime : Z -> Z).
Fixpoint trial_loop (fuel : nat) (m p : Z) (limit : option Z) : res (list (Z * Z)) :=
  match fuel with
  | O => OutOfFuel
  | S f =>
    if m =? 1 then Ok []
    else
      let p := if isprime m then m else p in
      let p := match limit with Some l => if p >? l then m else p | None => p end in
      if m mod p =? 0 then
        r <- divide_out (Z.to_nat m) m p 0 ;;
        rest <- trial_loop f (fst r) (nextprime p) limit ;;
        Ok ((p, snd r) :: rest)
      else trial_loop f m (nextprime p) limit
  end.
Definition pbc_trial_divide (fuel : nat) (n : Z) (limit : option Z) : res (list (Z * Z)) :=
  trial_loop fuel n 2 limit.
End TrialDivide.

(** field.c:825-832: the digits emitted while z >= base, and the final z, len. *)
Fixpoint trickle_loop (fuel : nat) (base z d len : Z) : res (list Z * Z * Z) :=
  match fuel with
  | O => OutOfFuel
  | S f =>
    if z >=? base then
      if d =? 0 then UB else
      let q := z / d in let z := z mod d in
      r <- trickle_loop f base z (d / base) (len - 1) ;;
      let '(out, z, len) := r in Ok (48 + q :: out, z, len)
    else Ok ([], z, len)
  end.

(** field.c:808-845 pbc_mpz_trickle for 2 <= base <= 10, z >= 0, with a
    callback that returns zero: the characters it receives.  [size] is
    mpz_sizeinbase(z,base), which GMP only promises to be exact or one too
    big. *)
Definition pbc_mpz_trickle (base z size : Z) : res (list Z) :=
  let d := base ^ size in
  let len := if d >? z then size - 1 else size in
  let d := if d >? z then d / base else d in
  r <- trickle_loop (S (Z.to_nat size)) base z d len ;;
  let '(out, z, len) := r in
  if len <? 0 then UB                       (* while (len) would not stop *)
  else Ok (out ++ repeat 48 (Z.to_nat len) ++ [48 + z]).
