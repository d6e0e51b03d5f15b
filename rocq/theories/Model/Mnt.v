(** ecc/mnt.c: the general Pell solver and the search for MNT and Freeman
    curves.  Every mpz_t is a Z.  The primality test and mpz_nextprime are
    parameters; the callback is a function of what was reported so far and of
    the new report, and answers its int result.  Loops take the fuel [fuel];
    running out of it is the distinct outcome OutOfFuel. *)
From Coq Require Import ZArith List Bool.
From Verif.Base Require Import Outcome.
Import ListNotations.
Open Scope Z_scope.

(** GMP mpz_tdiv_q: division by zero aborts the program. *)
Definition tdiv_q (n d : Z) : res Z := if d =? 0 then Die else Ok (Z.quot n d).
(** GMP mpz_divexact: undefined unless d divides n. *)
Definition divexact (n d : Z) : res Z := if d =? 0 then UB else if Z.rem n d =? 0 then Ok (Z.quot n d) else UB.
(** GMP mpz_sqrt: negative operands abort. *)
Definition mpz_sqrt (n : Z) : res Z := if n <? 0 then Die else Ok (Z.sqrt n).
(** GMP mpz_perfect_square_p *)
Definition perfect_square (n : Z) : bool := (0 <=? n) && (Z.sqrt n * Z.sqrt n =? n).
(** GMP mpz_sizeinbase (z, 2) *)
Definition sizeinbase2 (z : Z) : Z := if z =? 0 then 1 else Z.log2 (Z.abs z) + 1.

(** mnt.c:40-48: the f with f^2 dividing N *)
Fixpoint square_factors (fuel : nat) (f N : Z) : res (list Z) :=
  match fuel with
  | O => OutOfFuel
  | S k =>
    let n := f * f in
    if n >? Z.abs N then Ok []
    else l <- square_factors k (f + 1) N ;; Ok (if Z.rem (Z.abs N) n =? 0 then f :: l else l)
  end.

(** the variables of the continued fraction loop (mnt.c:50-57) *)
Record cf := { cP : Z; cQ : Z; ca : Z; p0 : Z; p1 : Z; q0 : Z; q1 : Z; cd : Z }.

(** mnt.c:75-94.  [cP], [cQ], [ca] are P1, Q1, a1. *)
Definition cf_start (a0 D : Z) : res cf :=
  let P1 := a0 in
  let Q1 := D - a0 * a0 in
  a1 <- tdiv_q (a0 + P1) Q1 ;;
  Ok {| cP := P1; cQ := Q1; ca := a1; p0 := a0; p1 := a0 * a1 + 1; q0 := 1; q1 := a1; cd := -1 |}.

(** mnt.c:97-112: the solutions found with the current convergent *)
Fixpoint cf_found (l : list Z) (N : Z) (s : cf) : list (Z * Z) :=
  match l with
  | [] => []
  | f :: l' =>
    if cQ s =? Z.quot (Z.abs N) (f * f) then (p0 s * f, q0 s * f) :: cf_found l' N s else cf_found l' N s
  end.

(** mnt.c:115-136 *)
Definition cf_next (a0 D : Z) (s : cf) : res cf :=
  let P0 := cP s in
  let P1 := ca s * cQ s - P0 in
  let Q0 := cQ s in
  Q1 <- divexact (D - P1 * P1) Q0 ;;
  a1 <- tdiv_q (a0 + P1) Q1 ;;
  Ok {| cP := P1; cQ := Q1; ca := a1; p0 := p1 s; p1 := a1 * p1 s + p0 s; q0 := q1 s; q1 := a1 * q1 s + q0 s; cd := - cd s |}.

Record pell := { minx : Z; miny : Z; sols : list (Z * Z) }.

(** mnt.c:96-137 *)
Fixpoint pell_loop (fuel : nat) (a0 D N : Z) (lf : list Z) (s : cf) (acc : list (Z * Z)) : res pell :=
  match fuel with
  | O => OutOfFuel
  | S k =>
    let acc := if cd s =? (if N >? 0 then 1 else -1) then acc ++ cf_found lf N s else acc in
    if (2 * a0 =? ca s) && (cd s =? 1) then Ok {| minx := p0 s; miny := q0 s; sols := acc |}
    else s <- cf_next a0 D s ;; pell_loop k a0 D N lf s acc
  end.

(** mnt.c:31-170 general_pell *)
Definition general_pell (fuel : nat) (D N : Z) : res pell :=
  lf <- square_factors fuel 1 N ;;
  a0 <- mpz_sqrt D ;;
  s <- cf_start a0 D ;;
  pell_loop fuel a0 D N lf s [].

(** pbc_cm_t (include/pbc_mnt.h) *)
Record cm := { cm_q : Z; cm_n : Z; cm_h : Z; cm_r : Z; cm_k : Z; cm_D : Z }.

Section Search.
Variables (isprime : Z -> bool) (nextprime : Z -> Z) (callback : list cm -> cm -> Z).

(** mnt.c:246-249 (and :402-405): remove the factors p *)
Fixpoint strip (fuel : nat) (p cofac r : Z) : res (Z * Z) :=
  match fuel with
  | O => OutOfFuel
  | S k =>
    if Z.rem r p =? 0 then r' <- divexact r p ;; strip k p (cofac * p) r' else Ok (cofac, r)
  end.
(** mnt.c:245-264 (and :401-420): trial division by primes of at most 16 bits *)
Fixpoint trial (fuel : nat) (p cofac r : Z) : res (option (Z * Z)) :=
  match fuel with
  | O => OutOfFuel
  | S k =>
    ' (cofac, r) <- strip fuel p cofac r ;;
    if isprime r then Ok (Some (cofac, r))
    else
      let p := nextprime p in
      if 16 <? sizeinbase2 p then Ok None else trial k p cofac r
  end.
(** mnt.c:242-265 (and :398-421): (cofac, r) with r prime, or nothing *)
Definition split_order (fuel : nat) (n : Z) : res (option (Z * Z)) :=
  if isprime n then Ok (Some (1, n)) else trial fuel 2 1 n.

(** mnt.c:203-283 up to the callback: the report, if any *)
Definition mnt_step2 (fuel : nat) (D U : Z) : res (option cm) :=
  let m := U mod 6 in
  if (m =? 1) || (m =? 5) then
    let d := if m =? 1 then 1 else -1 in
    l <- divexact (U - d) 3 ;;
    let q := l * l + 1 in
    if isprime q then
      let n := if d <? 0 then q - l else q + l in
      s <- split_order fuel n ;;
      match s with
      | None => Ok None
      | Some (cofac, r) => Ok (Some {| cm_q := q; cm_n := n; cm_h := cofac; cm_r := r; cm_k := 6; cm_D := D |})
      end
    else Ok None
  else Ok None.

(** mnt.c:345-441 *)
Definition freeman_step2 (fuel : nat) (D U : Z) : res (option cm) :=
  let m := U mod 15 in
  if (m =? 5) || (m =? 10) then
    x <- divexact (if m =? 5 then U - 5 else U + 5) 15 ;;
    let r := 5 * (x * x) in
    let q := x + x + r in
    let r := r * x in
    let q := q + r in
    let r := r * x in
    let q := q + r in
    let q := q * 5 + 3 in
    if isprime q then
      let n := x * 5 in
      let r := n * x in
      let r := r + r in
      let n := n + r in
      let n := q - n - 2 in
      s <- split_order fuel n ;;
      match s with
      | None => Ok None
      | Some (cofac, r) => Ok (Some {| cm_q := q; cm_n := n; cm_h := cofac; cm_r := r; cm_k := 10; cm_D := D |})
      end
    else Ok None
  else Die.

Variable step2 : nat -> Z -> Z -> res (option cm).

(** one pass over the solutions, mnt.c:311-333 (and :467-487): the reports so
    far, and either the result of the search or the next solutions *)
Fixpoint pass (fuel : nat) (D DD bitlimit tx ty : Z) (ps : list (Z * Z)) (hist : list cm)
  : res (list cm * (Z + list (Z * Z))) :=
  match ps with
  | [] => Ok (hist, inr [])
  | (x, y) :: ps' =>
    o <- step2 fuel D x ;;
    let '(hist, r) := match o with None => (hist, 0) | Some c => (hist ++ [c], callback hist c) end in
    if negb (r =? 0) then Ok (hist, inl r)
    else
      let t0 := tx * x + ty * y * DD in
      if 2 * sizeinbase2 t0 >? (bitlimit + 10) mod 2 ^ 32 then Ok (hist, inl 0)
      else
        let t2 := tx * y + ty * x in
        ' (hist, e) <- pass fuel D DD bitlimit tx ty ps' hist ;;
        match e with
        | inl r => Ok (hist, inl r)
        | inr l => Ok (hist, inr ((t0, t2) :: l))
        end
  end.
Fixpoint search_loop (fuel n : nat) (D DD bitlimit tx ty : Z) (ps : list (Z * Z)) (hist : list cm) : res (list cm * Z) :=
  match n with
  | O => OutOfFuel
  | S k =>
    ' (hist, e) <- pass fuel D DD bitlimit tx ty ps hist ;;
    match e with
    | inl r => Ok (hist, r)
    | inr ps => search_loop fuel k D DD bitlimit tx ty ps hist
    end
  end.
(** mnt.c:296-343, :451-499: what is reported to the callback, and the result *)
Definition cm_search (fuel : nat) (D DD N bitlimit : Z) : res (list cm * Z) :=
  if perfect_square DD then Ok ([], 0)
  else
    ps <- general_pell fuel DD N ;;
    match sols ps with
    | [] => Ok ([], 0)
    | _ => search_loop fuel fuel D DD bitlimit (minx ps) (miny ps) (sols ps) []
    end.
End Search.

(** mnt.c:285-343.  D * 3 is computed in unsigned int. *)
Definition cm_search_d isprime nextprime callback (fuel : nat) (D bitlimit : Z) : res (list cm * Z) :=
  cm_search callback (mnt_step2 isprime nextprime) fuel D ((D * 3) mod 2 ^ 32) (-8) bitlimit.
(** mnt.c:443-499 *)
Definition cm_search_g isprime nextprime callback (fuel : nat) (D bitlimit : Z) : res (list cm * Z) :=
  cm_search callback (freeman_step2 isprime nextprime) fuel D (D * 15) (-20) bitlimit.
