(** The programs gen/listmnt.c and gen/listfreeman.c: tables of the curves found
    for successive discriminants.  A line "D, bits in q, bits in r" is a triple;
    the heading is not modelled. *)
From Coq Require Import ZArith List Bool.
From Verif.Base Require Import Outcome Gmp.
From Verif.Model Require Import Mnt.
Import ListNotations.
Open Scope Z_scope.

Section Lists.
Variables (isprime : Z -> bool) (nextprime : Z -> Z).
(** listmnt.c:6-14, listfreeman.c:6-14: what the callback prints; it returns 0 *)
Definition line (D : Z) (c : cm) : Z * Z * Z := (D, sizeinbase2 (cm_q c), sizeinbase2 (cm_r c)).
Definition show (hist : list cm) (c : cm) : Z := 0.
(** listmnt.c:16-18 *)
Definition try_d (n : nat) (D : Z) : res (list (Z * Z * Z)) :=
  ' (hist, _) <- cm_search_d isprime nextprime show n D 500 ;; Ok (map (line D) hist).
(** listfreeman.c:16-18 *)
Definition try_g (n : nat) (D : Z) : res (list (Z * Z * Z)) :=
  ' (hist, _) <- cm_search_g isprime nextprime show n D 500 ;; Ok (map (line D) hist).
Definition limit : Z := 1000000000.
(** listmnt.c:33-38; D stays below 2^32 *)
Fixpoint mnt_loop (fuel n : nat) (D : Z) : res (list (Z * Z * Z)) :=
  match fuel with
  | O => OutOfFuel
  | S k =>
    if D <? limit then
      a <- try_d n D ;;
      let D := D + 1 in
      b <- try_d n D ;;
      let D := D + 3 in
      rest <- mnt_loop k n D ;; Ok (a ++ b ++ rest)
    else Ok []
  end.
(** listfreeman.c:31-35 *)
Fixpoint freeman_loop (fuel n : nat) (D : Z) : res (list (Z * Z * Z)) :=
  match fuel with
  | O => OutOfFuel
  | S k =>
    if D <? limit then
      a <- try_g n (D + 43) ;;
      b <- try_g n (D + 67) ;;
      rest <- freeman_loop k n (D + 120) ;; Ok (a ++ b ++ rest)
    else Ok []
  end.
(** listmnt.c:20-41; [arg] is atoi of the argument *)
Definition listmnt (fuel n : nat) (arg : option Z) : res (list (Z * Z * Z)) :=
  match arg with
  | None => mnt_loop fuel n 7
  | Some x => let D := x mod 2 ^ 32 in if (D <? 7) || negb (D mod 4 =? 3) then Die else mnt_loop fuel n D
  end.
(** listfreeman.c:20-38 *)
Definition listfreeman (fuel n : nat) (arg : option Z) : res (list (Z * Z * Z)) :=
  match arg with
  | None => freeman_loop fuel n 0
  | Some x => let D := x mod 2 ^ 32 in if negb (D mod 120 =? 0) then Die else freeman_loop fuel n D
  end.
End Lists.
