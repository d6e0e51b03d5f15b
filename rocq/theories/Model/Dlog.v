(** arith/dlog.c.  G is the group (written multiplicatively); scalars of Z_r
    are integers 0..r-1.  element_pow_zn and element_pow_mpz are powers in G
    (proved for the generic code in Exponentiation.v). *)
From Coq Require Import ZArith List Bool.
From Verif.Base Require Import Outcome Gmp Algebra.
Import ListNotations.
Open Scope Z_scope.

Section Dlog.
Variable G : monoid.
Variable eqb : G -> G -> bool.             (* !element_cmp *)
Variable r : Z.                            (* Zr->order *)
Variable to_bytes : G -> list Z.           (* element_to_bytes *)
Variable probab_prime : Z -> bool.         (* mpz_probab_prime_p (., 10) *)

(** dlog.c:36-53 *)
Fixpoint brute_loop (fuel : nat) (g h g0 : G) (count : Z) : res Z :=
  match fuel with
  | O => OutOfFuel
  | S f => if eqb g0 h then Ok (count mod r) else brute_loop f g h (mmul G g0 g) (count + 1)
  end.
Definition dlog_brute_force (fuel : nat) (g h : G) : res Z := brute_loop fuel g h g 1.

(** snapshot_s, :12-17 *)
Record snapshot := { sa : Z; sb : Z; snark : G }.

(** :99-107 *)
Definition step_index (x : G) : nat := Z.to_nat ((fold_left Z.add (to_bytes x) 0 mod 256) mod 20).

(** :140-148, the candidates zb, zb+zm, ...; None: all zd tried, x not set *)
Fixpoint try_roots (g h : G) (zb zm : Z) (zd : nat) : option Z :=
  match zd with
  | O => None
  | S d => if eqb (zpow g zb) h then Some (zb mod r) else try_roots g h (zb + zm) zm d
  end.
(** :117-155.  mpz_divexact is undefined unless the division is exact. *)
Definition solve (g h : G) (asum bsum : Z) (ss : snapshot) : res (option Z) :=
  let bsum := (bsum - sb ss) mod r in
  let asum := (sa ss - asum) mod r in
  if negb (probab_prime r) then
    let zd := Z.gcd bsum r in
    let zm := r / zd in
    let zb := bsum / zd in
    if negb (asum mod zd =? 0) then UB
    else
      let za := asum / zd in
      match mpz_invert zb zm with
      | None => UB
      | Some i => Ok (try_roots g h ((za * i) mod zm) zm (Z.to_nat zd))
      end
  else
    match mpz_invert bsum r with
    | None => UB
    | Some i => Ok (Some ((asum * i) mod r))
    end.
(** :114-116: the first snapshot with the same group element *)
Definition find_snapshot (hole : list snapshot) (x : G) : option snapshot :=
  find (fun ss => eqb x (snark ss)) hole.

(** :98-167; m i = g^(a i) h^(b i) *)
Fixpoint rho_loop (fuel : nat) (g h : G) (a b : nat -> Z) (m : nat -> G)
  (hole : list snapshot) (x : G) (asum bsum counter interval : Z) : res (option Z) :=
  match fuel with
  | O => OutOfFuel
  | S f =>
    let i := step_index x in
    let x := mmul G x (m i) in
    let asum := (asum + a i) mod r in
    let bsum := (bsum + b i) mod r in
    match find_snapshot hole x with
    | Some ss => solve g h asum bsum ss
    | None =>
      let counter := counter + 1 in
      if Z.testbit counter interval
      then rho_loop f g h a b m (hole ++ [{| sa := asum; sb := bsum; snark := x |}]) x asum bsum counter (interval + 1)
      else rho_loop f g h a b m hole x asum bsum counter interval
    end
  end.
(** :57-97: a, b, asum0 and bsum0 are the random draws. *)
Definition dlog_pollard_rho (fuel : nat) (g h : G) (a b : nat -> Z) (asum0 bsum0 : Z) : res (option Z) :=
  let m i := mmul G (zpow h (b i)) (zpow g (a i)) in
  let x := mmul G (zpow h bsum0) (zpow g asum0) in
  rho_loop fuel g h a b m [{| sa := asum0; sb := bsum0; snark := x |}] x asum0 bsum0 0 5.
End Dlog.
