(** What a history of calls on polynomial variables should do. *)
From Coq Require Import ZArith List Bool.
From Verif.Base Require Import Outcome Algebra Slots.
From Verif.Spec Require Import Polynomials.
Import ListNotations.

Section C.
Variable K : fld.
Implicit Types s t : nat -> list K.

(** Calls on polynomials held in variables 0, 1, ...; arguments may coincide. *)
Inductive pcall :=
| PSet (d a : nat) | PSet0 (d : nat) | PSet1 (d : nat) | PSetZ (d : nat) (n : Z) | PSetX (d : nat)
| PAdd (d a b : nat) | PSub (d a b : nat) | PMul (d a b : nat) | PNeg (d a : nat) | PSqr (d a : nat)
| PDbl (d a : nat) | PMulZ (d a : nat) (n : Z) | PConstMul (d : nat) (c : K) (a : nat) | PMonic (d a : nat)
| PDiv (q r a b : nat) | PGcd (d a b : nat)
| PSetCoeff (d : nat) (c : K) (n : nat) | PSetCoeff0 (d n : nat) | PSetCoeff1 (d n : nat)
| PIs0 (a : nat) | PIs1 (a : nat) | PCmp (a b : nat) | PDegree (a : nat) | PItem (a i : nat).
Inductive pobs := OBool (b : bool) | ODegree (n : Z) | OCoeff (c : K).

(** Only variable d changed, to a normal polynomial with coefficients c. *)
Definition becomes s d (c : nat -> K) t : Prop :=
  normal (t d) /\ (forall i, coef (t d) i = c i) /\ forall v, v <> d -> t v = s v.

(** One call from state s ends with the given outcome.  element_cmp is true
    when different; the degree of 0 is -1. *)
Inductive pspec s : pcall -> res ((nat -> list K) * list pobs) -> Prop :=
| s_set : forall d a t, becomes s d (coef (s a)) t -> pspec s (PSet d a) (Ok (t, []))
| s_set0 : forall d t, becomes s d (fun _ => f0) t -> pspec s (PSet0 d) (Ok (t, []))
| s_set1 : forall d t, becomes s d (fun i => if Nat.eqb i 0 then f1 else f0) t -> pspec s (PSet1 d) (Ok (t, []))
| s_setz : forall d n t, becomes s d (fun i => if Nat.eqb i 0 then fofz n else f0) t -> pspec s (PSetZ d n) (Ok (t, []))
| s_setx : forall d t, becomes s d (fun i => if Nat.eqb i 1 then f1 else f0) t -> pspec s (PSetX d) (Ok (t, []))
| s_add : forall d a b t, becomes s d (fun i => fadd (coef (s a) i) (coef (s b) i)) t -> pspec s (PAdd d a b) (Ok (t, []))
| s_sub : forall d a b t, becomes s d (fun i => fsub (coef (s a) i) (coef (s b) i)) t -> pspec s (PSub d a b) (Ok (t, []))
| s_mul : forall d a b t, becomes s d (conv (s a) (s b)) t -> pspec s (PMul d a b) (Ok (t, []))
| s_neg : forall d a t, becomes s d (fun i => fopp (coef (s a) i)) t -> pspec s (PNeg d a) (Ok (t, []))
| s_sqr : forall d a t, becomes s d (conv (s a) (s a)) t -> pspec s (PSqr d a) (Ok (t, []))
| s_dbl : forall d a t, becomes s d (fun i => fadd (coef (s a) i) (coef (s a) i)) t -> pspec s (PDbl d a) (Ok (t, []))
| s_mulz : forall d a n t, becomes s d (fun i => fmul (fofz n) (coef (s a) i)) t -> pspec s (PMulZ d a n) (Ok (t, []))
| s_cmul : forall d c a t, becomes s d (fun i => fmul c (coef (s a) i)) t -> pspec s (PConstMul d c a) (Ok (t, []))
  (* the leading coefficient becomes 1 *)
| s_monic : forall d a t c, becomes s d (fun i => fmul c (coef (s a) i)) t ->
    (s a = [] \/ coef (t d) (length (s a) - 1) = f1) -> pspec s (PMonic d a) (Ok (t, []))
  (* a = quotient * b + remainder, and the remainder has smaller degree *)
| s_div : forall q r a b t, q <> r -> s b <> [] -> normal (t q) -> normal (t r) ->
    (forall i, coef (s a) i = fadd (conv (t q) (s b) i) (coef (t r) i)) -> (length (t r) < length (s b))%nat ->
    (forall v, v <> q -> v <> r -> t v = s v) -> pspec s (PDiv q r a b) (Ok (t, []))
| s_div0 : forall q r a b, s b = [] -> pspec s (PDiv q r a b) Die
  (* a common divisor that is a combination of the two arguments *)
| s_gcd : forall d a b t u w, s b <> [] -> divides (t d) (s a) -> divides (t d) (s b) ->
    becomes s d (fun i => fadd (conv u (s a) i) (conv w (s b) i)) t -> pspec s (PGcd d a b) (Ok (t, []))
| s_gcd0 : forall d a b, s b = [] -> pspec s (PGcd d a b) Die
| s_coeff : forall d c n t, becomes s d (fun i => if Nat.eqb i n then c else coef (s d) i) t -> pspec s (PSetCoeff d c n) (Ok (t, []))
| s_coeff0 : forall d n t, becomes s d (fun i => if Nat.eqb i n then f0 else coef (s d) i) t -> pspec s (PSetCoeff0 d n) (Ok (t, []))
| s_coeff1 : forall d n t, becomes s d (fun i => if Nat.eqb i n then f1 else coef (s d) i) t -> pspec s (PSetCoeff1 d n) (Ok (t, []))
| s_is0 : forall a b, (b = true <-> forall i, coef (s a) i = f0) -> pspec s (PIs0 a) (Ok (s, [OBool b]))
| s_is1 : forall a b, (b = true <-> forall i, coef (s a) i = if Nat.eqb i 0 then f1 else f0) -> pspec s (PIs1 a) (Ok (s, [OBool b]))
| s_cmp : forall a b v, (v = false <-> eqp (s a) (s b)) -> pspec s (PCmp a b) (Ok (s, [OBool v]))
| s_degree0 : forall a, (forall i, coef (s a) i = f0) -> pspec s (PDegree a) (Ok (s, [ODegree (-1)]))
| s_degree : forall a n, coef (s a) n <> f0 -> (forall i, (n < i)%nat -> coef (s a) i = f0) ->
    pspec s (PDegree a) (Ok (s, [ODegree (Z.of_nat n)]))
| s_item : forall a i, (i < length (s a))%nat -> pspec s (PItem a i) (Ok (s, [OCoeff (coef (s a) i)]))
| s_item_out : forall a i, (length (s a) <= i)%nat -> pspec s (PItem a i) UB.

Inductive pspec_run : (nat -> list K) -> list pcall -> res ((nat -> list K) * list pobs) -> Prop :=
| r_nil : forall s, pspec_run s [] (Ok (s, []))
| r_cons : forall s c t os h t' os', pspec s c (Ok (t, os)) -> pspec_run t h (Ok (t', os')) -> pspec_run s (c :: h) (Ok (t', os ++ os'))
| r_stop : forall s c t os h e, pspec s c (Ok (t, os)) -> pspec_run t h e -> (e = UB \/ e = Die) -> pspec_run s (c :: h) e
| r_here : forall s c h e, pspec s c e -> (e = UB \/ e = Die) -> pspec_run s (c :: h) e.
(** What a call needs for its result to be normal, beyond normal arguments. *)
Definition fits (c : pcall) : Prop :=
  match c with PMulZ _ _ n => (fofz n : K) <> f0 | PDbl _ _ => (fofz 2 : K) <> f0 | PDiv q r _ _ => q <> r | _ => True end.
End C.
Arguments PSet {K}. Arguments PSet0 {K}. Arguments PSet1 {K}. Arguments PSetZ {K}. Arguments PSetX {K}. Arguments PAdd {K}. Arguments PSub {K}.
Arguments PMul {K}. Arguments PNeg {K}. Arguments PSqr {K}. Arguments PDbl {K}. Arguments PMulZ {K}. Arguments PConstMul {K}. Arguments PMonic {K}.
Arguments PDiv {K}. Arguments PGcd {K}. Arguments PSetCoeff {K}. Arguments PSetCoeff0 {K}. Arguments PSetCoeff1 {K}. Arguments PIs0 {K}.
Arguments PIs1 {K}. Arguments PCmp {K}. Arguments PDegree {K}. Arguments PItem {K}.
Arguments OBool {K}. Arguments ODegree {K}. Arguments OCoeff {K}.
