(** C45: discrete logarithms. *)
From Coq Require Import ZArith Znumtheory List Bool.
From Verif.Base Require Import Outcome Algebra.
From Verif.Model Require Import Dlog.
From Verif.Proofs Require Import ZpField PowWitness DlogFacts ScalarWitness.
Import ListNotations.
Open Scope Z_scope.

(** C45: brute force; [zpow g x] is g multiplied by itself x times. *)
Theorem brute_force_correct : forall (G : monoid), monoid_laws G ->
  forall eqb, (forall x y : G, eqb x y = true <-> x = y) -> forall r, 1 < r ->
  forall g h : G, zpow g r = mone G ->
  forall fuel x, dlog_brute_force G eqb r fuel g h = Ok x -> 0 <= x < r /\ zpow g x = h.
Proof. exact brute_sound. Qed.
Print Assumptions brute_force_correct.

(** It terminates within r iterations whenever a logarithm exists. *)
Theorem brute_force_terminates : forall (G : monoid), monoid_laws G ->
  forall eqb, (forall x y : G, eqb x y = true <-> x = y) -> forall r, 1 < r ->
  forall g h : G, zpow g r = mone G ->
  forall y, 0 <= y -> zpow g y = h -> exists x, dlog_brute_force G eqb r (Z.to_nat r) g h = Ok x.
Proof. exact brute_complete. Qed.
Print Assumptions brute_force_terminates.

(** C45: Pollard's rho, for every outcome of the random draws a, b, asum0,
    bsum0 and every serialisation.  A prime r may be treated either way. *)
Theorem pollard_rho_correct : forall (G : monoid), monoid_laws G -> m_commutative G ->
  forall eqb, (forall x y : G, eqb x y = true <-> x = y) -> forall r, 1 < r ->
  forall g h : G, zpow g r = mone G -> zpow h r = mone G ->
  forall to_bytes probab_prime fuel a b asum0 bsum0 x,
  (forall i, 0 <= a i) -> (forall i, 0 <= b i) -> 0 <= asum0 -> 0 <= bsum0 ->
  dlog_pollard_rho G eqb r to_bytes probab_prime fuel g h a b asum0 bsum0 = Ok (Some x) ->
  0 <= x < r /\ zpow g x = h.
Proof. exact rho_sound. Qed.
Print Assumptions pollard_rho_correct.

(** For composite r, a generator g of a group of r elements and h in it, the
    search never ends without an answer and never meets an inexact division or
    a missing inverse. *)
Theorem pollard_rho_composite_total : forall (G : monoid), monoid_laws G -> m_commutative G ->
  forall eqb, (forall x y : G, eqb x y = true <-> x = y) -> forall r, 1 < r ->
  forall g h : G, zpow g r = mone G -> zpow h r = mone G ->
  forall to_bytes probab_prime,
  (forall k, 0 <= k -> zpow g k = mone G -> (r | k)) -> (exists y, 0 <= y /\ zpow g y = h) -> probab_prime r = false ->
  forall fuel a b asum0 bsum0, (forall i, 0 <= a i) -> (forall i, 0 <= b i) -> 0 <= asum0 -> 0 <= bsum0 ->
  let o := dlog_pollard_rho G eqb r to_bytes probab_prime fuel g h a b asum0 bsum0 in
  o = OutOfFuel \/ exists y, o = Ok (Some y).
Proof. exact rho_total. Qed.
Print Assumptions pollard_rho_composite_total.

(** 2^10 = 10 modulo 13, found by both. *)
Example discrete_log_example :
  dlog_brute_force G13 (@feqb Z13) 12 12 (el 2) (el 10) = Ok 10 /\
  dlog_pollard_rho G13 (@feqb Z13) 12 (fun x => [zval 13 x]) (fun _ => false) 100 (el 2) (el 10)
    (fun i => Z.of_nat (3 * i + 1)) (fun i => Z.of_nat (i + 5)) 3 4 = Ok (Some 10) /\
  zpow (el 2) 12 = mone G13 /\ zpow (el 10) 12 = mone G13.
Proof. exact dlog_witness. Qed.
