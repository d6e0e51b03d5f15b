(** K[X]/(m) of degree 3 and 6: the special multiplications. *)
From Coq Require Import ZArith List Bool Lia Arith Ring Field.
From Verif.Base Require Import Outcome Array Algebra Slots.
From Verif.Spec Require Import Polynomials Extension.
From Verif.Model Require Import Poly Polymod.
From Verif.Proofs Require Import FieldFacts SlotFacts PolyAlgebra PolyFacts ExtFacts Rename Symbolic PolymodFacts.
Import ListNotations.
Open Scope nat_scope.

Section P.
Variable K : fld.
Hypothesis HK : fld_laws K.
Add Field KFs : (fl_field K HK).
Variable xp : nat -> nat -> K.
(** coefficient k of the product of two vectors, reduced with the table xp *)
Definition convn (n : nat) (a b : nat -> K) (k : nat) : K := sum n (fun i => sum n (fun j => if k =? i + j then fmul (a i) (b j) else f0)).
Definition redn (n : nat) (a b : nat -> K) (k : nat) : K := fadd (convn n a b k) (sum (n - 1) (fun i => fmul (convn n a b (n + i)) (xp i k))).
Ltac pat H := cbn in H; destruct H as [H | [H | [H | [H | [H | []]]]]]; subst; cbv beta iota.
Ltac symb :=
  match goal with |- den _ _ _ ?e = _ => let e' := eval vm_compute in e in replace e with e' by (vm_cast_no_check (eq_refl e')) end;
  cbv [den redn convn sum Nat.eqb Nat.add Nat.sub]; ring.
Lemma mul3 : forall r e f s, user r -> user e -> user f ->
  exists s', run (pm_mul_degree3 K 3 xp r e f) s = Ok s' /\ (forall i, i < 3 -> s' (r, i) = redn 3 (fun i => s (e, i)) (fun i => s (f, i)) i) /\
  (forall k i, Reg k <> r -> s' (Reg k, i) = s (Reg k, i)).
Proof.
  apply (small_ok K xp 3 (pm_mul_degree3 Efld 3 EX)).
  - vm_compute. reflexivity.
  - intros t q I. pat I; reflexivity.
  - intros x y z q I. pat I; reflexivity.
  - intros t q i I Hi. pat I; destruct i as [ | [ | [ | i]]]; try lia; symb.
Qed.
Lemma sqr3 : forall r e s, user r -> user e ->
  exists s', run (pm_square_degree3 K 3 xp r e) s = Ok s' /\ (forall i, i < 3 -> s' (r, i) = redn 3 (fun i => s (e, i)) (fun i => s (e, i)) i) /\
  (forall k i, Reg k <> r -> s' (Reg k, i) = s (Reg k, i)).
Proof.
  intros r e s Ur Ue. apply (small_ok K xp 3 (fun r e _ => pm_square_degree3 Efld 3 EX r e) (fun r e _ => pm_square_degree3 K 3 xp r e) (fun a _ => redn 3 a a)) with (f := e); try assumption.
  - vm_compute. reflexivity.
  - intros t q I. pat I; reflexivity.
  - intros x y z q I. pat I; reflexivity.
  - intros t q i I Hi. pat I; destruct i as [ | [ | [ | i]]]; try lia; symb.
Qed.
Lemma mul6 : forall r e f s, user r -> user e -> user f ->
  exists s', run (pm_mul_degree6 K 6 xp r e f) s = Ok s' /\ (forall i, i < 6 -> s' (r, i) = redn 6 (fun i => s (e, i)) (fun i => s (f, i)) i) /\
  (forall k i, Reg k <> r -> s' (Reg k, i) = s (Reg k, i)).
Proof.
  apply (small_ok K xp 6 (pm_mul_degree6 Efld 6 EX)).
  - vm_compute. reflexivity.
  - intros t q I. pat I; reflexivity.
  - intros x y z q I. pat I; reflexivity.
  - intros t q i I Hi. pat I; destruct i as [ | [ | [ | [ | [ | [ | i]]]]]]; try lia; symb.
Qed.
End P.
