(** C18, C19: quadratic extension fields. *)
From Coq Require Import ZArith List Bool.
From Verif.Base Require Import Outcome Algebra Slots.
From Verif.Spec Require Import FiniteField FieldCalls Quadratic QuadraticRuns.
From Verif.Model Require Import Quadratic.
From Verif.Proofs Require Import ZpField RootWitness QuadFacts QuadWitness.
Import ListNotations.
Open Scope Z_scope.

(** C18: K[X]/(X^2 - d) is a field when d has no square root in K, with the
    square of the number of elements. *)
Theorem quadratic_is_field : forall (K : fld), fld_laws K -> forall d : K, ~ is_square d ->
  fld_laws (Quad K d).
Proof. exact Quad_laws. Qed.
Print Assumptions quadratic_is_field.
Theorem quadratic_order : forall (K : fld) (d : K) q, has_order K q -> has_order (Quad K d) (q * q).
Proof. exact Quad_order. Qed.
Print Assumptions quadratic_order.

(** C18: every history of calls on registers (any of which may coincide, and
    which initially hold anything) is answered as in that field; a division by
    zero is undefined in both.  q_d is the adjoined square: the chosen
    non-residue, or -1 for field_init_fi. *)
Theorem quadratic_histories_exact : forall (K : fld), fld_laws K -> forall k : qkind K, ~ is_square (q_d K k) ->
  forall (h : list fcall) (s : store K) (v : nat -> Quad K (q_d K k)),
  (forall n, v n = (s (Reg n, 0%nat), s (Reg n, 1%nat))) ->
  (os <- q_run K k s h ;; Ok (map (obs_of K k) os)) = frun (Quad K (q_d K k)) v h.
Proof. exact q_run_ok. Qed.
Print Assumptions quadratic_histories_exact.

Example quadratic_histories_example :
  ~ is_square (zmk 13 lt13 2 : Zp 13 lt13) /\
  match q_run (Zp 13 lt13) (KQuadratic (Zp 13 lt13) (zmk 13 lt13 2)) (start (Zp 13 lt13) (zmk 13 lt13))
    [FMul 0 0 0; FMul 0 0 1; FInv 1 1; FMul 0 0 1; FDiv 0 0 0; FIs1 0; FMul 2 1 1; FSqr 1 1; FCmp 1 2; FHalve 2 2; FDbl 2 2; FCmp 1 2; FIs1 1; FValue 2] with
  | Ok [Datatypes.inl true; Datatypes.inl false; Datatypes.inl false; Datatypes.inl false; Datatypes.inr (a, b)] => (zval 13 a, zval 13 b) = (6, 6)
  | _ => False
  end.
Proof. exact quad13_witness. Qed.

(** C19: squareness, over a finite field of odd order whose own test is right. *)
Theorem quadratic_is_sqr_correct : forall (K : fld), fld_laws K -> forall k : qkind K, ~ is_square (q_d K k) ->
  forall q, has_order K q -> Z.odd q = true ->
  forall is_sqr : K -> bool, (forall x, is_sqr x = true <-> is_square x) ->
  forall e : Quad K (q_d K k), q_is_sqr K is_sqr k e = true <-> is_square e.
Proof. exact q_is_sqr_ok. Qed.
Print Assumptions quadratic_is_sqr_correct.

(** C19: the square root of a square outside the base field squares back.
    Missing: elements of the base field, see the next theorems. *)
Theorem quadratic_sqrt_correct_partial : forall (K : fld), fld_laws K -> forall k : qkind K, ~ is_square (q_d K k) ->
  forall q, has_order K q -> Z.odd q = true ->
  forall (is_sqr : K -> bool) (sqrt : K -> res K),
  (forall x, is_sqr x = true <-> is_square x) -> (forall x, is_square x -> exists y, sqrt x = Ok y /\ fmul y y = x) ->
  forall e : Quad K (q_d K k), is_square e -> snd e <> f0 ->
  exists r : Quad K (q_d K k), q_sqrt K is_sqr sqrt k e = Ok r /\ fmul r r = e.
Proof. exact q_sqrt_ok. Qed.
Print Assumptions quadratic_sqrt_correct_partial.

Example quadratic_sqrt_example :
  match q_sqrt Z3 z3_is_sqr z3_sqrt (KFi Z3) (zmk 3 lt3 0, zmk 3 lt3 1) with
  | Ok (a, b) => zval 3 a = 1 /\ zval 3 b = 2 | _ => False end
  /\ is_square ((zmk 3 lt3 0, zmk 3 lt3 1) : Quad Z3 (fopp f1)).
Proof. exact sqrt_witness_i. Qed.

(** C19 fails on the base field: the code divides by zero exactly when x is
    zero, or not a square in K, or K's own square root of x^2 is -x.  (All of
    these are squares in the extension.) *)
Theorem quadratic_sqrt_on_base_field : forall (K : fld), fld_laws K -> forall k : qkind K, ~ is_square (q_d K k) ->
  forall q, has_order K q -> Z.odd q = true ->
  forall (is_sqr : K -> bool) (sqrt : K -> res K),
  (forall x, is_sqr x = true <-> is_square x) -> (forall x, is_square x -> exists y, sqrt x = Ok y /\ fmul y y = x) ->
  forall x : K, (exists r, q_sqrt K is_sqr sqrt k (x, f0) = Ok r) <->
                (x <> f0 /\ is_square x /\ sqrt (fmul x x) = Ok x).
Proof. exact q_sqrt_base. Qed.
Print Assumptions quadratic_sqrt_on_base_field.
Theorem quadratic_sqrt_refuted : exists (K : fld) (q : Z) (k : qkind K) (is_sqr : K -> bool) (sqrt : K -> res K),
  fld_laws K /\ has_order K q /\ Z.odd q = true /\ ~ is_square (q_d K k) /\
  (forall x, is_sqr x = true <-> is_square x) /\ (forall x, is_square x -> exists y, sqrt x = Ok y /\ fmul y y = x) /\
  exists e : Quad K (q_d K k), is_square e /\ q_is_sqr K is_sqr k e = true /\ q_sqrt K is_sqr sqrt k e = UB.
Proof. exact sqrt_base_refuted. Qed.
Print Assumptions quadratic_sqrt_refuted.
