(** C57: the singular cubic y^2 = x^3 + x^2. *)
From Coq Require Import ZArith List Bool.
From Verif.Base Require Import Outcome Algebra Slots.
From Verif.Spec Require Import FiniteField Curve HashToCurve NodalCubic.
From Verif.Model Require Import Curve Singular.
From Verif.Proofs Require Import RootWitness CurveWitness SingularWitness.
Import ListNotations.
Open Scope Z_scope.

(** C57: the non-singular points form a commutative group ... *)
Theorem nodal_cubic_group : forall (K : fld), fld_laws K -> f2 K <> f0 ->
  forall P Q R, smooth K P -> smooth K Q -> smooth K R ->
  nadd K (nadd K P Q) R = nadd K P (nadd K Q R) /\ nadd K P Q = nadd K Q P /\
  nadd K None P = P /\ nadd K P None = P /\ nadd K P (pneg P) = None.
Proof. exact node_group_pub. Qed.
Print Assumptions nodal_cubic_group.

(** ... isomorphic to the multiplicative group of the field. *)
Theorem nodal_cubic_isomorphism : forall (K : fld), fld_laws K -> f2 K <> f0 ->
  (forall P Q, smooth K P -> smooth K Q -> smooth K (nadd K P Q) /\ node_map K (nadd K P Q) = fmul (node_map K P) (node_map K Q)) /\
  (forall P Q, smooth K P -> smooth K Q -> node_map K P = node_map K Q -> P = Q) /\
  (forall P, smooth K P -> node_map K P <> f0) /\
  (forall u, u <> f0 -> exists P, smooth K P /\ node_map K P = u).
Proof. exact node_iso. Qed.
Print Assumptions nodal_cubic_isomorphism.

(** Every history of calls on point registers is answered by that group law. *)
Theorem nodal_cubic_histories_exact : forall (K : fld), fld_laws K -> f2 K <> f0 ->
  forall (h : list scall) (st : cst K) (v : nat -> point K), nonnegative h ->
  (forall n, cval st (Reg n) = v n) -> (forall n, smooth K (v n)) ->
  s_run K st h = Ok (nrun K v h) /\ forall P, In (Datatypes.inr P) (nrun K v h) -> smooth K P.
Proof. exact node_run. Qed.
Print Assumptions nodal_cubic_histories_exact.

Example nodal_cubic_example : f2 F <> f0 /\ (forall n, smooth F (w13 n)) /\ (forall n, cval N13 (Reg n) = w13 n) /\
  match s_run F N13 [SAdd 0 0 1; SAdd 0 0 1; SNeg 1 1; SDbl 2 0; SMulZ 2 2 5; SAdd 2 1 2; SValue 2; SMulZ 3 2 12; SIs0 3; SIs0 2] with
  | Ok [Datatypes.inr P; Datatypes.inl true; Datatypes.inl false] => show P <> None
  | _ => False end.
Proof. exact node_witness. Qed.

(** C57: random points are non-singular when the first random x is not zero;
    missing: ... *)
Theorem nodal_random_partial : forall (K : fld), fld_laws K -> forall is_sqr sqrt, good_roots K is_sqr sqrt ->
  forall x xs P, x <> f0 -> sn_random K is_sqr sqrt (x :: xs) = Ok P -> smooth K P /\ P <> None.
Proof. exact node_random_smooth. Qed.
Print Assumptions nodal_random_partial.

(** ... when it is zero, the node itself is always returned. *)
Theorem nodal_random_refuted : forall (K : fld), fld_laws K -> forall is_sqr sqrt, good_roots K is_sqr sqrt ->
  forall xs, exists P, sn_random K is_sqr sqrt (f0 :: xs) = Ok P /\ ~ smooth K P.
Proof. exact node_random_zero. Qed.
Print Assumptions nodal_random_refuted.

Example nodal_random_example : good_roots F is_sqr13 sqrt13 /\ c13 2 <> f0 /\
  match sn_random F is_sqr13 sqrt13 [c13 2; c13 0; c13 4; c13 3] with Ok P => show P <> None | _ => False end.
Proof. exact node_random_witness. Qed.
