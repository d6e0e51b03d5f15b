(** Public forms of the facts on the nodal cubic, and witnesses over F_13. *)
From Coq Require Import ZArith List Bool Lia.
From Verif.Base Require Import Outcome Algebra Slots.
From Verif.Spec Require Import FiniteField Curve HashToCurve NodalCubic.
From Verif.Model Require Import Curve Singular.
From Verif.Proofs Require Import FieldFacts ZpField RootWitness CurveWitness SingularFacts.
Import ListNotations.
Open Scope Z_scope.

Lemma node_iso : forall (K : fld), fld_laws K -> f2 K <> f0 ->
  (forall P Q, smooth K P -> smooth K Q -> smooth K (nadd K P Q) /\ node_map K (nadd K P Q) = fmul (node_map K P) (node_map K Q)) /\
  (forall P Q, smooth K P -> smooth K Q -> node_map K P = node_map K Q -> P = Q) /\
  (forall P, smooth K P -> node_map K P <> f0) /\
  (forall u, u <> f0 -> exists P, smooth K P /\ node_map K P = u).
Proof.
  intros K HK C2. split; [|split; [|split]].
  - intros. split; [apply nadd_smooth; auto | apply map_add; auto].
  - apply map_inj; auto.
  - apply map_nz; auto.
  - apply map_onto; auto.
Qed.
Lemma node_group_pub : forall (K : fld), fld_laws K -> f2 K <> f0 ->
  forall P Q R, smooth K P -> smooth K Q -> smooth K R ->
  nadd K (nadd K P Q) R = nadd K P (nadd K Q R) /\ nadd K P Q = nadd K Q P /\
  nadd K None P = P /\ nadd K P None = P /\ nadd K P (pneg P) = None.
Proof. intros K HK C2 P Q R. apply node_group; auto. Qed.
Lemma node_run : forall (K : fld), fld_laws K -> f2 K <> f0 ->
  forall (h : list scall) (st : cst K) (v : nat -> point K), nonnegative h ->
  (forall n, cval st (Reg n) = v n) -> (forall n, smooth K (v n)) ->
  s_run K st h = Ok (nrun K v h) /\ forall P, In (Datatypes.inr P) (nrun K v h) -> smooth K P.
Proof. intros K HK C2 h st v H R A. apply s_run_ok; auto. intro n. symmetry. apply R. Qed.
Lemma node_random_zero : forall (K : fld), fld_laws K -> forall is_sqr sqrt, good_roots K is_sqr sqrt ->
  forall xs, exists P, sn_random K is_sqr sqrt (f0 :: xs) = Ok P /\ ~ smooth K P.
Proof.
  intros K HK is_sqr sqrt [SQ RT] xs. destruct (random_bad K HK is_sqr sqrt SQ) with (xs := xs) as (P & E & N & _); eauto.
  intros t Ht. apply RT. apply SQ. exact Ht.
Qed.
Lemma node_random_smooth : forall (K : fld), fld_laws K -> forall is_sqr sqrt, good_roots K is_sqr sqrt ->
  forall x xs P, x <> f0 -> sn_random K is_sqr sqrt (x :: xs) = Ok P -> smooth K P /\ P <> None.
Proof.
  intros K HK is_sqr sqrt [SQ RT] x xs P X E. eapply (random_good K HK is_sqr sqrt).
  - intros t Ht. apply RT. apply SQ. exact Ht.
  - right. exists x, xs. split; [reflexivity | exact X].
  - exact E.
Qed.

Definition N13 : cst F := {| sl := fun l => match l with (_, O) => c13 3 | _ => c13 6 end; inf := fun o => obj_eqb o (Reg 9) |}.
Definition w13 (n : nat) : point F := if Nat.eqb n 9 then None else Some (c13 3, c13 6).
Lemma f2_13 : f2 F <> f0. Proof. apply F_neq. vm_compute. discriminate. Qed.
Lemma node_witness : f2 F <> f0 /\ (forall n, smooth F (w13 n)) /\ (forall n, cval N13 (Reg n) = w13 n) /\
  match s_run F N13 [SAdd 0 0 1; SAdd 0 0 1; SNeg 1 1; SDbl 2 0; SMulZ 2 2 5; SAdd 2 1 2; SValue 2; SMulZ 3 2 12; SIs0 3; SIs0 2] with
  | Ok [Datatypes.inr P; Datatypes.inl true; Datatypes.inl false] => show P <> None
  | _ => False end.
Proof.
  split; [exact f2_13 | split; [ | split]].
  - intro n. unfold w13. destruct (Nat.eqb n 9); [exact I | ]. split; [apply zval_inj; vm_compute; reflexivity | ].
    intros [E _]. revert E. apply F_neq. vm_compute. discriminate.
  - intro n. unfold cval, w13, N13. cbn. destruct (Nat.eqb n 9); reflexivity.
  - vm_compute. discriminate.
Qed.
Lemma node_random_witness : good_roots F is_sqr13 sqrt13 /\ c13 2 <> f0 /\
  match sn_random F is_sqr13 sqrt13 [c13 2; c13 0; c13 4; c13 3] with Ok P => show P <> None | _ => False end.
Proof. split; [exact roots13 | split; [apply F_neq; vm_compute; discriminate | vm_compute; discriminate]]. Qed.
