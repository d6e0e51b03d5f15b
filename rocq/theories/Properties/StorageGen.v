(** C80: storage of the parameter generators. *)
From Coq Require Import List ZArith Bool Permutation.
From Verif.Base Require Import Outcome.
From Verif.Model Require Import Storage StorageGen.
From Verif.Spec Require Import Storage StorageGen.
From Verif.Proofs Require Import StorageGenFacts.
Import ListNotations.
Local Open Scope nat_scope.

(** C80: for every type, every course of the search and whatever else is
    allocated, generating parameters never touches a block that is not
    allocated and never releases one twice. *)
Theorem generator_never_misused_partial : forall p K s h, exists h', param_gen p K s h = Ok h'.
Proof. exact gen_runs. Qed.
Print Assumptions generator_never_misused_partial.

(** C80: for types A, A1, D, G and I, generated parameters occupy the storage
    that the same parameters read from a text would, whatever the search went
    through; nothing else stays allocated. *)
Theorem generated_like_read_partial : forall p K s h, ty p <> TE -> ty p <> TF ->
  exists h1 h2, param_gen p K s h = Ok h1 /\ param_init p K h = Ok h2 /\ Permutation h1 h2.
Proof. exact gen_like_init. Qed.
Print Assumptions generated_like_read_partial.

(** C80: ... and clearing them gives back the heap as it was. *)
Theorem generated_then_cleared_partial : forall p K s h, ty p <> TE -> ty p <> TF ->
  exists h', (param_gen p K s >> param_clear p K) h = Ok h' /\ Permutation h' h.
Proof. exact gen_clear_restores. Qed.
Print Assumptions generated_then_cleared_partial.

(** C80: for types E and F it does not: whatever the search went through, every
    generation leaves at least ten blocks that nothing can release (the curve,
    and with it for type E the field, for type F a point). *)
Theorem type_ef_generation_leaks_refuted : forall p K (ss : nat -> search) n h, ty p = TE \/ ty p = TF ->
  exists h', upto n (fun i => param_gen p K (ss i) >> param_clear p K) h = Ok h' /\ length h + 10 * n <= length h'.
Proof. exact gen_leaks_many. Qed.
Print Assumptions type_ef_generation_leaks_refuted.

(** C80: a program of any length that reads or generates parameters (types E
    and F: reads), and otherwise handles its objects as the manual asks, never
    misuses a block, and is at every point in the storage it would be in had all
    its parameters been read. *)
Theorem storage_with_generators_partial : forall cs, glegals cs -> exists h h',
  gexecs cs ([], []) = Ok (afters [] (map as_read cs), h) /\ execs (map as_read cs) ([], []) = Ok (afters [] (map as_read cs), h') /\ Permutation h h'.
Proof. exact mixed_like_read. Qed.
Print Assumptions storage_with_generators_partial.

(** C80: once every object of it is cleared, nothing is allocated. *)
Theorem storage_with_generators_released_partial : forall cs, glegals cs -> afters [] (map as_read cs) = [] -> gexecs cs ([], []) = Ok ([], []).
Proof. exact mixed_nothing_left. Qed.
Print Assumptions storage_with_generators_released_partial.

(** A type D and a type F generation, in the middle of other work. *)
Definition pd3 : pinfo := {| ty := TD 3; zi := Mont; qi := Mont; rr := 11%Z |}.
Definition pf1 : pinfo := {| ty := TF; zi := Mont; qi := Mont; rr := 13%Z |}.
Definition course : search := {| tries := 3; class_n := 4; nq_cm := true; nq_q := false; nq_d := true |}.
Example generation_instance :
  ty pd3 <> TE /\ ty pd3 <> TF /\
  match param_gen pd3 [7] course [[1; 2]] with Ok h => length h | _ => 0 end = 15 /\
  (param_gen pd3 [7] course >> param_clear pd3 [7]) [[1; 2]] = Ok [[1; 2]].
Proof. repeat split; try discriminate; vm_compute; reflexivity. Qed.
Example leak_instance : ty pf1 = TF /\
  match (param_gen pf1 [7] course >> param_clear pf1 [7]) [[1; 2]] with Ok h => length h | _ => 0 end = 22.
Proof. split; vm_compute; reflexivity. Qed.
(** Clearing the curve once more than the generator does is noticed. *)
Example order_matters : (cm_curve pd3 [7] course >> field_clear (Gcurve pd3 [7]) false) [] = UB.
Proof. vm_compute. reflexivity. Qed.
(** A program that generates type D parameters, makes a pairing from them and
    an element, and clears all. *)
Definition gprogram : list gcall :=
  [Gen 9 pd3 course; Plain (CPairing 0 9); Plain (CParamClear 9); Plain (CElem 1 0 G2); Gen 9 {| ty := TA1; zi := Fast; qi := Mont; rr := 15%Z |} course;
   Plain (CElemClear 1); Plain (CPairingClear 0); Plain (CParamClear 9)].
Example gprogram_legal : glegals gprogram /\ afters [] (map as_read gprogram) = [].
Proof.
  split; [|vm_compute; reflexivity]. split.
  - unfold gprogram. cbn [map as_read legals].
    repeat split; try (vm_compute; reflexivity); try (vm_compute; repeat eexists; fail).
    intros k x H U; vm_compute in H; repeat (destruct H as [H|H]; [inversion H; subst; cbn in U; discriminate U || exact U|]); destruct H.
  - intros c H. unfold gprogram in H. cbn [In] in H. repeat (destruct H as [<-|H]; [cbn [gen_clean ty pd3]; try exact I; split; discriminate|]). destruct H.
Qed.
Example gprogram_runs : gexecs gprogram ([], []) = Ok ([], []).
Proof. exact (storage_with_generators_released_partial gprogram (proj1 gprogram_legal) (proj2 gprogram_legal)). Qed.
