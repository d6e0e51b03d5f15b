(** C80: what is allocated is released, once. *)
From Coq Require Import List ZArith Bool Permutation Lia.
From Verif.Base Require Import Outcome.
From Verif.Model Require Import Storage.
From Verif.Spec Require Import PairingValueD Storage.
From Verif.Proofs Require Import StorageRun StorageNames.
Import ListNotations.
Local Open Scope nat_scope.

(** C80: a program that handles its objects as the manual asks, of any length
    and with any number of pairings of all seven types, never touches a
    released block and never releases one twice (both are [UB] in the model). *)
Theorem storage_never_misused_partial : forall cs, legals [] cs -> exists h, execs cs ([], []) = Ok (afters [] cs, h).
Proof. exact legal_runs. Qed.
Print Assumptions storage_never_misused_partial.

(** C80: once every object is cleared, nothing is allocated. *)
Theorem storage_all_released_partial : forall cs, legals [] cs -> afters [] cs = [] -> execs cs ([], []) = Ok ([], []).
Proof. exact nothing_left. Qed.
Print Assumptions storage_all_released_partial.

(** C80: what is allocated is determined by the live objects, whatever the
    history: no call leaves storage behind that a shorter history would not. *)
Theorem storage_depends_on_live_objects_partial : forall cs cs' h h', legals [] cs -> legals [] cs' -> Permutation (afters [] cs) (afters [] cs') ->
  execs cs ([], []) = Ok (afters [] cs, h) -> execs cs' ([], []) = Ok (afters [] cs', h') -> Permutation h h'.
Proof. exact same_objects_same_storage. Qed.
Print Assumptions storage_depends_on_live_objects_partial.

(** C80: from every point of such a program some sequence of clears releases everything. *)
Theorem storage_can_be_released_partial : forall cs, legals [] cs ->
  exists cs', legals [] (cs ++ cs') /\ execs (cs ++ cs') ([], []) = Ok ([], []).
Proof. exact can_finish'. Qed.
Print Assumptions storage_can_be_released_partial.

(** C80: between calls no two allocated blocks share a name, so that releasing
    a block in the model is releasing that very block. *)
Theorem storage_blocks_distinct_partial : forall cs o h, legals [] cs -> execs cs ([], []) = Ok (o, h) -> NoDup h.
Proof. exact names_distinct. Qed.
Print Assumptions storage_blocks_distinct_partial.

(** The hypotheses are met: a type D pairing with elements of all groups, both
    kinds of tables and a nonresidue, beside a type A pairing that changes its
    method, a type F and a type I pairing. *)
Definition pd : pinfo := {| ty := TD 3; zi := Mont; qi := Mont; rr := 11%Z |}.
Definition pa : pinfo := {| ty := TA 1 3; zi := Mont; qi := Fast; rr := 11%Z |}.
Definition pf : pinfo := {| ty := TF; zi := Mont; qi := Mont; rr := 13%Z |}.
Definition pj : pinfo := {| ty := TI; zi := Mont; qi := Mont; rr := 7%Z |}.
Definition program : list call :=
  [CParam 9 pd; CPairing 0 9; CParamClear 9; CPairingText 10 pa true; CPairingText 20 pf true; CPairingText 30 pj true;
   CElem 1 0 GZr; CElem 2 0 G1; CElem 3 0 G2; CElem 4 0 GTt; CElem 11 10 G1; CElem 21 20 GTt; CElem 31 30 G2; CNqr 0 SFq; CNqr 0 SFx; CNqr 0 SFx;
   CPp 5 2 false; CPp 12 11 false; CTable 6 4 4; CTable 7 3 4; CElemClear 2; CPpClear 12; COption 10 Net; CPp 13 11 false; CPp 14 11 true;
   CTableClear 7; CElemClear 1; CPpClear 5; CElemClear 3; CTableClear 6; CElemClear 4; CPairingClear 0; CPpClear 13; CPpClear 14; CElemClear 11;
   CPairingClear 10; CElemClear 21; CPairingClear 20; CElemClear 31; CPairingClear 30].
Example program_legal : legals [] program /\ afters [] program = [].
Proof.
  split; [|vm_compute; reflexivity]. unfold program. cbn [legals].
  repeat split; try (vm_compute; reflexivity); try (vm_compute; repeat eexists; fail);
  try (vm_compute; repeat eexists; (reflexivity || (left; reflexivity) || (right; repeat split; (lia || discriminate || reflexivity))); fail);
  try (vm_compute; intros; repeat match goal with H : _ \/ _ |- _ => destruct H as [H|H] | H : False |- _ => destruct H end; congruence);
  (intros k x H U; vm_compute in H; repeat (destruct H as [H|H]; [inversion H; subst; cbn in U; discriminate U || exact U|]); destruct H).
Qed.
Example program_runs : execs program ([], []) = Ok ([], []).
Proof. exact (storage_all_released_partial program (proj1 program_legal) (proj2 program_legal)). Qed.
(** In the middle of it there is much to release. *)
Example program_midway : match execs (firstn 19 program) ([], []) with Ok (o, h) => (length o, Nat.ltb 1000 (length h)) | _ => (0, false) end = (14, true).
Proof. vm_compute. reflexivity. Qed.

(** ** Where the code falls short *)

(** C80: preprocessing a point of any type A1 pairing with the default method
    and clearing the table leaks: the blocks of the table are released without
    clearing the elements in them (a_param.c:1623-1630). *)
Theorem type_a1_table_leaks_refuted : forall p, ty p = TA1 -> exists h,
  execs [CPairingText 0 p true; CElem 1 0 G1; CPp 2 1 false; CPpClear 2; CElemClear 1; CPairingClear 0] ([], []) = Ok ([], h) /\ h <> [].
Proof. exact a1_table_leak. Qed.
Print Assumptions type_a1_table_leaks_refuted.

(** C80: reading a pairing from a text of a known type in which a key is missing
    leaks the parameters read so far; there is no object left to clear. *)
Theorem missing_key_leaks_refuted : forall i p, exists h, execs [CPairingText i p false] ([], []) = Ok ([], h) /\ h <> [].
Proof. exact missing_key_leak. Qed.
Print Assumptions missing_key_leaks_refuted.

(** C80: changing the method between making a table and clearing it makes the
    clearing read entries that are not there. *)
Theorem method_changed_under_table_refuted : exists p,
  execs [CPairingText 0 p true; CElem 1 0 G1; CPp 2 1 false; COption 0 Net; CPpClear 2] ([], []) = UB.
Proof. exact option_under_table. Qed.
Print Assumptions method_changed_under_table_refuted.

(** C80: for types D and G a group of order 7 (or any [2^k - 1]) overruns the table. *)
Theorem all_ones_table_overrun_refuted : exists p, ty p = TD 3 /\ rr p = 7%Z /\
  execs [CPairingText 0 p true; CElem 1 0 G1; CPp 2 1 false] ([], []) = UB.
Proof. exact all_ones_overrun. Qed.
Print Assumptions all_ones_table_overrun_refuted.

(** The order that the manual asks for matters: an element cleared after its pairing. *)
Example element_after_pairing : execs [CPairingText 0 pa true; CElem 1 0 G1; CPairingClear 0; CElemClear 1] ([], []) = UB.
Proof. vm_compute. reflexivity. Qed.
Example element_cleared_twice : execs [CPairingText 0 pa true; CElem 1 0 G1; CElemClear 1; CElemClear 1] ([], []) = UB.
Proof. vm_compute. reflexivity. Qed.
