(** C79: storage of nested integer lists. *)
From Coq Require Import ZArith List Bool.
From Verif.Base Require Import Outcome.
From Verif.Model Require Import Multiz MultizHeap.
From Verif.Spec Require Import MultizHeap.
From Verif.Proofs Require Import MultizHeapFacts.
Import ListNotations.

(** A history of calls that is legal for values ends, for every sufficient
    depth of recursion, without touching freed memory and without freeing
    twice; every element in use holds its value, no two elements share a
    block, and no other block is allocated. *)
Theorem C79_nested_lists_memory_safe_partial : forall l w, vcalls (fun _ => None) l = Ok w ->
  exists n0 s, represents w s /\ forall n, (n0 <= n)%nat -> calls n empty_mem l = Ok s.
Proof. exact (fun l w H => multiz_memory_safe l _ w _ empty_represents H). Qed.
(** The same from any reachable memory. *)
Theorem C79_every_call_keeps_storage_partial : forall c w w' s, vstep w c = Ok w' -> represents w s ->
  exists n0 s', represents w' s' /\ forall n, (n0 <= n)%nat -> call_step n s c = Ok s'.
Proof. exact step_represents. Qed.
(** When no element is in use any more, nothing is allocated. *)
Theorem C79_all_cleared_nothing_leaked : forall l w, vcalls (fun _ => None) l = Ok w -> (forall i, w i = None) ->
  exists n0 s, (forall k, ~ allocated (cells s) k) /\ forall n, (n0 <= n)%nat -> calls n empty_mem l = Ok s.
Proof. exact nothing_leaked. Qed.

(** Refuted for the elements of a list: multiz_new_list and multiz_append keep
    a pointer to the storage of the element, and element_item returns one into
    the list, so both objects free it. *)
Theorem C79_list_and_member_cleared_refuted : forall n, (2 <= n)%nat ->
  calls n empty_mem [CInit 0; CNewList 1 0; CClear 0; CClear 1] = UB.
Proof. exact both_cleared. Qed.
Theorem C79_member_assigned_refuted : forall n, (2 <= n)%nat ->
  calls n empty_mem [CInit 0; CNewList 1 0; CSetZ 0 5; CAdd 1 1 1] = UB.
Proof. exact member_set. Qed.
Theorem C79_item_cleared_refuted : forall n, (2 <= n)%nat ->
  calls n empty_mem [CInit 0; CNewList 1 0; CItem 2 1 0; CClear 2; CClear 1] = UB.
Proof. exact item_cleared. Qed.
Theorem C79_appended_to_itself_refuted : forall n, (3 <= n)%nat ->
  calls n empty_mem [CInit 0; CNewList 1 0; CAppend 1 1; CClear 1] = UB.
Proof. exact appended_to_itself. Qed.

(** A legal history: [[3, -4]], its square and their difference, then a quotient. *)
Definition sample : list call :=
  [CInit 0; CSetZ 0 3; CInit 1; CSetZ 1 (-4); CNewList 2 0; CAppend 2 1; CInit 3; CMul 3 2 2;
   CSub 3 3 2; CSet 3 3; CInit 0; CSetZ 0 2; CDiv 2 3 0; CClear 0].
Example sample_legal : exists w, vcalls (fun _ => None) sample = Ok w /\
  w 2%nat = Some (MA [MZ 3; MZ (-10); MZ 8]) /\ w 3%nat = Some (MA [MZ 6; MZ (-20); MZ 16]) /\ w 0%nat = None.
Proof. eexists. split; [reflexivity|]. repeat split. Qed.
(** Its memory, with enough depth: only the blocks of elements 2 and 3. *)
Example sample_blocks : exists s, calls 10 empty_mem sample = Ok s /\
  length (filter (fun c => match c with Some _ => true | None => false end) (cells s)) = 8%nat.
Proof. eexists. split; [vm_compute; reflexivity|]. reflexivity. Qed.
(** Cleared as well, nothing is left. *)
Example sample_cleared : exists s, calls 10 empty_mem (sample ++ [CClear 2; CClear 3]) = Ok s /\
  length (filter (fun c => match c with Some _ => true | None => false end) (cells s)) = 0%nat.
Proof. eexists. split; [vm_compute; reflexivity|]. reflexivity. Qed.

Print Assumptions C79_nested_lists_memory_safe_partial.
Print Assumptions C79_every_call_keeps_storage_partial.
Print Assumptions C79_all_cleared_nothing_leaked.
Print Assumptions C79_list_and_member_cleared_refuted.
Print Assumptions C79_member_assigned_refuted.
Print Assumptions C79_item_cleared_refuted.
Print Assumptions C79_appended_to_itself_refuted.
