(** C49, C50, C52: dynamic arrays, symbol tables and reallocation. *)
From Coq Require Import ZArith List Bool.
From Verif.Base Require Import Outcome.
From Verif.Model Require Import Memory Darray Symtab.
From Verif.Spec Require Import Sequences.
From Verif.Proofs Require Import DarrayFacts ContainerWitness.
Import ListNotations.

(** C49 (default build, every legal history of append, remove_last,
    remove_index, remove, remove_all, copy of a non-empty array, and the
    observers): the observations are those of lists, and no call is out of
    bounds.  Missing: remove_with_test and copying an empty array, refuted
    below; the SAFE_CLEAN build, see C52. *)
Theorem dynamic_array_is_sequence_partial : forall (A : Type) (eqb : A -> A -> bool) (junk : nat -> list A),
  (forall n, length (junk n) = n) ->
  forall h os, dspec_run eqb (fun _ => []) h os ->
  darray_run Plain junk eqb (fun _ => darray_init junk) h = Ok os.
Proof. intros A eqb junk Hj. exact (session_spec junk Hj eqb). Qed.
Print Assumptions dynamic_array_is_sequence_partial.

Example dynamic_array_example :
  dspec_run Z.eqb (fun _ => []) [DAppend 0 5%Z; DAppend 0 7%Z; DAppend 0 5%Z; DCopy 1 0; DRemove 1 5%Z; DForall 1; DIndexOf 0 7%Z; DCount 1]
    [OItems [7%Z; 5%Z]; OIndex (Some 1); OCount 2] /\ forall n, length (zero_block n) = n.
Proof. exact (conj darray_witness zero_block_length). Qed.

(** C49: removal by predicate keeps later matches ... *)
Theorem remove_with_test_refuted : exists (junk : nat -> list Z) l t a a' r, (forall n, length (junk n) = n) /\
    append_all junk Plain (darray_init junk) l = Ok a /\ darray_remove_with_test a t = Ok a' /\
    darray_forall a' = Ok r /\ r <> filter (fun x => negb (t x)) l.
Proof. exact test_removal. Qed.
Print Assumptions remove_with_test_refuted.

(** ... and reads beyond the block when the array is full. *)
Theorem remove_with_test_overrun_refuted : exists (junk : nat -> list Z) l t a, (forall n, length (junk n) = n) /\
    append_all junk Plain (darray_init junk) l = Ok a /\
    (exists x, In x l /\ t x = true) /\ darray_remove_with_test a t = UB.
Proof. exact test_overrun. Qed.
Print Assumptions remove_with_test_overrun_refuted.

(** C49: copying an empty array aborts instead of giving an empty array. *)
Theorem copy_of_empty_array_refuted : forall junk : nat -> list Z,
  darray_run Plain junk Z.eqb (fun _ => darray_init junk) [DAppend 0 5%Z; DCopy 0 1; DCount 0] <> Ok [OCount 0].
Proof. exact copy_empty_refuted. Qed.
Print Assumptions copy_of_empty_array_refuted.

(** C50: every history, both builds. *)
Theorem symbol_table_is_map : forall (D : Type) (junk : nat -> list (list Z * D)), (forall n, length (junk n) = n) ->
  forall b h, symtab_run b junk (symtab_init junk) h = Ok (map_run (fun _ => None) h).
Proof. intros D junk Hj. exact (symtab_session junk Hj). Qed.
Print Assumptions symbol_table_is_map.

Example symbol_table_example : symtab_run Plain (fun n => repeat ([], 0%Z) n) (symtab_init (fun n => repeat ([], 0%Z) n))
  [SPut [113%Z] 5%Z; SPut [114%Z] 6%Z; SAt [113%Z]; SPut [113%Z] 7%Z; SAt [113%Z]; SHas [115%Z]; SAt [115%Z]] =
  Ok [OAt (Some 5%Z); OAt (Some 7%Z); OHas false; OAt None].
Proof. exact symtab_witness. Qed.

(** C52: growing is safe in both builds. *)
Theorem realloc_grows_partial : forall (A : Type) (junk : nat -> list A), (forall n, length (junk n) = n) ->
  forall b old n, 0 < n -> length old <= n ->
  exists blk, pbc_realloc junk b old n = Ok blk /\ length blk = n /\ firstn (length old) blk = old.
Proof. intros A junk Hj. exact (realloc_grows junk Hj). Qed.
Print Assumptions realloc_grows_partial.

(** The default build keeps min(old, new) cells. *)
Theorem default_realloc_keeps_prefix : forall (A : Type) (junk : nat -> list A), (forall n, length (junk n) = n) ->
  forall old n, 0 < n ->
  exists blk, pbc_realloc junk Plain old n = Ok blk /\ length blk = n /\
    firstn (Nat.min (length old) n) blk = firstn n old.
Proof. intros A junk Hj. exact (realloc_plain junk Hj). Qed.
Print Assumptions default_realloc_keeps_prefix.

(** C52: every shrinking reallocation in a SAFE_CLEAN build overruns ... *)
Theorem secure_realloc_shrink_refuted : forall (A : Type) (junk : nat -> list A), (forall n, length (junk n) = n) ->
  forall old n, n < length old -> pbc_realloc junk SafeClean old n = UB.
Proof. intros A junk Hj. exact (realloc_safe_shrink junk Hj). Qed.
Print Assumptions secure_realloc_shrink_refuted.

(** ... which the library itself does when it copies a short array. *)
Theorem secure_array_copy_refuted : forall (A : Type) (junk : nat -> list A), (forall n, length (junk n) = n) ->
  forall l src, rep src l -> length l < 8 ->
  darray_copy SafeClean junk (darray_init junk) src = UB.
Proof. intros A junk Hj. exact (copy_safe junk Hj). Qed.
Print Assumptions secure_array_copy_refuted.
