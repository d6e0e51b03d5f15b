(** Where the containers fail, and concrete histories. *)
From Coq Require Import ZArith List Bool Lia.
From Verif.Base Require Import Outcome Array.
From Verif.Model Require Import Memory Darray Symtab.
From Verif.Spec Require Import Sequences.
From Verif.Proofs Require Import ArrayFacts DarrayFacts.
Import ListNotations.

Section W.
Context {A : Type}.
Variable junk : nat -> list A.
Hypothesis Hj : forall n, length (junk n) = n.

(** An array that really holds the list l: the state after appending l. *)
Fixpoint append_all (b : build) (a : darray A) (l : list A) : res (darray A) :=
  match l with [] => Ok a | x :: l' => a <- darray_append b junk a x ;; append_all b a l' end.

Lemma realloc_grows : forall b (old : list A) n, 0 < n -> length old <= n ->
  exists blk, pbc_realloc junk b old n = Ok blk /\ length blk = n /\ firstn (length old) blk = old.
Proof.
  intros b old n Hn Hl. exists (old ++ skipn (length old) (junk n)). split; [|split].
  - destruct b; cbn [pbc_realloc].
    + unfold plain_realloc. replace (n =? 0) with false by (symmetry; apply Nat.eqb_neq; lia).
      rewrite firstn_all2 by lia. reflexivity.
    + unfold safe_realloc, memcpy. rewrite Hj, (proj2 (Nat.leb_le _ _) Hl), Nat.leb_refl. cbn [andb].
      rewrite firstn_all. reflexivity.
  - rewrite app_length, skipn_length, Hj. lia.
  - rewrite firstn_app, Nat.sub_diag, firstn_all. simpl. apply app_nil_r.
Qed.

Lemma realloc_plain : forall (old : list A) n, 0 < n ->
  exists blk, pbc_realloc junk Plain old n = Ok blk /\ length blk = n /\
    firstn (Nat.min (length old) n) blk = firstn n old.
Proof.
  intros old n Hn. cbn [pbc_realloc]. unfold plain_realloc.
  replace (n =? 0) with false by (symmetry; apply Nat.eqb_neq; lia).
  eexists; split; [reflexivity|]. split.
  - rewrite app_length, firstn_length, skipn_length, Hj. lia.
  - rewrite firstn_app, firstn_firstn, firstn_length.
    replace (Nat.min (length old) n - Nat.min n (length old)) with 0 by lia. cbn [firstn]. rewrite app_nil_r.
    destruct (Nat.le_ge_cases n (length old)).
    + f_equal. lia.
    + rewrite !firstn_all2 by lia. reflexivity.
Qed.

Lemma realloc_safe_shrink : forall (old : list A) n, n < length old -> pbc_realloc junk SafeClean old n = UB.
Proof.
  intros old n Hn. cbn [pbc_realloc]. unfold safe_realloc, memcpy. rewrite Hj.
  replace (length old <=? n) with false by (symmetry; apply Nat.leb_gt; lia). reflexivity.
Qed.

(** darray_copy of any array with fewer than eight items, into a fresh array,
    overruns the heap in the SAFE_CLEAN build. *)
Lemma copy_safe : forall (l : list A) src, rep src l -> length l < 8 ->
  darray_copy SafeClean junk (darray_init junk) src = UB.
Proof.
  intros l src [H1 [H2 H3]] Hl. unfold darray_copy, darray_realloc. cbn [darray_init item].
  rewrite realloc_safe_shrink; [reflexivity|]. rewrite Hj, H2. exact Hl.
Qed.

Lemma copy_empty : forall dst src, rep src (@nil A) -> darray_copy Plain junk dst src = Die.
Proof. intros dst src [H1 [H2 H3]]. unfold darray_copy, darray_realloc. rewrite H2. reflexivity. Qed.
End W.

Definition zero_block (n : nat) : list Z := repeat 0%Z n.
Lemma zero_block_length : forall n, length (zero_block n) = n.
Proof. intros. apply repeat_length. Qed.

Lemma test_removal : exists (junk : nat -> list Z) l t a a' r, (forall n, length (junk n) = n) /\
    append_all junk Plain (darray_init junk) l = Ok a /\ darray_remove_with_test a t = Ok a' /\
    darray_forall a' = Ok r /\ r <> filter (fun x => negb (t x)) l.
Proof.
  exists zero_block, [1%Z; 2%Z; 1%Z; 1%Z], (Z.eqb 1). do 3 eexists. split; [apply zero_block_length|].
  split; [vm_compute; reflexivity|]. split; [vm_compute; reflexivity|]. split; [vm_compute; reflexivity|]. discriminate.
Qed.

Lemma test_overrun : exists (junk : nat -> list Z) l t a, (forall n, length (junk n) = n) /\
    append_all junk Plain (darray_init junk) l = Ok a /\
    (exists x, In x l /\ t x = true) /\ darray_remove_with_test a t = UB.
Proof.
  exists zero_block, [1%Z; 2%Z; 3%Z; 4%Z; 5%Z; 6%Z; 7%Z; 8%Z], (Z.eqb 3). eexists. split; [apply zero_block_length|].
  split; [vm_compute; reflexivity|]. split; [exists 3%Z; simpl; tauto|]. reflexivity.
Qed.

Lemma copy_empty_refuted : forall junk : nat -> list Z,
  darray_run Plain junk Z.eqb (fun _ => darray_init junk) [DAppend 0 5%Z; DCopy 0 1; DCount 0] <> Ok [OCount 0].
Proof. intros junk H. unfold darray_run in H. destruct (darray_step _ _ _ _ _) as [[s o]| | | ] eqn:E; try discriminate.
  cbn [darray_step] in E. destruct (darray_append Plain junk (darray_init junk) 5%Z) as [a| | |] eqn:EA; try discriminate.
  cbn [bind] in E. injection E as <- <-. cbn [bind fst darray_step] in H.
  unfold darray_copy, darray_realloc in H. cbn in H. discriminate.
Qed.

Lemma darray_witness :
  dspec_run Z.eqb (fun _ => []) [DAppend 0 5%Z; DAppend 0 7%Z; DAppend 0 5%Z; DCopy 1 0; DRemove 1 5%Z; DForall 1; DIndexOf 0 7%Z; DCount 1]
    [OItems [7%Z; 5%Z]; OIndex (Some 1); OCount 2].
Proof.
  evar (os : list (dobs Z)). replace [OItems [7%Z; 5%Z]; OIndex (Some 1); OCount 2] with os; subst os.
  - eapply dr_cons; [apply ds_append|]. eapply dr_cons; [apply ds_append|]. eapply dr_cons; [apply ds_append|].
    eapply dr_cons; [apply ds_copy; [discriminate|cbn; discriminate]|]. eapply dr_cons; [apply ds_remove|].
    eapply dr_cons; [apply ds_forall|]. eapply dr_cons; [apply ds_iof|].
    eapply dr_cons; [apply ds_count|]. constructor.
  - reflexivity.
Qed.

Lemma symtab_witness : symtab_run Plain (fun n => repeat ([], 0%Z) n) (symtab_init (fun n => repeat ([], 0%Z) n))
  [SPut [113%Z] 5%Z; SPut [114%Z] 6%Z; SAt [113%Z]; SPut [113%Z] 7%Z; SAt [113%Z]; SHas [115%Z]; SAt [115%Z]] =
  Ok [OAt (Some 5%Z); OAt (Some 7%Z); OHas false; OAt None].
Proof. reflexivity. Qed.
