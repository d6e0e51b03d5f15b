(** Concrete parameter files. *)
From Coq Require Import ZArith List Bool Lia String.
From Verif.Base Require Import Outcome.
From Verif.Model Require Import Memory Param.
From Verif.Spec Require Import ParamText.
From Verif.Proofs Require Import ParamFacts ParamMain.
Import ListNotations.
Open Scope Z_scope.

Definition mem0 (n : nat) : list (list Z * list Z) := repeat ([], []) n.
Lemma mem0_ok : forall n, List.length (mem0 n) = n.
Proof. intros. apply repeat_length. Qed.

(** "# test\n\ttype a1  p 59\nn 5 l 12 p 19#" *)
Definition f1 : file :=
  {| lead := [Comment (chars " test"); Space 9];
     body := [(chars "type", [Space 32]); (chars "a1", [Space 32; Space 32]); (chars "p", [Space 32]); (chars "59", [Space 10]);
              (chars "n", [Space 32]); (chars "5", [Space 32]); (chars "l", [Space 32]); (chars "12", [Space 32]);
              (chars "p", [Space 13]); (chars "-19", [Space 32; Comment []])];
     last_comment := Some (chars " end") |}.
(** the same pairs in another order and layout *)
Definition f2 : file :=
  {| lead := [];
     body := [(chars "l", [Space 10]); (chars "12", [Space 10]); (chars "p", [Space 10]); (chars "-19", [Space 10]);
              (chars "n", [Space 10]); (chars "5", [Space 10]); (chars "type", [Space 9]); (chars "a1", [])];
     last_comment := None |}.
Definition okc (c : Z) : bool := negb (c =? 0) && negb (c =? 10).
Definition pieceb (p : piece) : bool := match p with Space c => blank c | Comment t => forallb okc t end.
Lemma commentb_ok : forall t, forallb okc t = true -> Forall (fun c => c <> 0 /\ c <> 10) t.
Proof.
  intros t H. apply Forall_forall. intros c Hc. rewrite forallb_forall in H. specialize (H c Hc). unfold okc in H. apply andb_prop in H.
  destruct H as [A B]. apply negb_true_iff, Z.eqb_neq in A, B. auto.
Qed.
Lemma piecesb_ok : forall ps, forallb pieceb ps = true -> Forall piece_ok ps.
Proof.
  intros ps H. apply Forall_forall. intros p Hp. rewrite forallb_forall in H. specialize (H p Hp). destruct p as [c|t]; cbn in *.
  - apply blank_white. exact H.
  - apply commentb_ok. exact H.
Qed.
Lemma f1_ok : file_ok f1.
Proof.
  split; [apply piecesb_ok; reflexivity|]. split; [|apply commentb_ok; reflexivity]. cbn [f1 body body_ok last_comment].
  repeat (split; [apply wordb_ok; reflexivity|split; [apply piecesb_ok; reflexivity|split; [left; eexists; eexists; reflexivity|]]]). exact Logic.I.
Qed.
Lemma f2_ok : file_ok f2.
Proof.
  split; [constructor|]. split; [|exact Logic.I]. cbn [f2 body body_ok last_comment].
  repeat (split; [apply wordb_ok; reflexivity|split; [apply piecesb_ok; reflexivity|split; [left; eexists; eexists; reflexivity|]]]).
  split; [apply wordb_ok; reflexivity|split; [constructor|split; [right; auto|exact Logic.I]]].
Qed.
Lemma f12 : forall k, value_for (pairs (words f1)) k = value_for (pairs (words f2)) k.
Proof.
  intros k. cbn [words f1 f2 body map fst pairs value_for].
  destruct (list_eq_dec Z.eq_dec k (chars "p")) as [->|Np]; [reflexivity|].
  destruct (list_eq_dec Z.eq_dec k (chars "l")) as [->|Nl]; [reflexivity|].
  destruct (list_eq_dec Z.eq_dec k (chars "n")) as [->|Nn]; [reflexivity|].
  destruct (list_eq_dec Z.eq_dec k (chars "type")) as [->|Nt]; reflexivity.
Qed.

(** type D with embedding degree 202 overflows the buffer for "coeff100" *)
Definition big (key : list Z) : Z := if list_eq_dec Z.eq_dec key (chars "k") then 202 else 0.
Lemma print_overflow : param_out_str TD big = UB.
Proof. vm_compute. reflexivity. Qed.
(** a text that is not a number is read as 0, without error *)
Definition f3 : list Z := chars "type a1 p twelve n 5 l 3".
Lemma malformed : exists o, param_init_set_str Plain mem0 (f3 ++ [0]) = Ok o /\ ret o = 0 /\ vals o (chars "p") = 0.
Proof. eexists. split; [reflexivity|]. split; vm_compute; reflexivity. Qed.

(** type D values with embedding degree 6 *)
Definition d6 (key : list Z) : Z := if list_eq_dec Z.eq_dec key (chars "k") then 6 else 1000 + Z.of_nat (List.length key).
Lemma d6_ok : forall key, has_key D (d6 (chars "k")) key true -> int32 (d6 key).
Proof.
  intros key H. apply has_key_member in H. unfold d6, int32. destruct (list_eq_dec Z.eq_dec key (chars "k")); [lia|].
  unfold members in H. apply in_app_or in H. destruct H as [H|H].
  - cbn [code in_members In kind_of] in H. repeat (destruct H as [H|H]; [injection H as H; try congruence; subst; vm_compute; split; congruence|]). destruct H.
  - apply coeffs_in in H. destruct H; discriminate.
Qed.
