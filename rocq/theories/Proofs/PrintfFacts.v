(** element_snprintf. *)
From Coq Require Import ZArith List Bool Lia Arith.
From Verif.Base Require Import Outcome Array.
From Verif.Model Require Import Printf.
From Verif.Spec Require Import Printf.
From Verif.Proofs Require Import ArrayFacts.
Import ListNotations.
Open Scope Z_scope.

Lemma flags_scan : forall fl pending rest args, Forall flag fl ->
  do_print (fl ++ rest) pending true args = do_print rest (pending ++ fl) true args.
Proof.
  induction fl as [|c fl IH]; intros pending rest args H; [rewrite app_nil_r; reflexivity|].
  inversion H as [|? ? [H1 [H2 H3]] Hfl]; subst. cbn [app do_print].
  replace (c =? 66) with false by (symmetry; apply Z.eqb_neq; auto). rewrite H3.
  rewrite IH by auto. rewrite <- app_assoc. reflexivity.
Qed.

Lemma text_scan : forall t pending rest args, Forall plain t ->
  do_print (t ++ rest) pending false args = do_print rest (pending ++ t) false args.
Proof.
  induction t as [|c t IH]; intros pending rest args H; [rewrite app_nil_r; reflexivity|].
  inversion H as [|? ? [H1 H2] Ht]; subst. cbn [app do_print].
  replace (c =? percent) with false by (symmetry; apply Z.eqb_neq; auto).
  rewrite IH by auto. rewrite <- app_assoc. reflexivity.
Qed.

Lemma enter_directive : forall c d rest pending args, c <> percent ->
  do_print (percent :: c :: d ++ rest) pending false args =
  (r <- do_print (c :: d ++ rest) [percent] true args ;; Ok (pending :: r)).
Proof.
  intros c d rest pending args H. remember (c :: d ++ rest) as f eqn:E. cbn [do_print].
  change (percent =? percent) with true. cbv iota. rewrite E.
  replace (c =? percent) with false by (symmetry; apply Z.eqb_neq; auto). reflexivity.
Qed.

Lemma enter_directive' : forall l rest pending args, (forall c l', l = c :: l' -> c <> percent) -> l <> [] ->
  do_print (percent :: l ++ rest) pending false args =
  (r <- do_print (l ++ rest) [percent] true args ;; Ok (pending :: r)).
Proof.
  intros [|c l] rest pending args H N; [congruence|]. cbn [app]. apply enter_directive. eapply H; eauto.
Qed.

Lemma first_not_percent : forall fl tail, Forall flag fl -> (forall c l', tail = c :: l' -> c <> percent) ->
  forall c l', fl ++ tail = c :: l' -> c <> percent.
Proof.
  intros fl tail H T c l' E. destruct fl as [|x fl]; [eauto|]. simpl in E. injection E as -> _.
  inversion H as [|? ? [H1 _] _]. auto.
Qed.

Lemma conversion_facts : forall c, is_conversion c = true -> c <> percent /\ (c =? 66) = false.
Proof.
  intros c H. unfold is_conversion in H. apply existsb_exists in H. destruct H as [x [I E]]. apply Z.eqb_eq in E. subst x.
  repeat (destruct I as [<-|I]; [split; [unfold percent; lia|reflexivity]|]). destruct I.
Qed.

(** Formats without "%%". *)
Lemma do_print_spec : forall segs args out, prints segs args out -> Forall valid segs -> ~ In Percent segs ->
  forall pending, exists chunks, do_print (concat (map source segs)) pending false args = Ok chunks /\
    concat chunks = pending ++ out.
Proof.
  intros segs args out H. induction H as [|t segs args out H IH|segs args out H IH|fl t segs args out H IH|fl c f segs args out H IH|fl c f segs args out H IH]; intros V N pending.
  - exists [pending]. simpl. split; auto.
  - inversion V as [|? ? Vt Vs]; subst. cbn [map concat source]. rewrite text_scan by exact Vt.
    destruct (IH Vs (fun X => N (or_intror X)) (pending ++ t)) as [ch [E1 E2]]. exists ch. split; auto.
    rewrite E2, <- app_assoc. reflexivity.
  - exfalso. apply N. left. reflexivity.
  - inversion V as [|? ? Vt Vs]; subst. simpl in Vt. cbn [map concat source].
    change ((percent :: fl ++ [66]) ++ concat (map source segs)) with (percent :: (fl ++ [66]) ++ concat (map source segs)).
    rewrite enter_directive'.
    2: { apply first_not_percent; auto. intros c l' E. injection E as <- _. unfold percent; lia. }
    2: { destruct fl; discriminate. }
    rewrite <- app_assoc, flags_scan by auto. cbn [app do_print]. change (66 =? 66) with true. cbv iota.
    destruct (IH Vs (fun X => N (or_intror X)) []) as [ch [E1 E2]]. rewrite E1. cbn [bind].
    eexists. split; [reflexivity|]. cbn [concat]. rewrite E2. reflexivity.
  - inversion V as [|? ? Vt Vs]; subst. destruct Vt as [Vf [Vc Vz]]. cbn [map concat source].
    destruct (conversion_facts c Vc) as [C1 C2].
    change ((percent :: fl ++ [c]) ++ concat (map source segs)) with (percent :: (fl ++ [c]) ++ concat (map source segs)).
    rewrite enter_directive'.
    2: { apply first_not_percent; auto. intros c' l' E. injection E as <- _. auto. }
    2: { destruct fl; discriminate. }
    rewrite <- app_assoc, flags_scan by auto. cbn [app do_print]. rewrite C2, Vc.
    replace (c =? 90) with false by (symmetry; apply Z.eqb_neq; auto).
    destruct (IH Vs (fun X => N (or_intror X)) []) as [ch [E1 E2]]. rewrite E1. cbn [bind].
    eexists. split; [reflexivity|]. cbn [concat]. rewrite E2. reflexivity.
  - inversion V as [|? ? Vt Vs]; subst. simpl in Vt. cbn [map concat source].
    change ((percent :: fl ++ [90; c]) ++ concat (map source segs)) with (percent :: (fl ++ [90; c]) ++ concat (map source segs)).
    rewrite enter_directive'.
    2: { apply first_not_percent; auto. intros c' l' E. injection E as <- _. unfold percent; lia. }
    2: { destruct fl; discriminate. }
    rewrite <- app_assoc, flags_scan by auto. cbn [app do_print].
    change (90 =? 66) with false. change (is_conversion 90) with true. change (90 =? 90) with true. cbv iota.
    destruct (IH Vs (fun X => N (or_intror X)) []) as [ch [E1 E2]]. rewrite E1. cbn [bind].
    eexists. split; [reflexivity|]. cbn [concat]. rewrite E2. reflexivity.
Qed.

Lemma skipn_skipn' : forall (l : list Z) a b, skipn a (skipn b l) = skipn (a + b) l.
Proof.
  intros l a b. revert l a. induction b; intros l a.
  - rewrite Nat.add_0_r. reflexivity.
  - rewrite Nat.add_succ_r. destruct l; simpl; [destruct a; reflexivity|]. apply IHb.
Qed.

Definition state (buf0 : list Z) (n : nat) (done : list Z) (x : Z) : list Z :=
  firstn n done ++ x :: skipn (S (Nat.min n (length done))) buf0.

Lemma chunk_step : forall buf0 n done x t, (S n <= length buf0)%nat -> (done <> [] -> x = 0) ->
  snprintf_at (state buf0 n done x) (length done) (if (S n <=? length done)%nat then 0%nat else (S n - length done)%nat) t
  = Ok (state buf0 n (done ++ t) 0).
Proof.
  intros buf0 n done x t Hs Hx. unfold state. destruct (Nat.leb_spec (S n) (length done)) as [L|L].
  - cbn [snprintf_at]. rewrite firstn_app, app_length.
    replace (n - length done)%nat with 0%nat by lia. cbn [firstn]. rewrite app_nil_r.
    replace (Nat.min n (length done + length t)) with n by lia. replace (Nat.min n (length done)) with n by lia.
    rewrite Hx; auto. intros ->. simpl in L. lia.
  - destruct (S n - length done)%nat as [|l] eqn:EL; [lia|]. cbn [snprintf_at].
    rewrite (firstn_all2 done) by lia. replace (Nat.min n (length done)) with (length done) by lia.
    unfold splice. rewrite !app_length, firstn_length. cbn [length]. rewrite skipn_length.
    replace (length done + (Nat.min l (length t) + 1) <=? length done + S (length buf0 - S (length done)))%nat with true
      by (symmetry; apply Nat.leb_le; lia).
    f_equal. rewrite firstn_app, firstn_all, Nat.sub_diag. cbn [firstn]. rewrite app_nil_r.
    rewrite firstn_app, (firstn_all2 done) by lia. replace (n - length done)%nat with l by lia.
    rewrite <- !app_assoc. cbn [app]. do 3 f_equal.
    rewrite skipn_app. rewrite skipn_all2 by lia. cbn [app].
    replace (length done + (Nat.min l (length t) + 1) - length done)%nat with (S (Nat.min l (length t))) by lia.
    rewrite skipn_cons, skipn_skipn'. f_equal. lia.
Qed.

Lemma print_chunks_state : forall chunks buf0 n done x, (S n <= length buf0)%nat -> (done <> [] -> x = 0) ->
  chunks <> [] ->
  print_chunks (state buf0 n done x) (S n) (if (S n <=? length done)%nat then 0%nat else (S n - length done)%nat) (length done) chunks
  = Ok (state buf0 n (done ++ concat chunks) 0, (length done + length (concat chunks))%nat).
Proof.
  induction chunks as [|t chunks IH]; intros buf0 n done x Hs Hx N; [congruence|].
  cbn [print_chunks concat]. rewrite chunk_step by auto. cbn [bind]. cbv zeta.
  destruct chunks as [|t' chunks].
  - cbn [print_chunks concat]. rewrite app_nil_r. reflexivity.
  - rewrite <- (app_length done t). rewrite IH by (auto; discriminate).
    rewrite <- app_assoc. do 2 f_equal. rewrite !app_length. lia.
Qed.

Lemma print_chunks_zero : forall chunks buf r, print_chunks buf 0 0 r chunks = Ok (buf, (r + length (concat chunks))%nat).
Proof.
  induction chunks as [|t chunks IH]; intros buf r; [rewrite Nat.add_0_r; reflexivity|].
  cbn [print_chunks concat snprintf_at bind]. cbv zeta. cbn [Nat.leb]. rewrite IH, app_length. do 2 f_equal. lia.
Qed.

Lemma print_chunks_spec : forall chunks buf size, (size <= length buf)%nat -> chunks <> [] ->
  print_chunks buf size size 0 chunks = Ok (truncated buf size (concat chunks), length (concat chunks)).
Proof.
  intros chunks buf [|n] Hs N; [apply print_chunks_zero|].
  destruct buf as [|x buf]; [simpl in Hs; lia|].
  assert (E : x :: buf = state (x :: buf) n [] x). { unfold state. rewrite firstn_nil, Nat.min_0_r. reflexivity. }
  rewrite E at 1.
  pose proof (print_chunks_state chunks (x :: buf) n [] x Hs ltac:(congruence) N) as P.
  cbn [length Nat.leb] in P. rewrite Nat.sub_0_r in P. rewrite P. reflexivity.
Qed.

Lemma do_print_nonempty : forall segs args out pending chunks, prints segs args out -> Forall valid segs -> ~ In Percent segs ->
  do_print (concat (map source segs)) pending false args = Ok chunks -> chunks <> [].
Proof.
  intros segs args out pending chunks H. revert pending chunks.
  induction H as [|t segs args out H IH|segs args out H IH|fl t segs args out H IH|fl c f segs args out H IH|fl c f segs args out H IH];
    intros pending chunks V N E; inversion V as [|? ? Vt Vs]; subst; try (apply bind_ok in E).
  - simpl in E. injection E as <-. discriminate.
  - cbn [map concat source] in E. rewrite text_scan in E by exact Vt. eapply IH; eauto. intros X. apply N. right; auto.
  - exfalso. apply N. left. reflexivity.
  - simpl in Vt. cbn [map concat source] in E.
    change ((percent :: fl ++ [66]) ++ concat (map source segs)) with (percent :: (fl ++ [66]) ++ concat (map source segs)) in E.
    rewrite enter_directive' in E.
    + apply bind_ok in E. destruct E as [r [_ E]]. injection E as <-. discriminate.
    + apply first_not_percent; auto. intros c' l' E'. injection E' as <- _. unfold percent; lia.
    + destruct fl; discriminate.
  - destruct Vt as [Vf [Vc Vz]]. cbn [map concat source] in E. destruct (conversion_facts c Vc) as [C1 C2].
    change ((percent :: fl ++ [c]) ++ concat (map source segs)) with (percent :: (fl ++ [c]) ++ concat (map source segs)) in E.
    rewrite enter_directive' in E.
    + apply bind_ok in E. destruct E as [r [_ E]]. injection E as <-. discriminate.
    + apply first_not_percent; auto. intros c' l' E'. injection E' as <- _. auto.
    + destruct fl; discriminate.
  - simpl in Vt. cbn [map concat source] in E.
    change ((percent :: fl ++ [90; c]) ++ concat (map source segs)) with (percent :: (fl ++ [90; c]) ++ concat (map source segs)) in E.
    rewrite enter_directive' in E.
    + apply bind_ok in E. destruct E as [r [_ E]]. injection E as <-. discriminate.
    + apply first_not_percent; auto. intros c' l' E'. injection E' as <- _. unfold percent; lia.
    + destruct fl; discriminate.
Qed.

Lemma snprintf_spec : forall segs args out buf size, prints segs args out -> Forall valid segs -> ~ In Percent segs ->
  (size <= length buf)%nat ->
  element_vsnprintf buf size (concat (map source segs)) args = Ok (truncated buf size out, length out).
Proof.
  intros segs args out buf size H V N Hs. unfold element_vsnprintf.
  destruct (do_print_spec segs args out H V N []) as [ch [E1 E2]]. rewrite E1. cbn [bind].
  rewrite print_chunks_spec; auto.
  - rewrite E2. reflexivity.
  - eapply do_print_nonempty; eauto.
Qed.

(** Whatever the format, nothing beyond [size] bytes is written. *)
Lemma snprintf_bounded : forall buf size fmt args buf' n, (size <= length buf)%nat ->
  element_vsnprintf buf size fmt args = Ok (buf', n) ->
  length buf' = length buf /\ skipn size buf' = skipn size buf.
Proof.
  intros buf size fmt args buf' n Hs E. unfold element_vsnprintf in E. apply bind_ok in E. destruct E as [ch [_ E]].
  assert (G : ch = [] \/ ch <> []) by (destruct ch; auto; right; discriminate). destruct G as [->|N].
  - simpl in E. injection E as <- <-. auto.
  - rewrite print_chunks_spec in E by auto. injection E as <- _. destruct size as [|m]; auto.
    unfold truncated. set (out := concat ch). split.
    + rewrite app_length, firstn_length. cbn [length]. rewrite skipn_length. lia.
    + rewrite skipn_app. rewrite skipn_all2 by (rewrite firstn_length; lia). cbn [app].
      rewrite firstn_length. replace (S m - Nat.min m (length out))%nat with (S (m - Nat.min m (length out))) by lia.
      rewrite skipn_cons, skipn_skipn'. f_equal. lia.
Qed.

(** "100%%" prints both percent signs; "abc%" prints nothing. *)
Lemma percent_wrong : exists segs args out buf size r, prints segs args out /\ Forall valid segs /\ (size <= length buf)%nat /\
  element_vsnprintf buf size (concat (map source segs)) args = Ok r /\ r <> (truncated buf size out, length out).
Proof.
  exists [Text [49]; Percent], [], [49; percent], [7; 7; 7; 7; 7; 7], 6%nat. eexists.
  split; [repeat constructor; apply (p_text [49] [Percent] [] [percent]); apply p_percent; constructor|].
  split; [repeat constructor; unfold percent; lia|]. split; [simpl; lia|]. split; [vm_compute; reflexivity|].
  vm_compute. discriminate.
Qed.
Lemma trailing_percent : element_vsnprintf [7; 7; 7; 7; 7; 7] 6 [97; 98; 99; percent] [] = Ok ([7; 7; 7; 7; 7; 7], 0%nat).
Proof. reflexivity. Qed.

Lemma snprintf_witness :
  prints [Text [120; 61]; Element []; Text [33]] [PElement [52; 50]] [120; 61; 52; 50; 33] /\
  Forall valid [Text [120; 61]; Element []; Text [33]] /\
  element_vsnprintf [9; 9; 9; 9; 9] 4 [120; 61; 37; 66; 33] [PElement [52; 50]] = Ok ([120; 61; 52; 0; 9], 5%nat).
Proof.
  split; [|split; [repeat constructor; unfold percent; lia|reflexivity]].
  apply (p_text [120; 61] _ _ [52; 50; 33]). apply (p_elem [] [52; 50] _ _ [33]). apply (p_text [33] _ _ []). constructor.
Qed.
