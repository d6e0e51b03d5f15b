(** gendparam and gengparam print one text, or fail. *)
From Coq Require Import ZArith List Bool Lia.
From Verif.Base Require Import Outcome.
From Verif.Model Require Import Mnt GenToolsD GenToolsG.
Import ListNotations.
Open Scope Z_scope.

Section One.
Variable step2 : nat -> Z -> Z -> res (option cm).
Notation cb := (fun (_ : list cm) (_ : cm) => 1).
Lemma pass_one : forall fuel D DD lim tx ty ps hist e, pass cb step2 fuel D DD lim tx ty ps [] = Ok (hist, e) ->
  match e with inl r => (hist = [] /\ r = 0) \/ (exists c, hist = [c] /\ r = 1) | inr _ => hist = [] end.
Proof.
  intros fuel D DD lim tx ty. induction ps as [|[x y] ps IH]; intros hist e H; cbn [pass] in H. { injection H as <- <-. reflexivity. }
  destruct (step2 fuel D x) as [o| | |]; try discriminate. cbn [bind] in H. destruct o as [c|].
  - cbn in H. injection H as <- <-. right. exists c. auto.
  - change (negb (0 =? 0)) with false in H. cbv iota in H.
    destruct (2 * sizeinbase2 (tx * x + ty * y * DD) >? (lim + 10) mod 2 ^ 32). { injection H as <- <-. auto. }
    destruct (pass cb step2 fuel D DD lim tx ty ps []) as [[h e']| | |] eqn:E; try discriminate. cbn [bind] in H.
    specialize (IH h e' eq_refl). destruct e' as [r|l]; injection H as <- <-; exact IH.
Qed.
Lemma loop_one : forall fuel n D DD lim tx ty ps hist r, search_loop cb step2 fuel n D DD lim tx ty ps [] = Ok (hist, r) ->
  (hist = [] /\ r = 0) \/ (exists c, hist = [c] /\ r = 1).
Proof.
  intros fuel. induction n as [|n IH]; intros D DD lim tx ty ps hist r H; [discriminate|]. cbn [search_loop] in H.
  destruct (pass cb step2 fuel D DD lim tx ty ps []) as [[h e]| | |] eqn:E; try discriminate. cbn [bind] in H.
  apply pass_one in E. destruct e as [r'|l]. { injection H as <- <-. exact E. } subst h. eapply IH; eauto.
Qed.
Lemma search_one : forall fuel D DD N lim hist r, cm_search cb step2 fuel D DD N lim = Ok (hist, r) ->
  (hist = [] /\ r = 0) \/ (exists c, hist = [c] /\ r = 1).
Proof.
  intros fuel D DD N lim hist r H. unfold cm_search in H. destruct (perfect_square DD). { injection H as <- <-. auto. }
  destruct (general_pell fuel DD N) as [ps| | |]; try discriminate. cbn [bind] in H.
  destruct (sols ps) as [|s l]. { injection H as <- <-. auto. } eapply loop_one; eauto.
Qed.
End One.

Lemma gendparam_one : forall isprime nextprime rest fuel D ts, gendparam isprime nextprime rest fuel D = Ok ts -> length ts = 1%nat.
Proof.
  intros ip np rest fuel D ts H. unfold gendparam in H. destruct ((D <=? 0) || (D mod 4 =? 1) || (D mod 4 =? 2)); [discriminate|].
  destruct (cm_search_d ip np (fun _ _ => 1) fuel D 500) as [[hist r]| | |] eqn:E; try discriminate. cbn [bind] in H.
  apply search_one in E. destruct E as [[-> ->]|(c & -> & ->)]; [discriminate H|]. cbn [generate_all] in H.
  destruct (generate rest c); try discriminate. cbn in H. injection H as <-. reflexivity.
Qed.
Lemma gengparam_one : forall isprime nextprime rest fuel D ts, gengparam isprime nextprime rest fuel D = Ok ts -> length ts = 1%nat.
Proof.
  intros ip np rest fuel D ts H. unfold gengparam in H. destruct ((D <=? 0) || negb ((D mod 120 =? 43) || (D mod 120 =? 67))); [discriminate|].
  destruct (cm_search_g ip np (fun _ _ => 1) fuel D 500) as [[hist r]| | |] eqn:E; try discriminate. cbn [bind] in H.
  apply search_one in E. destruct E as [[-> ->]|(c & -> & ->)]; [discriminate H|]. cbn [generate_g_all] in H.
  destruct (generate_g rest c); try discriminate. cbn in H. injection H as <-. reflexivity.
Qed.
