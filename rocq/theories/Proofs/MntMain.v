(** The CM searches: soundness, termination, and the two ways they go wrong. *)
From Coq Require Import ZArith Znumtheory List Bool Lia.
From Verif.Base Require Import Outcome.
From Verif.Model Require Import Mnt.
From Verif.Spec Require Import CMCurves.
From Verif.Proofs Require Import PellFacts MntFacts.
Import ListNotations.
Open Scope Z_scope.

Lemma search_d_sound : forall isprime nextprime callback fuel D lim hist r, 0 <= D -> 3 * D < 2 ^ 32 ->
  cm_search_d isprime nextprime callback fuel D lim = Ok (hist, r) ->
  Forall (fun c => order_splits (cm_n c) (cm_h c) (cm_r c) /\ isprime (cm_q c) = true /\ isprime (cm_r c) = true /\
     cm_D c = D /\ cm_k c = 6 /\ cm_equation (cm_q c) (cm_n c) D /\ (cm_r c | Phi6 (cm_q c))) hist.
Proof.
  intros ip np cb fuel D lim hist r H0 H1 H. unfold cm_search_d in H. rewrite Z.mod_small in H by lia.
  eapply search_sound in H; [eapply Forall_impl; [|exact H]| |lia]; [|intros; eapply mnt_step_ok; eauto].
  intros c ((A1 & A2 & A3 & A4) & A5 & A6 & A7). auto 10.
Qed.
Lemma search_g_sound : forall isprime nextprime callback fuel D lim hist r, 0 <= D ->
  cm_search_g isprime nextprime callback fuel D lim = Ok (hist, r) ->
  Forall (fun c => order_splits (cm_n c) (cm_h c) (cm_r c) /\ isprime (cm_q c) = true /\ isprime (cm_r c) = true /\
     cm_D c = D /\ cm_k c = 10 /\ (cm_r c | Phi10 (cm_q c)) /\
     exists x V, cm_q c = freeman_q x /\ cm_n c = freeman_q x + 1 - freeman_t x /\
       (4 * freeman_q x - freeman_t x ^ 2 = D * V ^ 2 \/ 4 * freeman_q (- x) - freeman_t (- x) ^ 2 = D * V ^ 2)) hist.
Proof.
  intros ip np cb fuel D lim hist r H0 H. unfold cm_search_g in H.
  eapply search_sound in H; [eapply Forall_impl; [|exact H]| |lia]; [|intros; eapply freeman_step_ok; eauto].
  intros c ((A1 & A2 & A3 & A4) & A5 & A6 & A7). auto 10.
Qed.
Lemma search_d_total : forall isprime nextprime callback D lim, 0 <= D -> (forall p, p < nextprime p) ->
  exists fuel0, forall fuel, (fuel0 <= fuel)%nat -> exists r, cm_search_d isprime nextprime callback fuel D lim = Ok r.
Proof.
  intros ip np cb D lim H0 Hn. unfold cm_search_d. apply search_total. { apply Z.mod_pos_bound. apply Z.pow_pos_nonneg; lia. }
  intros B. exists (Z.to_nat (400 * B ^ 4 + 70001)). intros fuel Hf x y _ Hx. eapply mnt_step_total; eauto.
  assert (0 <= B ^ 4) by (apply Z.pow_nonneg; lia). lia.
Qed.
Lemma search_g_total : forall isprime nextprime callback D lim, 0 <= D -> (forall p, p < nextprime p) ->
  exists fuel0, forall fuel, (fuel0 <= fuel)%nat -> exists r, cm_search_g isprime nextprime callback fuel D lim = Ok r.
Proof.
  intros ip np cb D lim H0 Hn. unfold cm_search_g. apply search_total. { lia. }
  intros B. exists (Z.to_nat (400 * B ^ 4 + 70001)). intros fuel Hf x y HP Hx. eapply freeman_step_total; eauto.
  assert (0 <= B ^ 4) by (apply Z.pow_nonneg; lia). lia.
Qed.

(** * Witnesses *)
Fixpoint nodiv (k : nat) (d n : Z) : bool :=
  match k with O => true | S k => if n mod d =? 0 then false else nodiv k (d + 1) n end.
Definition isprime (n : Z) : bool := (1 <? n) && nodiv (Z.to_nat (n - 2)) 2 n.
Lemma nodiv_spec : forall k d n, nodiv k d n = true <-> (forall e, d <= e < d + Z.of_nat k -> n mod e <> 0).
Proof.
  induction k as [|k IH]; intros d n; cbn [nodiv]. { split; auto. intros _ e He. lia. }
  destruct (Z.eqb_spec (n mod d) 0) as [E|E].
  - split; [discriminate|]. intros H. exfalso. apply (H d); [lia|exact E].
  - rewrite IH. split; intros H e He.
    + destruct (Z.eq_dec e d) as [->|]; auto. apply H. lia.
    + apply H. lia.
Qed.
Lemma isprime_spec : forall n, isprime n = true <-> prime n.
Proof.
  intros n. unfold isprime. rewrite andb_true_iff, Z.ltb_lt, nodiv_spec, <- prime_alt. split.
  - intros [H1 H2]. split; [exact H1|]. intros e He HD. apply (H2 e); [lia|]. apply Z.mod_divide; [lia|exact HD].
  - intros [H1 H2]. split; [exact H1|]. intros e He HD. apply (H2 e); [lia|]. apply Z.mod_divide; [lia|exact HD].
Qed.
Fixpoint upto (k : nat) (n : Z) : Z := match k with O => n | S k => if isprime n then n else upto k (n + 1) end.
Definition nextprime (n : Z) : Z := upto 100 (n + 1).
Lemma nextprime_gt : forall p, p < nextprime p.
Proof.
  intros p. unfold nextprime. assert (forall k n, n <= upto k n) as H; [|specialize (H 100%nat (p + 1)); lia].
  induction k as [|k IH]; intros n; cbn [upto]; [lia|]. destruct (isprime n); [lia|]. specialize (IH (n + 1)). lia.
Qed.
Definition stop (h : list cm) (c : cm) : Z := 1.

Definition bad_g : cm := {| cm_q := 8443; cm_n := 8261; cm_h := 11; cm_r := 751; cm_k := 10; cm_D := 203 |}.
Lemma bad_g_found : cm_search_g isprime nextprime stop 100 203 500 = Ok ([bad_g], 1).
Proof. vm_compute. reflexivity. Qed.
Lemma bad_g_bad : ~ cm_equation (cm_q bad_g) (cm_n bad_g) 203.
Proof. intros [V H]. cbn -[Z.mul Z.pow] in H. change (283 = 203 * V ^ 2) in H. lia. Qed.

Definition bad_d : cm := {| cm_q := 577; cm_n := 601; cm_h := 1; cm_r := 601; cm_k := 6; cm_D := 1431655963 |}.
Lemma bad_d_found : cm_search_d isprime nextprime stop 100 1431655963 500 = Ok ([bad_d], 1).
Proof. vm_compute. reflexivity. Qed.
Lemma bad_d_bad : ~ cm_equation (cm_q bad_d) (cm_n bad_d) 1431655963.
Proof. intros [V H]. cbn -[Z.mul Z.pow] in H. change (1779 = 1431655963 * V ^ 2) in H. lia. Qed.

(** a good report *)
Definition d59 : cm := {| cm_q := 17; cm_n := 21; cm_h := 3; cm_r := 7; cm_k := 6; cm_D := 59 |}.
Lemma d59_found : cm_search_d isprime nextprime (fun _ _ => 0) 100 59 20 = Ok ([d59], 0).
Proof. vm_compute. reflexivity. Qed.

Lemma unit_step : forall D N tx ty x y, pell_eq D 1 tx ty -> pell_eq D N x y -> pell_eq D N (tx * x + ty * y * D) (tx * y + ty * x).
Proof.
  unfold pell_eq. intros D N tx ty x y U P. transitivity ((tx * tx - D * (ty * ty)) * (x * x - D * (y * y))); [ring|]. rewrite U, P. ring.
Qed.
Lemma solver_sound : forall fuel D N ps, 0 < D -> ~ square D -> general_pell fuel D N = Ok ps ->
  Forall (fun xy => pell_eq D N (fst xy) (snd xy) /\ 0 < fst xy /\ 0 < snd xy) (sols ps) /\
  pell_eq D 1 (minx ps) (miny ps) /\ 0 < minx ps /\ 0 < miny ps /\
  (forall x y, In (x, y) (sols ps) ->
     pell_eq D N (minx ps * x + miny ps * y * D) (minx ps * y + miny ps * x) /\ x < minx ps * x + miny ps * y * D).
Proof.
  intros fuel D N ps HD NS H. apply pell_sound in H; auto. destruct H as (S1 & U & X & Y). repeat (split; [assumption|]).
  intros x y I. rewrite Forall_forall in S1. destruct (S1 _ I) as (P & A & B). cbn [fst snd] in *. split; [apply unit_step; assumption|].
  assert (0 < miny ps * y * D) by (repeat apply Z.mul_pos_pos; lia). nia.
Qed.
Lemma bad_d_range : 0 <= 1431655963 < 2 ^ 32.
Proof. split; [lia|reflexivity]. Qed.
