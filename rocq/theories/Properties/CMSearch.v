(** C43, C44: the Pell solver and the search for curves by complex
    multiplication.  The primality test, the next-prime function and the
    callback are arbitrary functions. *)
From Coq Require Import ZArith Znumtheory List Bool Lia.
From Verif.Base Require Import Outcome.
From Verif.Model Require Import Mnt.
From Verif.Spec Require Import CMCurves.
From Verif.Proofs Require Import PellFacts MntFacts MntMain.
Import ListNotations.
Open Scope Z_scope.

(** C44: every reported pair is a solution, the reported unit is one, and
    multiplying by it gives a further, larger solution. *)
Theorem pell_solver_sound : forall fuel D N ps, 0 < D -> ~ square D -> general_pell fuel D N = Ok ps ->
  Forall (fun xy => pell_eq D N (fst xy) (snd xy) /\ 0 < fst xy /\ 0 < snd xy) (sols ps) /\
  pell_eq D 1 (minx ps) (miny ps) /\ 0 < minx ps /\ 0 < miny ps /\
  (forall x y, In (x, y) (sols ps) ->
     pell_eq D N (minx ps * x + miny ps * y * D) (minx ps * y + miny ps * x) /\ x < minx ps * x + miny ps * y * D).
Proof. exact solver_sound. Qed.
Print Assumptions pell_solver_sound.

(** C44: the solver terminates. *)
Theorem pell_solver_total : forall D N, 0 < D -> ~ square D ->
  exists fuel0, forall fuel, (fuel0 <= fuel)%nat -> exists ps, general_pell fuel D N = Ok ps.
Proof. exact pell_total. Qed.
Print Assumptions pell_solver_total.
Example pell_solver_applies : ~ square 33 /\ general_pell 100 33 (-8) = Ok {| minx := 23; miny := 4; sols := [(5, 1); (17, 3)] |}.
Proof. split; [intros H; apply perfect_square_spec in H; [discriminate|lia]|vm_compute; reflexivity]. Qed.

(** C43: what pbc_cm_search_d reports to its callback, for 3 D below 2^32. *)
Theorem cm_search_d_sound : forall isprime nextprime callback fuel D lim hist r, 0 <= D -> 3 * D < 2 ^ 32 ->
  cm_search_d isprime nextprime callback fuel D lim = Ok (hist, r) ->
  Forall (fun c => order_splits (cm_n c) (cm_h c) (cm_r c) /\ isprime (cm_q c) = true /\ isprime (cm_r c) = true /\
     cm_D c = D /\ cm_k c = 6 /\ cm_equation (cm_q c) (cm_n c) D /\ (cm_r c | Phi6 (cm_q c))) hist.
Proof. exact search_d_sound. Qed.
Print Assumptions cm_search_d_sound.
Example cm_search_d_sound_applies : cm_search_d isprime nextprime (fun _ _ => 0) 100 59 20 = Ok ([d59], 0).
Proof. exact d59_found. Qed.

(** C43: for larger D the product 3 D wraps and the report can be wrong. *)
Theorem cm_search_d_large_refuted : exists isprime nextprime callback D c,
  (forall n, isprime n = true <-> prime n) /\ (forall p, p < nextprime p) /\ 0 <= D < 2 ^ 32 /\
  cm_search_d isprime nextprime callback 100 D 500 = Ok ([c], 1) /\ ~ cm_equation (cm_q c) (cm_n c) D.
Proof. exists isprime, nextprime, stop, 1431655963, bad_d. exact (conj isprime_spec (conj nextprime_gt (conj bad_d_range (conj bad_d_found bad_d_bad)))). Qed.
Print Assumptions cm_search_d_large_refuted.

(** C43: what pbc_cm_search_g reports.  Missing: the CM equation for the curve
    itself; it holds for the member of the family at x or for the one at -x. *)
Theorem cm_search_g_partial : forall isprime nextprime callback fuel D lim hist r, 0 <= D ->
  cm_search_g isprime nextprime callback fuel D lim = Ok (hist, r) ->
  Forall (fun c => order_splits (cm_n c) (cm_h c) (cm_r c) /\ isprime (cm_q c) = true /\ isprime (cm_r c) = true /\
     cm_D c = D /\ cm_k c = 10 /\ (cm_r c | Phi10 (cm_q c)) /\
     exists x V, cm_q c = freeman_q x /\ cm_n c = freeman_q x + 1 - freeman_t x /\
       (4 * freeman_q x - freeman_t x ^ 2 = D * V ^ 2 \/ 4 * freeman_q (- x) - freeman_t (- x) ^ 2 = D * V ^ 2)) hist.
Proof. exact search_g_sound. Qed.
Print Assumptions cm_search_g_partial.

(** C43: pbc_cm_search_g reports a curve that violates the CM equation: with an
    exact primality test, D = 203 gives q = 8443, n = 8261. *)
Theorem cm_search_g_refuted : exists isprime nextprime callback D c,
  (forall n, isprime n = true <-> prime n) /\ (forall p, p < nextprime p) /\
  cm_search_g isprime nextprime callback 100 D 500 = Ok ([c], 1) /\ ~ cm_equation (cm_q c) (cm_n c) D.
Proof. exists isprime, nextprime, stop, 203, bad_g. exact (conj isprime_spec (conj nextprime_gt (conj bad_g_found bad_g_bad))). Qed.
Print Assumptions cm_search_g_refuted.

(** C43: both searches terminate, without undefined behaviour and without
    reaching the "should never reach here" branch. *)
Theorem cm_search_d_total : forall isprime nextprime callback D lim, 0 <= D -> (forall p, p < nextprime p) ->
  exists fuel0, forall fuel, (fuel0 <= fuel)%nat -> exists r, cm_search_d isprime nextprime callback fuel D lim = Ok r.
Proof. exact search_d_total. Qed.
Print Assumptions cm_search_d_total.
Theorem cm_search_g_total : forall isprime nextprime callback D lim, 0 <= D -> (forall p, p < nextprime p) ->
  exists fuel0, forall fuel, (fuel0 <= fuel)%nat -> exists r, cm_search_g isprime nextprime callback fuel D lim = Ok r.
Proof. exact search_g_total. Qed.
Print Assumptions cm_search_g_total.
Example cm_search_total_applies : forall p, p < nextprime p.
Proof. exact nextprime_gt. Qed.
