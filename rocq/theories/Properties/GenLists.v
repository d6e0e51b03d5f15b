(** C82: the tables printed by listmnt and listfreeman. *)
From Coq Require Import ZArith Znumtheory List Bool Lia.
From Verif.Base Require Import Outcome.
From Verif.Spec Require Import CMCurves GenLists.
From Verif.Model Require Import Mnt GenLists.
From Verif.Proofs Require Import MntMain GenListsFacts.
Import ListNotations.
Open Scope Z_scope.

(** Every line is a curve of complex multiplication by the D printed, of
    embedding degree 6, with the sizes printed.  The heading says D < 10^9; D =
    10^9 is tried too. *)
Theorem listmnt_lines_true : forall isprime nextprime, (forall m, isprime m = true -> prime m) ->
  forall fuel n arg rows, listmnt isprime nextprime fuel n arg = Ok rows -> forall D qb rb, In (D, qb, rb) rows ->
  start 7 arg <= D <= 1000000000 /\ (D mod 4 = 3 \/ D mod 4 = 0) /\
  exists q N r, prime q /\ prime r /\ (r | N) /\ cm_equation q N D /\ (r | Phi6 q) /\ bits q qb /\ bits r rb.
Proof. exact listmnt_sound. Qed.
Print Assumptions listmnt_lines_true.
(** No discriminant is skipped: every curve that the search for an allowed D
    reports to its callback has its line, and there are no others. *)
Theorem listmnt_lines_exact : forall isprime nextprime fuel n arg rows, listmnt isprime nextprime fuel n arg = Ok rows ->
  7 <= start 7 arg /\ start 7 arg mod 4 = 3 /\
  forall row, In row rows <-> exists D, start 7 arg <= D <= 1000000000 /\ (D mod 4 = 3 \/ D mod 4 = 0) /\
    exists hist r c, cm_search_d isprime nextprime (fun _ _ => 0) n D 500 = Ok (hist, r) /\ In c hist /\ row = line D c.
Proof. exact listmnt_in. Qed.
Print Assumptions listmnt_lines_exact.
(** The table ends, with no undefined behaviour, from every start allowed. *)
Theorem listmnt_ends : forall isprime nextprime, (forall p, p < nextprime p) ->
  forall arg, 7 <= start 7 arg -> start 7 arg mod 4 = 3 ->
  exists fuel n0, forall n, (n0 <= n)%nat -> exists rows, listmnt isprime nextprime fuel n arg = Ok rows.
Proof. exact listmnt_total. Qed.
Print Assumptions listmnt_ends.
Example listmnt_instance : (forall m, ip53 m = true -> prime m) /\ (forall p, p < nextprime p) /\ 7 <= start 7 None /\ start 7 None mod 4 = 3 /\
  forall fuel rows, listmnt ip53 nextprime fuel 500 None = Ok rows -> In (11, 3, 2) rows.
Proof. split; [exact ip53_prime|]. split; [exact nextprime_gt|]. split; [cbn; lia|]. split; [reflexivity|exact table11]. Qed.

(** Freeman curves (embedding degree 10).  Missing, as in [cm_search_g_partial]:
    the CM equation can hold for the other member of the family only; and D
    passes the limit 10^9 of the heading by up to 27. *)
Theorem listfreeman_lines_partial : forall isprime nextprime, (forall m, isprime m = true -> prime m) ->
  forall fuel n arg rows, listfreeman isprime nextprime fuel n arg = Ok rows -> forall D qb rb, In (D, qb, rb) rows ->
  start 0 arg <= D <= 1000000000 + 27 /\ (D mod 120 = 43 \/ D mod 120 = 67) /\
  exists x r V, let q := freeman_q x in let t := freeman_t x in prime q /\ prime r /\ (r | q + 1 - t) /\ (r | Phi10 q) /\
    (4 * q - t ^ 2 = D * V ^ 2 \/ 4 * freeman_q (- x) - freeman_t (- x) ^ 2 = D * V ^ 2) /\ bits q qb /\ bits r rb.
Proof. exact listfreeman_sound. Qed.
Print Assumptions listfreeman_lines_partial.
Theorem listfreeman_lines_exact : forall isprime nextprime fuel n arg rows, listfreeman isprime nextprime fuel n arg = Ok rows ->
  0 <= start 0 arg /\ start 0 arg mod 120 = 0 /\
  forall row, In row rows <-> exists D, start 0 arg <= D <= 1000000000 + 27 /\ (D mod 120 = 43 \/ D mod 120 = 67) /\
    exists hist r c, cm_search_g isprime nextprime (fun _ _ => 0) n D 500 = Ok (hist, r) /\ In c hist /\ row = line D c.
Proof. exact listfreeman_in. Qed.
Print Assumptions listfreeman_lines_exact.
Theorem listfreeman_ends : forall isprime nextprime, (forall p, p < nextprime p) ->
  forall arg, start 0 arg mod 120 = 0 ->
  exists fuel n0, forall n, (n0 <= n)%nat -> exists rows, listfreeman isprime nextprime fuel n arg = Ok rows.
Proof. exact listfreeman_total. Qed.
Print Assumptions listfreeman_ends.
(** The course of the program, with a primality test that accepts 723 and 671. *)
Example listfreeman_instance : (forall p, p < nextprime p) /\ start 0 None mod 120 = 0 /\
  forall fuel rows, listfreeman ip723 nextprime fuel 500 None = Ok rows -> In (43, 10, 10) rows.
Proof. split; [exact nextprime_gt|]. split; [reflexivity|exact table43]. Qed.
