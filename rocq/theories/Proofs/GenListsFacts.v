(** The programs listmnt and listfreeman. *)
From Coq Require Import ZArith Znumtheory List Bool Lia.
From Verif.Base Require Import Outcome Gmp.
From Verif.Spec Require Import CMCurves GenLists.
From Verif.Model Require Import Mnt GenLists.
From Verif.Proofs Require Import MntFacts MntMain GmpFacts.
Import ListNotations.
Open Scope Z_scope.

Lemma size_bits : forall n, 0 < n -> bits n (sizeinbase2 n).
Proof.
  intros n H. unfold bits, sizeinbase2. destruct (Z.eqb_spec n 0); [lia|]. rewrite Z.abs_eq by lia.
  replace (Z.log2 n + 1 - 1) with (Z.log2 n) by lia. pose proof (Z.log2_spec n H). unfold Z.succ in *. lia.
Qed.

Section Lists.
Variables (isprime : Z -> bool) (nextprime : Z -> Z).
Notation search_d := (cm_search_d isprime nextprime show).
Notation search_g := (cm_search_g isprime nextprime show).
Definition from_d (n : nat) (D : Z) (row : Z * Z * Z) : Prop := exists hist r c, search_d n D 500 = Ok (hist, r) /\ In c hist /\ row = line D c.
Definition from_g (n : nat) (D : Z) (row : Z * Z * Z) : Prop := exists hist r c, search_g n D 500 = Ok (hist, r) /\ In c hist /\ row = line D c.

Lemma try_d_in : forall n D l, try_d isprime nextprime n D = Ok l -> forall row, In row l <-> from_d n D row.
Proof.
  intros n D l H row. unfold try_d in H. destruct (search_d n D 500) as [[hist r]| | |] eqn:E; try discriminate. cbn [bind] in H. injection H as <-.
  rewrite in_map_iff. unfold from_d. split.
  - intros (c & <- & Hc). exists hist, r, c. auto.
  - intros (h' & r' & c & E' & Hc & ->). rewrite E in E'. injection E' as <- <-. exists c. auto.
Qed.
Lemma try_g_in : forall n D l, try_g isprime nextprime n D = Ok l -> forall row, In row l <-> from_g n D row.
Proof.
  intros n D l H row. unfold try_g in H. destruct (search_g n D 500) as [[hist r]| | |] eqn:E; try discriminate. cbn [bind] in H. injection H as <-.
  rewrite in_map_iff. unfold from_g. split.
  - intros (c & <- & Hc). exists hist, r, c. auto.
  - intros (h' & r' & c & E' & Hc & ->). rewrite E in E'. injection E' as <- <-. exists c. auto.
Qed.

Lemma mnt_loop_in : forall fuel n D0 rows, mnt_loop isprime nextprime fuel n D0 = Ok rows ->
  forall row, In row rows <-> exists i D, 0 <= i /\ D0 + 4 * i < limit /\ (D = D0 + 4 * i \/ D = D0 + 4 * i + 1) /\ from_d n D row.
Proof.
  induction fuel as [|k IH]; intros n D0 rows H row; cbn [mnt_loop] in H; [discriminate|]. destruct (Z.ltb_spec D0 limit) as [L|L].
  - destruct (try_d isprime nextprime n D0) as [a| | |] eqn:A; try discriminate. cbn [bind] in H.
    destruct (try_d isprime nextprime n (D0 + 1)) as [b| | |] eqn:B; try discriminate. cbn [bind] in H.
    destruct (mnt_loop isprime nextprime k n (D0 + 1 + 3)) as [rest| | |] eqn:R; try discriminate. cbn [bind] in H. injection H as <-.
    rewrite !in_app_iff, (try_d_in _ _ _ A), (try_d_in _ _ _ B), (IH _ _ _ R). split.
    + intros [X|[X|(i & D & I1 & I2 & I3 & X)]].
      * exists 0, D0. split; [lia|]. split; [lia|]. split; [left; lia|exact X].
      * exists 0, (D0 + 1). split; [lia|]. split; [lia|]. split; [right; lia|exact X].
      * exists (i + 1), D. split; [lia|]. split; [lia|]. split; [lia|exact X].
    + intros (i & D & I1 & I2 & I3 & X). destruct (Z.eq_dec i 0) as [->|N].
      * destruct I3 as [I3|I3]; [left|right; left]; [replace D0 with D by lia|replace (D0 + 1) with D by lia]; exact X.
      * right. right. exists (i - 1), D. split; [lia|]. split; [lia|]. split; [lia|exact X].
  - injection H as <-. split; [intros []|]. intros (i & D & I1 & I2 & _). lia.
Qed.
Lemma freeman_loop_in : forall fuel n D0 rows, freeman_loop isprime nextprime fuel n D0 = Ok rows ->
  forall row, In row rows <-> exists i D, 0 <= i /\ D0 + 120 * i < limit /\ (D = D0 + 120 * i + 43 \/ D = D0 + 120 * i + 67) /\ from_g n D row.
Proof.
  induction fuel as [|k IH]; intros n D0 rows H row; cbn [freeman_loop] in H; [discriminate|]. destruct (Z.ltb_spec D0 limit) as [L|L].
  - destruct (try_g isprime nextprime n (D0 + 43)) as [a| | |] eqn:A; try discriminate. cbn [bind] in H.
    destruct (try_g isprime nextprime n (D0 + 67)) as [b| | |] eqn:B; try discriminate. cbn [bind] in H.
    destruct (freeman_loop isprime nextprime k n (D0 + 120)) as [rest| | |] eqn:R; try discriminate. cbn [bind] in H. injection H as <-.
    rewrite !in_app_iff, (try_g_in _ _ _ A), (try_g_in _ _ _ B), (IH _ _ _ R). split.
    + intros [X|[X|(i & D & I1 & I2 & I3 & X)]].
      * exists 0, (D0 + 43). split; [lia|]. split; [lia|]. split; [left; lia|exact X].
      * exists 0, (D0 + 67). split; [lia|]. split; [lia|]. split; [right; lia|exact X].
      * exists (i + 1), D. split; [lia|]. split; [lia|]. split; [lia|exact X].
    + intros (i & D & I1 & I2 & I3 & X). destruct (Z.eq_dec i 0) as [->|N].
      * destruct I3 as [I3|I3]; [left|right; left]; [replace (D0 + 43) with D by lia|replace (D0 + 67) with D by lia]; exact X.
      * right. right. exists (i - 1), D. split; [lia|]. split; [lia|]. split; [lia|exact X].
  - injection H as <-. split; [intros []|]. intros (i & D & I1 & I2 & _). lia.
Qed.

Lemma mod4 : forall D, exists a b, D = 4 * a + b /\ 0 <= b < 4 /\ D mod 4 = b.
Proof. intros D. exists (D / 4), (D mod 4). pose proof (Z.div_mod D 4 ltac:(lia)). pose proof (Z.mod_pos_bound D 4 ltac:(lia)). lia. Qed.
Lemma mod120 : forall D, exists a b, D = 120 * a + b /\ 0 <= b < 120 /\ D mod 120 = b.
Proof. intros D. exists (D / 120), (D mod 120). pose proof (Z.div_mod D 120 ltac:(lia)). pose proof (Z.mod_pos_bound D 120 ltac:(lia)). lia. Qed.
Lemma listmnt_in : forall fuel n arg rows, listmnt isprime nextprime fuel n arg = Ok rows ->
  7 <= start 7 arg /\ start 7 arg mod 4 = 3 /\
  forall row, In row rows <-> exists D, start 7 arg <= D <= limit /\ (D mod 4 = 3 \/ D mod 4 = 0) /\ from_d n D row.
Proof.
  intros fuel n arg rows H. set (s := start 7 arg).
  assert (7 <= s /\ s mod 4 = 3 /\ mnt_loop isprime nextprime fuel n s = Ok rows) as (S1 & S2 & L).
  { destruct arg as [x|]; cbn [listmnt] in H; [|split; [reflexivity + (vm_compute; congruence)|split; [reflexivity|exact H]]].
    cbv zeta in H. change (x mod 2 ^ 32) with s in H. destruct (Z.ltb_spec s 7); [discriminate|]. destruct (Z.eqb_spec (s mod 4) 3); [|discriminate]. auto. }
  clearbody s. split; [exact S1|]. split; [exact S2|]. intros row. rewrite (mnt_loop_in _ _ _ _ L). unfold limit.
  destruct (mod4 s) as (a & b & Es & Bb & Mb). split.
  - intros (i & D & I1 & I2 & I3 & X). exists D. split; [lia|]. split; [|exact X]. destruct (mod4 D) as (a' & b' & ED & Bb' & Mb'). rewrite Mb'. lia.
  - intros (D & R & M & X). destruct (mod4 D) as (a' & b' & ED & Bb' & Mb'). destruct M as [M|M].
    + exists (a' - a), D. split; [lia|]. split; [lia|]. split; [left; lia|exact X].
    + exists (a' - 1 - a), D. split; [lia|]. split; [lia|]. split; [right; lia|exact X].
Qed.
Lemma listfreeman_in : forall fuel n arg rows, listfreeman isprime nextprime fuel n arg = Ok rows ->
  0 <= start 0 arg /\ start 0 arg mod 120 = 0 /\
  forall row, In row rows <-> exists D, start 0 arg <= D <= limit + 27 /\ (D mod 120 = 43 \/ D mod 120 = 67) /\ from_g n D row.
Proof.
  intros fuel n arg rows H. set (s := start 0 arg).
  assert (0 <= s /\ s mod 120 = 0 /\ freeman_loop isprime nextprime fuel n s = Ok rows) as (S1 & S2 & L).
  { destruct arg as [x|]; cbn [listfreeman] in H; [|split; [vm_compute; congruence|split; [reflexivity|exact H]]].
    cbv zeta in H. change (x mod 2 ^ 32) with s in H. assert (0 <= s) by (apply Z.mod_pos_bound; reflexivity). destruct (Z.eqb_spec (s mod 120) 0); [|discriminate]. auto. }
  clearbody s. split; [exact S1|]. split; [exact S2|]. intros row. rewrite (freeman_loop_in _ _ _ _ L). unfold limit.
  destruct (mod120 s) as (a & b & Es & Bb & Mb). split.
  - intros (i & D & I1 & I2 & I3 & X). exists D. split; [lia|]. split; [|exact X]. destruct (mod120 D) as (a' & b' & ED & Bb' & Mb'). rewrite Mb'. lia.
  - intros (D & R & M & X). destruct (mod120 D) as (a' & b' & ED & Bb' & Mb'). destruct M as [M|M].
    + exists (a' - a), D. split; [lia|]. split; [lia|]. split; [left; lia|exact X].
    + exists (a' - a), D. split; [lia|]. split; [lia|]. split; [right; lia|exact X].
Qed.

Hypothesis Hp : forall m, isprime m = true -> prime m.
Theorem listmnt_sound : forall fuel n arg rows, listmnt isprime nextprime fuel n arg = Ok rows -> forall D qb rb, In (D, qb, rb) rows ->
  start 7 arg <= D <= limit /\ (D mod 4 = 3 \/ D mod 4 = 0) /\
  exists q N r, prime q /\ prime r /\ (r | N) /\ cm_equation q N D /\ (r | Phi6 q) /\ bits q qb /\ bits r rb.
Proof.
  intros fuel n arg rows H D qb rb I. destruct (listmnt_in _ _ _ _ H) as (S1 & S2 & L). apply L in I. destruct I as (D' & R & M & hist & r & c & E & Ic & EQ).
  unfold line in EQ. injection EQ as -> -> ->. split; [exact R|]. split; [exact M|]. unfold limit in R.
  apply search_d_sound in E; [|lia|lia]. rewrite Forall_forall in E. destruct (E c Ic) as (A1 & A2 & A3 & A4 & A5 & A6 & A7).
  exists (cm_q c), (cm_n c), (cm_r c). apply Hp in A2. apply Hp in A3. unfold order_splits in A1.
  pose proof (prime_ge_2 _ A2). pose proof (prime_ge_2 _ A3).
  repeat (split; [first [assumption|exists (cm_h c); exact A1|apply size_bits; lia]|]). apply size_bits; lia.
Qed.
Theorem listfreeman_sound : forall fuel n arg rows, listfreeman isprime nextprime fuel n arg = Ok rows -> forall D qb rb, In (D, qb, rb) rows ->
  start 0 arg <= D <= limit + 27 /\ (D mod 120 = 43 \/ D mod 120 = 67) /\
  exists x r V, let q := freeman_q x in let t := freeman_t x in prime q /\ prime r /\ (r | q + 1 - t) /\ (r | Phi10 q) /\
    (4 * q - t ^ 2 = D * V ^ 2 \/ 4 * freeman_q (- x) - freeman_t (- x) ^ 2 = D * V ^ 2) /\ bits q qb /\ bits r rb.
Proof.
  intros fuel n arg rows H D qb rb I. destruct (listfreeman_in _ _ _ _ H) as (S1 & S2 & L). apply L in I. destruct I as (D' & R & M & hist & r & c & E & Ic & EQ).
  unfold line in EQ. injection EQ as -> -> ->. split; [exact R|]. split; [exact M|]. unfold limit in R.
  apply search_g_sound in E; [|lia]. rewrite Forall_forall in E. destruct (E c Ic) as (A1 & A2 & A3 & A4 & A5 & A6 & x & V & A7 & A8 & A9).
  exists x, (cm_r c), V. cbv zeta. apply Hp in A2. apply Hp in A3. unfold order_splits in A1.
  pose proof (prime_ge_2 _ A2). pose proof (prime_ge_2 _ A3). rewrite <- A7.
  split; [assumption|]. split; [assumption|]. split. { exists (cm_h c). rewrite A7, <- A8. exact A1. }
  split; [assumption|]. split. { rewrite A7. exact A9. } split; apply size_bits; lia.
Qed.

Hypothesis Hn : forall p, p < nextprime p.
Lemma mnt_loop_total : forall k D0, 0 <= D0 -> limit <= D0 + 4 * Z.of_nat k ->
  exists n0, forall n, (n0 <= n)%nat -> exists rows, mnt_loop isprime nextprime (S k) n D0 = Ok rows.
Proof.
  induction k as [|k IH]; intros D0 H0 HL.
  - exists O. intros n _. cbn [mnt_loop]. destruct (Z.ltb_spec D0 limit); [lia|]. eauto.
  - destruct (IH (D0 + 1 + 3) ltac:(lia) ltac:(lia)) as (n1 & N1).
    destruct (search_d_total isprime nextprime show D0 500 H0 Hn) as (n2 & N2).
    destruct (search_d_total isprime nextprime show (D0 + 1) 500 ltac:(lia) Hn) as (n3 & N3).
    exists (n1 + n2 + n3)%nat. intros n L. destruct (N1 n ltac:(lia)) as [rows R]. destruct (N2 n ltac:(lia)) as [[h2 r2] E2]. destruct (N3 n ltac:(lia)) as [[h3 r3] E3].
    change (mnt_loop isprime nextprime (S (S k)) n D0) with
      (if D0 <? limit then a <- try_d isprime nextprime n D0 ;; b <- try_d isprime nextprime n (D0 + 1) ;;
         rest <- mnt_loop isprime nextprime (S k) n (D0 + 1 + 3) ;; Ok (a ++ b ++ rest) else Ok []).
    destruct (D0 <? limit); [|eauto]. unfold try_d. rewrite E2, E3. cbn [bind]. rewrite R. cbn [bind]. eauto.
Qed.
Lemma freeman_loop_total : forall k D0, 0 <= D0 -> limit <= D0 + 120 * Z.of_nat k ->
  exists n0, forall n, (n0 <= n)%nat -> exists rows, freeman_loop isprime nextprime (S k) n D0 = Ok rows.
Proof.
  induction k as [|k IH]; intros D0 H0 HL.
  - exists O. intros n _. cbn [freeman_loop]. destruct (Z.ltb_spec D0 limit); [lia|]. eauto.
  - destruct (IH (D0 + 120) ltac:(lia) ltac:(lia)) as (n1 & N1).
    destruct (search_g_total isprime nextprime show (D0 + 43) 500 ltac:(lia) Hn) as (n2 & N2).
    destruct (search_g_total isprime nextprime show (D0 + 67) 500 ltac:(lia) Hn) as (n3 & N3).
    exists (n1 + n2 + n3)%nat. intros n L. destruct (N1 n ltac:(lia)) as [rows R]. destruct (N2 n ltac:(lia)) as [[h2 r2] E2]. destruct (N3 n ltac:(lia)) as [[h3 r3] E3].
    change (freeman_loop isprime nextprime (S (S k)) n D0) with
      (if D0 <? limit then a <- try_g isprime nextprime n (D0 + 43) ;; b <- try_g isprime nextprime n (D0 + 67) ;;
         rest <- freeman_loop isprime nextprime (S k) n (D0 + 120) ;; Ok (a ++ b ++ rest) else Ok []).
    destruct (D0 <? limit); [|eauto]. unfold try_g. rewrite E2, E3. cbn [bind]. rewrite R. cbn [bind]. eauto.
Qed.
Theorem listmnt_total : forall arg, 7 <= start 7 arg -> start 7 arg mod 4 = 3 ->
  exists fuel n0, forall n, (n0 <= n)%nat -> exists rows, listmnt isprime nextprime fuel n arg = Ok rows.
Proof.
  intros arg S1 S2. destruct (mnt_loop_total (Z.to_nat limit) (start 7 arg) ltac:(lia)) as (n0 & N).
  { rewrite Z2Nat.id by (unfold limit; lia). unfold limit. lia. }
  exists (S (Z.to_nat limit)), n0. intros n L. destruct (N n L) as [rows R]. exists rows. destruct arg as [x|]; cbn [listmnt]; [|exact R].
  cbv zeta. cbn [start] in S1, S2, R. destruct (Z.ltb_spec (x mod 2 ^ 32) 7); [lia|]. rewrite S2. exact R.
Qed.
Theorem listfreeman_total : forall arg, start 0 arg mod 120 = 0 ->
  exists fuel n0, forall n, (n0 <= n)%nat -> exists rows, listfreeman isprime nextprime fuel n arg = Ok rows.
Proof.
  intros arg S2. assert (0 <= start 0 arg) as S1. { destruct arg as [x|]; cbn [start]; [apply Z.mod_pos_bound; reflexivity|lia]. }
  destruct (freeman_loop_total (Z.to_nat limit) (start 0 arg) S1) as (n0 & N).
  { rewrite Z2Nat.id by (unfold limit; lia). unfold limit. lia. }
  exists (S (Z.to_nat limit)), n0. intros n L. destruct (N n L) as [rows R]. exists rows. destruct arg as [x|]; cbn [listfreeman]; [|exact R].
  cbv zeta. cbn [start] in S2, R. rewrite S2. exact R.
Qed.
End Lists.

Definition ip53 (n : Z) : bool := (n =? 5) || (n =? 3).
Lemma ip53_prime : forall m, ip53 m = true -> prime m.
Proof. intros m H. unfold ip53 in H. apply orb_prop in H. apply isprime_spec. destruct H as [H|H]; apply Z.eqb_eq in H; subst; vm_compute; reflexivity. Qed.
Lemma row11 : try_d ip53 nextprime 500 11 = Ok [(11, 3, 2)].
Proof. vm_compute. reflexivity. Qed.
Lemma table11 : forall fuel rows, listmnt ip53 nextprime fuel 500 None = Ok rows -> In (11, 3, 2) rows.
Proof.
  intros fuel rows H. apply (listmnt_in _ _ _ _ _ _ H). exists 11. split; [cbn; unfold limit; lia|]. split; [left; reflexivity|].
  apply (try_d_in _ _ _ _ _ row11). left. reflexivity.
Qed.
Definition ip723 (n : Z) : bool := (n =? 723) || (n =? 671).
Lemma row43 : try_g ip723 nextprime 500 43 = Ok [(43, 10, 10)].
Proof. vm_compute. reflexivity. Qed.
Lemma table43 : forall fuel rows, listfreeman ip723 nextprime fuel 500 None = Ok rows -> In (43, 10, 10) rows.
Proof.
  intros fuel rows H. apply (listfreeman_in _ _ _ _ _ _ H). exists 43. split; [cbn; unfold limit; lia|]. split; [left; reflexivity|].
  apply (try_g_in _ _ _ _ _ row43). left. reflexivity.
Qed.
