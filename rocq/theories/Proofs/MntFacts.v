(** The search for MNT and Freeman curves. *)
From Coq Require Import ZArith Znumtheory List Bool Lia.
From Verif.Base Require Import Outcome.
From Verif.Model Require Import Mnt.
From Verif.Spec Require Import CMCurves.
From Verif.Proofs Require Import PellFacts.
Import ListNotations.
Open Scope Z_scope.

Lemma perfect_square_spec : forall n, 0 <= n -> (perfect_square n = true <-> square n).
Proof.
  intros n H. unfold perfect_square. destruct (Z.leb_spec 0 n); [|lia]. cbn [andb]. rewrite Z.eqb_eq. split.
  - intros E. exists (Z.sqrt n). auto.
  - intros [s ->]. replace (s * s) with (Z.abs s * Z.abs s) by lia. rewrite Z.sqrt_square by lia. reflexivity.
Qed.

Section S.
Variables (isprime : Z -> bool) (nextprime : Z -> Z).

Lemma strip_ok : forall fuel p c r c' r', strip fuel p c r = Ok (c', r') -> c' * r' = c * r.
Proof.
  induction fuel as [|k IH]; intros p c r c' r' H; [discriminate|]. cbn [strip] in H. destruct (Z.rem r p =? 0).
  - destruct (divexact r p) as [x| | |] eqn:E; try discriminate. cbn [bind] in H. apply divexact_ok in E. apply IH in H. rewrite H. destruct E as [_ ->]. ring.
  - injection H as <- <-. reflexivity.
Qed.
Lemma trial_ok : forall fuel p c r c' r', trial isprime nextprime fuel p c r = Ok (Some (c', r')) -> c' * r' = c * r /\ isprime r' = true.
Proof.
  induction fuel as [|k IH]; intros p c r c' r' H; [discriminate|]. cbn [trial] in H.
  destruct (strip (S k) p c r) as [[c1 r1]| | |] eqn:E; try discriminate. cbn [bind] in H. apply strip_ok in E.
  destruct (isprime r1) eqn:P. { injection H as <- <-. auto. }
  destruct (16 <? sizeinbase2 (nextprime p)); [discriminate|]. apply IH in H. destruct H as [H H']. split; auto. congruence.
Qed.
Lemma split_ok : forall fuel n c r, split_order isprime nextprime fuel n = Ok (Some (c, r)) -> n = c * r /\ isprime r = true.
Proof.
  intros fuel n c r H. unfold split_order in H. destruct (isprime n) eqn:P. { injection H as <- <-. split; auto. lia. }
  apply trial_ok in H. destruct H as [H H']. split; auto. lia.
Qed.

Definition common (D : Z) (c : cm) : Prop :=
  order_splits (cm_n c) (cm_h c) (cm_r c) /\ isprime (cm_q c) = true /\ isprime (cm_r c) = true /\ cm_D c = D.
Definition mnt_good (D : Z) (c : cm) : Prop :=
  common D c /\ cm_k c = 6 /\ cm_equation (cm_q c) (cm_n c) D /\ (cm_r c | Phi6 (cm_q c)).
Definition freeman_good (D : Z) (c : cm) : Prop :=
  common D c /\ cm_k c = 10 /\ (cm_r c | Phi10 (cm_q c)) /\
  exists x V, cm_q c = freeman_q x /\ cm_n c = freeman_q x + 1 - freeman_t x /\
    ((4 * freeman_q x - freeman_t x ^ 2 = D * V ^ 2) \/ (4 * freeman_q (- x) - freeman_t (- x) ^ 2 = D * V ^ 2)).

Lemma mnt_step_ok : forall fuel D x y c, pell_eq (D * 3) (-8) x y -> mnt_step2 isprime nextprime fuel D x = Ok (Some c) -> mnt_good D c.
Proof.
  intros fuel D x y c HP H. unfold mnt_step2 in H.
  destruct ((x mod 6 =? 1) || (x mod 6 =? 5)) eqn:M; [|discriminate].
  set (d := if x mod 6 =? 1 then 1 else -1) in *. assert (d = 1 \/ d = -1) as Hd by (unfold d; destruct (x mod 6 =? 1); auto). clearbody d.
  destruct (divexact (x - d) 3) as [l| | |] eqn:E; try discriminate. cbn [bind] in H. apply divexact_ok in E. destruct E as [_ E].
  destruct (isprime (l * l + 1)) eqn:P; [|discriminate].
  assert ((if d <? 0 then l * l + 1 - l else l * l + 1 + l) = l * l + 1 + d * l) as EN by (destruct Hd as [-> | ->]; cbn -[Z.add Z.mul Z.sub]; lia).
  rewrite EN in H. clear EN. set (n := l * l + 1 + d * l) in *.
  destruct (split_order isprime nextprime fuel n) as [[[cc r]|]| | |] eqn:S; try discriminate. cbn [bind] in H. injection H as <-.
  apply split_ok in S. destruct S as [S1 S2]. unfold mnt_good, common. cbn [cm_q cm_n cm_h cm_r cm_k cm_D].
  split; [repeat split; auto|]. split; [reflexivity|]. unfold pell_eq in HP. assert (x = 3 * l + d) as -> by lia.
  assert (d * d = 1) as DD by (destruct Hd as [-> | ->]; reflexivity). split.
  - exists y. unfold n.
    assert (3 * (D * y ^ 2) = 3 * (4 * (l * l + 1) - (l * l + 1 + 1 - (l * l + 1 + d * l)) ^ 2)) as X; [|lia].
    transitivity ((3 * l + d) * (3 * l + d) + 8); [lia|].
    transitivity (9 * (l * l) + 6 * (d * l) + d * d + 8); [ring|].
    transitivity (12 * (l * l) + 12 - 3 * (1 - 2 * (d * l) + (d * d) * (l * l))); [rewrite DD; ring|ring].
  - exists ((l * l + 1 - d * l) * cc). unfold Phi6. rewrite <- Z.mul_assoc, <- S1. unfold n.
    transitivity ((l * l + 1) * (l * l + 1) - (d * d) * (l * l)); [rewrite DD; ring|ring].
Qed.

Lemma freeman_step_ok : forall fuel D x y c, pell_eq (D * 15) (-20) x y -> freeman_step2 isprime nextprime fuel D x = Ok (Some c) -> freeman_good D c.
Proof.
  intros fuel D x y c HP H. unfold freeman_step2 in H.
  destruct ((x mod 15 =? 5) || (x mod 15 =? 10)) eqn:M; [|discriminate].
  destruct (divexact (if x mod 15 =? 5 then x - 5 else x + 5) 15) as [u| | |] eqn:E; try discriminate. cbn [bind] in H.
  assert (x = 15 * u + 5 \/ x = 15 * - (- u) - 5) as Ex by (apply divexact_ok in E; destruct (x mod 15 =? 5); lia). clear E M.
  set (q := (u + u + 5 * (u * u) + 5 * (u * u) * u + 5 * (u * u) * u * u) * 5 + 3) in *.
  assert (q = freeman_q u) as Eq by (unfold q, freeman_q; ring).
  set (n := q - (u * 5 + (u * 5 * u + u * 5 * u)) - 2) in *.
  assert (n = freeman_q u + 1 - freeman_t u) as En by (unfold n; rewrite Eq; unfold freeman_q, freeman_t; ring). clearbody n q.
  destruct (isprime q) eqn:P; [|discriminate].
  destruct (split_order isprime nextprime fuel n) as [[[cc r]|]| | |] eqn:S; try discriminate. cbn [bind] in H. injection H as <-.
  apply split_ok in S. destruct S as [S1 S2]. unfold freeman_good, common. cbn [cm_q cm_n cm_h cm_r cm_k cm_D].
  split; [repeat split; auto|]. split; [reflexivity|]. split.
  - assert (q = n + (10 * u ^ 2 + 5 * u + 2)) as -> by (rewrite En, Eq; unfold freeman_q, freeman_t; ring).
    set (w := 10 * u ^ 2 + 5 * u + 2).
    apply Z.divide_trans with n; [exists cc; exact S1|].
    exists ((n + w) ^ 3 + (n + w) ^ 2 * w + (n + w) * w ^ 2 + w ^ 3 - ((n + w) ^ 2 + (n + w) * w + w ^ 2) + (n + w + w) - 1 + (400 * u ^ 4 + 400 * u ^ 3 + 240 * u ^ 2 + 60 * u + 11)).
    assert (Phi10 w = (400 * u ^ 4 + 400 * u ^ 3 + 240 * u ^ 2 + 60 * u + 11) * n) as Ew.
    { rewrite En. unfold w, Phi10, freeman_q, freeman_t. ring. }
    unfold Phi10 in Ew |- *. clearbody w. clear -Ew.
    transitivity (((n + w) ^ 4 - (n + w) ^ 3 + (n + w) ^ 2 - (n + w) + 1) - (w ^ 4 - w ^ 3 + w ^ 2 - w + 1) + (400 * u ^ 4 + 400 * u ^ 3 + 240 * u ^ 2 + 60 * u + 11) * n); [rewrite <- Ew; ring|ring].
  - exists u, y. split; [exact Eq|]. split; [exact En|]. unfold pell_eq in HP. unfold freeman_q, freeman_t.
    destruct Ex as [-> | ->]; [left|right]; clear -HP.
    + assert (15 * (D * y ^ 2) = 15 * (4 * (25 * u ^ 4 + 25 * u ^ 3 + 25 * u ^ 2 + 10 * u + 3) - (10 * u ^ 2 + 5 * u + 3) ^ 2)) as X; [|lia].
      transitivity ((15 * u + 5) * (15 * u + 5) + 20); [lia|ring].
    + generalize dependent (- u). intros v HP.
      assert (15 * (D * y ^ 2) = 15 * (4 * (25 * v ^ 4 + 25 * v ^ 3 + 25 * v ^ 2 + 10 * v + 3) - (10 * v ^ 2 + 5 * v + 3) ^ 2)) as X; [|lia].
      transitivity ((15 * - v - 5) * (15 * - v - 5) + 20); [lia|ring].
Qed.

(** * Termination of the cofactor search *)
Lemma strip_total : forall fuel p c r, 2 <= p -> 0 < r -> r < Z.of_nat fuel -> exists c' r', strip fuel p c r = Ok (c', r') /\ 0 < r' <= r.
Proof.
  induction fuel as [|k IH]; intros p c r Hp Hr Hf; [lia|]. cbn [strip]. destruct (Z.eqb_spec (Z.rem r p) 0) as [E|E].
  - pose proof (Z.quot_rem' r p) as Q. rewrite E, Z.add_0_r in Q. set (x := Z.quot r p) in *. clearbody x.
    replace r with (x * p) by lia. rewrite divexact_mul by lia. cbn [bind]. assert (0 < x) by nia.
    destruct (IH p (c * p) x Hp) as (c' & r' & E' & B); [lia|nia|]. exists c', r'. split; [exact E'|nia].
  - exists c, r. split; [reflexivity|lia].
Qed.
Hypothesis Hnext : forall p, p < nextprime p.
Lemma trial_total : forall fuel p c r, 2 <= p < 65536 -> 0 < r -> r + 65536 - p + 1 < Z.of_nat fuel -> exists o, trial isprime nextprime fuel p c r = Ok o.
Proof.
  induction fuel as [|k IH]; intros p c r Hp Hr Hf; [lia|]. cbn [trial].
  destruct (strip_total (S k) p c r) as (c' & r' & -> & B); [lia|lia|lia|]. cbn [bind].
  destruct (isprime r'); [eexists; reflexivity|]. pose proof (Hnext p) as Np. destruct (Z.ltb_spec 16 (sizeinbase2 (nextprime p))) as [L|L]; [eexists; reflexivity|].
  apply IH; [|lia|lia]. split; [lia|]. unfold sizeinbase2 in L. destruct (Z.eqb_spec (nextprime p) 0); [lia|].
  assert (Z.log2 (Z.abs (nextprime p)) < 16) as L2 by lia. rewrite Z.abs_eq in L2 by lia. apply Z.log2_lt_pow2 in L2; [|lia]. exact L2.
Qed.
Lemma split_total : forall fuel n, 0 < n -> n + 65536 < Z.of_nat fuel -> exists o, split_order isprime nextprime fuel n = Ok o.
Proof. intros fuel n Hn Hf. unfold split_order. destruct (isprime n); [eexists; reflexivity|]. apply trial_total; lia. Qed.

Lemma mnt_step_total : forall fuel D x B, 0 < x <= B -> 400 * B ^ 4 + 70000 < Z.of_nat fuel -> exists o, mnt_step2 isprime nextprime fuel D x = Ok o.
Proof.
  intros fuel D x B Hx Hf. unfold mnt_step2. destruct ((x mod 6 =? 1) || (x mod 6 =? 5)) eqn:M; [|eexists; reflexivity].
  pose proof (Z.div_mod x 6 ltac:(lia)) as E.
  assert (exists l, x - (if x mod 6 =? 1 then 1 else -1) = l * 3 /\ - B <= l <= B) as (l & El & Bl).
  { destruct (Z.eqb_spec (x mod 6) 1) as [M1|M1]. { exists (2 * (x / 6)). lia. }
    destruct (Z.eqb_spec (x mod 6) 5) as [M5|M5]; [|discriminate]. exists (2 * (x / 6) + 2). lia. }
  rewrite El, divexact_mul by lia. cbn [bind]. destruct (isprime (l * l + 1)); [|eexists; reflexivity].
  set (d := if x mod 6 =? 1 then 1 else -1) in *. assert (d = 1 \/ d = -1) as Hd by (unfold d; destruct (x mod 6 =? 1); auto). clearbody d.
  assert (B ^ 4 = (B * B) * (B * B)) as E4 by ring. assert (l * l <= B * B) by nia. assert (1 <= B * B) by nia.
  destruct (split_total fuel (if d <? 0 then l * l + 1 - l else l * l + 1 + l)) as [[[cc r]|] ->].
  - destruct (d <? 0); nia.
  - destruct (d <? 0); nia.
  - eexists; reflexivity.
  - eexists; reflexivity.
Qed.

Lemma freeman_step_total : forall fuel D x y B, pell_eq (D * 15) (-20) x y -> 0 < x <= B -> 400 * B ^ 4 + 70000 < Z.of_nat fuel ->
  exists o, freeman_step2 isprime nextprime fuel D x = Ok o.
Proof.
  intros fuel D x y B HP Hx Hf. unfold freeman_step2.
  pose proof (Z.div_mod x 15 ltac:(lia)) as E. pose proof (Z.mod_pos_bound x 15 ltac:(lia)) as MB. set (m := x mod 15) in *. set (k := x / 15) in *. clearbody m k.
  assert (m = 5 \/ m = 10) as Hm.
  { unfold pell_eq in HP. assert ((m * m - 10) mod 15 = 0) as Z0.
    { replace (m * m - 10) with ((D * (y * y) - 15 * (k * k) - 2 * k * m - 2) * 15) by (subst x; nia). apply Z.mod_mul. lia. }
    assert (m = 0 \/ m = 1 \/ m = 2 \/ m = 3 \/ m = 4 \/ m = 5 \/ m = 6 \/ m = 7 \/ m = 8 \/ m = 9 \/ m = 10 \/ m = 11 \/ m = 12 \/ m = 13 \/ m = 14) as C by lia.
    repeat (destruct C as [-> |C]; [vm_compute in Z0; auto; discriminate|]). subst m. vm_compute in Z0. discriminate. }
  destruct ((m =? 5) || (m =? 10)) eqn:M; [|lia].
  assert (exists u, (if m =? 5 then x - 5 else x + 5) = u * 15 /\ 0 <= u <= B) as (u & Eu & Bu).
  { destruct (Z.eqb_spec m 5). { exists k. lia. } exists (k + 1). lia. }
  rewrite Eu, divexact_mul by lia. cbn [bind].
  set (q := (u + u + 5 * (u * u) + 5 * (u * u) * u + 5 * (u * u) * u * u) * 5 + 3) in *.
  assert (q = freeman_q u) as Eq by (unfold q, freeman_q; ring).
  set (n := q - (u * 5 + (u * 5 * u + u * 5 * u)) - 2) in *.
  assert (n = 25 * u ^ 4 + 25 * u ^ 3 + 15 * u ^ 2 + 5 * u + 1) as En by (unfold n; rewrite Eq; unfold freeman_q; ring). clearbody n q.
  assert (0 <= u ^ 2 /\ 0 <= u ^ 3 /\ 0 <= u ^ 4) as (U2 & U3 & U4) by (repeat split; apply Z.pow_nonneg; lia).
  assert (u ^ 2 <= u ^ 4 + 1 /\ u ^ 3 <= u ^ 4 + 1 /\ u <= u ^ 4 + 1) as (V2 & V3 & V1).
  { destruct (Z.eq_dec u 0) as [->|]; [cbn; lia|]. assert (1 <= u) by lia.
    split; [|split]; [assert (u ^ 2 <= u ^ 4) by (apply Z.pow_le_mono_r; lia); lia|assert (u ^ 3 <= u ^ 4) by (apply Z.pow_le_mono_r; lia); lia|].
    assert (u ^ 1 <= u ^ 4) by (apply Z.pow_le_mono_r; lia). lia. }
  assert (u ^ 4 <= B ^ 4) as UB4 by (apply Z.pow_le_mono_l; lia).
  destruct (isprime q); [|eexists; reflexivity].
  destruct (split_total fuel n) as [[[cc r]|] ->]; try lia; eexists; reflexivity.
Qed.
End S.

(** * The search *)
Section Search.
Variables (callback : list cm -> cm -> Z) (step2 : nat -> Z -> Z -> res (option cm)).
Variables (D DD N : Z) (G : cm -> Prop).
Hypothesis step_ok : forall fuel x y c, pell_eq DD N x y -> step2 fuel D x = Ok (Some c) -> G c.

Definition sol (xy : Z * Z) : Prop := pell_eq DD N (fst xy) (snd xy) /\ 0 < fst xy /\ 0 < snd xy.

Lemma sol_next : forall tx ty x y, 0 < DD -> pell_eq DD 1 tx ty -> 0 < tx -> 0 < ty -> sol (x, y) -> sol (tx * x + ty * y * DD, tx * y + ty * x).
Proof.
  intros tx ty x y HD U Hx Hy (P & X & Y). cbn [fst snd] in *. split; cbn [fst snd].
  - unfold pell_eq in *. transitivity ((tx * tx - DD * (ty * ty)) * (x * x - DD * (y * y))); [ring|]. rewrite U, P. ring.
  - assert (0 < tx * x) by (apply Z.mul_pos_pos; lia). assert (0 < tx * y) by (apply Z.mul_pos_pos; lia).
    assert (0 < ty * x) by (apply Z.mul_pos_pos; lia). assert (0 < ty * y * DD) by (repeat apply Z.mul_pos_pos; lia). lia.
Qed.

Section Unit.
Variables (tx ty : Z).
Hypothesis HD : 0 < DD.
Hypothesis HU : pell_eq DD 1 tx ty.
Hypothesis Htx : 0 < tx.
Hypothesis Hty : 0 < ty.

Lemma pass_ok : forall fuel lim ps hist hist' e, Forall sol ps -> Forall G hist ->
  pass callback step2 fuel D DD lim tx ty ps hist = Ok (hist', e) ->
  Forall G hist' /\ match e with inl _ => True | inr ps' => Forall sol ps' end.
Proof.
  intros fuel lim. induction ps as [|[x y] ps IH]; intros hist hist' e Hs Hh H; cbn [pass] in H. { injection H as <- <-. auto. }
  inversion Hs as [|? ? S1 S2]; subst. destruct (step2 fuel D x) as [o| | |] eqn:E; try discriminate. cbn [bind] in H.
  assert (exists h r, (match o with None => (hist, 0) | Some c => (hist ++ [c], callback hist c) end) = (h, r) /\ Forall G h) as (h & r & Er & Hh').
  { destruct o as [c|]; eexists; eexists; (split; [reflexivity|]); auto. apply Forall_app. split; auto. constructor; auto. apply (step_ok fuel x y); auto. apply S1. }
  rewrite Er in H. destruct (negb (r =? 0)). { injection H as <- <-. auto. }
  destruct (2 * sizeinbase2 (tx * x + ty * y * DD) >? (lim + 10) mod 2 ^ 32). { injection H as <- <-. auto. }
  destruct (pass callback step2 fuel D DD lim tx ty ps h) as [[h2 e2]| | |] eqn:E2; try discriminate. cbn [bind] in H.
  destruct (IH h h2 e2 S2 Hh' E2) as [A B]. destruct e2 as [r2|l]; injection H as <- <-; split; auto. constructor; auto. apply sol_next; auto.
Qed.
Lemma loop_ok : forall fuel n lim ps hist hist' r, Forall sol ps -> Forall G hist ->
  search_loop callback step2 fuel n D DD lim tx ty ps hist = Ok (hist', r) -> Forall G hist'.
Proof.
  intros fuel. induction n as [|k IH]; intros lim ps hist hist' r Hs Hh H; [discriminate|]. cbn [search_loop] in H.
  destruct (pass callback step2 fuel D DD lim tx ty ps hist) as [[h e]| | |] eqn:E; try discriminate. cbn [bind] in H.
  destruct (pass_ok _ _ _ _ _ _ Hs Hh E) as [A B]. destruct e as [r'|l]. { injection H as <- <-. exact A. } eapply IH; eauto.
Qed.

(** termination: the solutions at least double *)
Variables (fuel : nat) (B L : Z).
Hypothesis step_total : forall x y, pell_eq DD N x y -> 0 < x <= B -> exists o, step2 fuel D x = Ok o.
Hypothesis HL : 0 <= L.
Hypothesis HB : 2 ^ L <= B.
Variable lim : Z.
Hypothesis Hlim : (lim + 10) mod 2 ^ 32 < 2 * L.

Lemma tx2 : 2 <= tx.
Proof. unfold pell_eq in HU. assert (0 < DD * (ty * ty)) by (apply Z.mul_pos_pos; nia). nia. Qed.

Lemma pass_total : forall j ps hist, Forall (fun xy => sol xy /\ 2 ^ j <= fst xy <= B) ps -> 0 <= j ->
  exists h e, pass callback step2 fuel D DD lim tx ty ps hist = Ok (h, e) /\
    match e with inl _ => True | inr ps' => Forall (fun xy => sol xy /\ 2 ^ (j + 1) <= fst xy <= B /\ fst xy < 2 ^ L) ps' /\ length ps' = length ps end.
Proof.
  intros j. induction ps as [|[x y] ps IH]; intros hist H Hj; cbn [pass]. { exists hist, (inr []). auto. }
  inversion H as [|? ? [S1 [S2 S3]] H']; subst. cbn [fst] in *. destruct (step_total x y) as [o ->]; [apply S1|split; [apply S1|exact S3]|]. cbn [bind].
  destruct (match o with None => (hist, 0) | Some c => (hist ++ [c], callback hist c) end) as [h r].
  destruct (negb (r =? 0)); [eexists; eexists; split; [reflexivity|exact I]|].
  pose proof (sol_next tx ty x y HD HU Htx Hty S1) as S'. set (t0 := tx * x + ty * y * DD) in *.
  assert (2 * x <= t0) as T2.
  { unfold t0. pose proof tx2. destruct S1 as (_ & X & Y). cbn [fst snd] in *. assert (0 < ty * y * DD) by (repeat apply Z.mul_pos_pos; lia). nia. }
  destruct (2 * sizeinbase2 t0 >? (lim + 10) mod 2 ^ 32) eqn:Q; [eexists; eexists; split; [reflexivity|exact I]|].
  rewrite Z.gtb_ltb in Q. apply Z.ltb_ge in Q.
  assert (0 < t0) as P0 by (destruct S1 as (_ & X & _); cbn [fst] in X; lia).
  assert (t0 < 2 ^ L) as T3.
  { unfold sizeinbase2 in Q. destruct (Z.eqb_spec t0 0); [lia|]. rewrite Z.abs_eq in Q by lia. apply Z.log2_lt_pow2; [exact P0|].
    set (M := (lim + 10) mod 2 ^ 32) in *. clearbody M. lia. }
  destruct (IH h H' Hj) as (h2 & e2 & E2 & P2). rewrite E2. cbn [bind]. destruct e2 as [r2|l]; [eexists; eexists; split; [reflexivity|exact I]|].
  eexists. eexists. split; [reflexivity|]. destruct P2 as [P2 P3]. split; [|cbn [length]; lia]. constructor; auto. cbn [fst]. split; [exact S'|]. split; [|exact T3].
  rewrite Z.pow_add_r by lia. change (2 ^ 1) with 2. lia.
Qed.
Lemma loop_total : forall n j ps hist, Forall (fun xy => sol xy /\ 2 ^ j <= fst xy <= B) ps -> ps <> [] -> 0 <= j -> (0 < n)%nat -> L - j < Z.of_nat n ->
  exists r, search_loop callback step2 fuel n D DD lim tx ty ps hist = Ok r.
Proof.
  induction n as [|k IH]; intros j ps hist H Hne Hj Hn Hf; [lia|]. cbn [search_loop].
  destruct (pass_total j ps hist H Hj) as (h & e & -> & P). cbn [bind]. destruct e as [r|l]; [eexists; reflexivity|]. destruct P as [P1 P2].
  destruct ps as [|s ps]; [congruence|]. destruct l as [|s' l]; [discriminate|].
  assert (j + 1 < L) as JL.
  { inversion P1 as [|? ? (_ & (A & _) & A') _]; subst. assert (2 ^ (j + 1) < 2 ^ L) as X by lia. apply Z.pow_lt_mono_r_iff in X; lia. }
  apply (IH (j + 1)); try discriminate; try lia.
  eapply Forall_impl; [|exact P1]. intros a (A1 & A2 & _). auto.
Qed.
End Unit.

Lemma search_sound : forall fuel lim hist r, 0 <= DD -> cm_search callback step2 fuel D DD N lim = Ok (hist, r) -> Forall G hist.
Proof.
  intros fuel lim hist r HD H. unfold cm_search in H. destruct (perfect_square DD) eqn:Q. { injection H as <- <-. constructor. }
  assert (~ square DD) as NS. { intros X. apply perfect_square_spec in X; [congruence|exact HD]. }
  assert (0 < DD) as P. { destruct (Z.eq_dec DD 0) as [E|]; [|lia]. exfalso. apply NS. exists 0. lia. }
  destruct (general_pell fuel DD N) as [ps| | |] eqn:E; try discriminate. cbn [bind] in H.
  apply pell_sound in E; auto. destruct E as (S1 & U & X & Y).
  destruct (sols ps) as [|s l] eqn:El. { injection H as <- <-. constructor. }
  eapply loop_ok; [exact P|exact U|exact X|exact Y| | |exact H]; auto.
Qed.
End Search.

Lemma search_total : forall callback step2 D DD N lim, 0 <= DD ->
  (forall B, exists fuel0, forall fuel, (fuel0 <= fuel)%nat -> forall x y, pell_eq DD N x y -> 0 < x <= B -> exists o, step2 fuel D x = Ok o) ->
  exists fuel0, forall fuel, (fuel0 <= fuel)%nat -> exists r, cm_search callback step2 fuel D DD N lim = Ok r.
Proof.
  intros callback step2 D DD N lim HD Hst. unfold cm_search. destruct (perfect_square DD) eqn:Q. { exists 0%nat. intros. eexists; reflexivity. }
  assert (~ square DD) as NS. { intros X. apply perfect_square_spec in X; [congruence|exact HD]. }
  assert (0 < DD) as P. { destruct (Z.eq_dec DD 0) as [E|]; [|lia]. exfalso. apply NS. exists 0. lia. }
  destruct (pell_total DD N P NS) as [f1 T1].
  assert (exists L, 0 <= L /\ (lim + 10) mod 2 ^ 32 < 2 * L) as (L & HL & HLim).
  { exists ((lim + 10) mod 2 ^ 32 + 1). pose proof (Z.mod_pos_bound (lim + 10) (2 ^ 32) ltac:(apply Z.pow_pos_nonneg; lia)). lia. }
  (* the solver's answer does not depend on the fuel *)
  assert (forall fuel ps, general_pell fuel DD N = Ok ps -> forall fuel', (fuel <= fuel')%nat -> general_pell fuel' DD N = Ok ps) as Mono.
  { clear. assert (forall k f l, square_factors k f N = Ok l -> forall k', (k <= k')%nat -> square_factors k' f N = Ok l) as M1.
    { induction k as [|k IH]; intros f l H k' Hk; [discriminate|]. destruct k' as [|k']; [lia|]. cbn [square_factors] in *.
      destruct (f * f >? Z.abs N); auto. destruct (square_factors k (f + 1) N) as [x| | |] eqn:E; try discriminate. rewrite (IH _ _ E k') by lia. exact H. }
    assert (forall k a0 lf s acc ps, pell_loop k a0 DD N lf s acc = Ok ps -> forall k', (k <= k')%nat -> pell_loop k' a0 DD N lf s acc = Ok ps) as M2.
    { induction k as [|k IH]; intros a0 lf s acc ps H k' Hk; [discriminate|]. destruct k' as [|k']; [lia|]. cbn [pell_loop] in *.
      destruct ((2 * a0 =? ca s) && (cd s =? 1)); auto. destruct (cf_next a0 DD s) as [s'| | |]; try discriminate. cbn [bind] in *. apply (IH _ _ _ _ _ H). lia. }
    intros fuel ps H fuel' Hf. unfold general_pell in *. destruct (square_factors fuel 1 N) as [lf| | |] eqn:E; try discriminate. rewrite (M1 _ _ _ E fuel') by exact Hf.
    cbn [bind] in *. destruct (mpz_sqrt DD) as [a0| | |]; try discriminate. cbn [bind] in *. destruct (cf_start a0 DD) as [s| | |]; try discriminate. cbn [bind] in *.
    apply (M2 _ _ _ _ _ _ H). exact Hf. }
  destruct (T1 f1 (Nat.le_refl _)) as [ps E1].
  pose proof (pell_sound _ _ _ _ P NS E1) as (S1 & U & X & Y).
  assert (exists B, 2 ^ L <= B /\ Forall (fun xy => fst xy <= B) (sols ps)) as (B & HB & HB').
  { clear -HL. induction (sols ps) as [|[x y] l (B & B1 & B2)]. { exists (2 ^ L). split; [lia|constructor]. }
    exists (Z.max B x). split; [lia|]. constructor; [cbn; lia|]. eapply Forall_impl; [|exact B2]. cbn. intros. lia. }
  destruct (Hst B) as [f2 T2]. exists (f1 + f2 + S (Z.to_nat L))%nat. intros fuel Hf.
  rewrite (Mono _ _ E1 fuel) by lia. cbn [bind]. destruct (sols ps) as [|s l] eqn:El; [eexists; reflexivity|].
  apply (loop_total callback step2 D DD N (minx ps) (miny ps) P U X Y fuel B L) with (j := 0); try discriminate; try lia; auto.
  - intros x y. apply T2. lia.
  - rewrite Forall_forall in *. intros a Ha. specialize (S1 a Ha). specialize (HB' a Ha). split; [exact S1|]. cbn. destruct S1 as (_ & A & _). lia.
Qed.
