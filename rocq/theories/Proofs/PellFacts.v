(** The general Pell solver: soundness and termination. *)
From Coq Require Import ZArith List Bool Lia.
From Verif.Base Require Import Outcome.
From Verif.Model Require Import Mnt.
From Verif.Spec Require Import CMCurves.
Import ListNotations.
Open Scope Z_scope.

Lemma quot_div : forall a b, 0 <= a -> 0 < b -> Z.quot a b = a / b.
Proof. intros. apply Z.quot_div_nonneg; lia. Qed.
Lemma divexact_mul : forall a b, b <> 0 -> divexact (a * b) b = Ok a.
Proof.
  intros a b H. unfold divexact. destruct (Z.eqb_spec b 0); [lia|]. rewrite Z.rem_mul by exact H. cbn.
  rewrite Z.quot_mul by exact H. reflexivity.
Qed.
Lemma divexact_ok : forall a b c, divexact a b = Ok c -> b <> 0 /\ a = c * b.
Proof.
  intros a b c H. unfold divexact in H. destruct (Z.eqb_spec b 0); [discriminate|]. destruct (Z.eqb_spec (Z.rem a b) 0) as [R|]; [|discriminate].
  injection H as <-. split; auto. pose proof (Z.quot_rem' a b). lia.
Qed.

(** * The factors f *)
Lemma square_factors_ok : forall fuel f N l, 0 < f -> square_factors fuel f N = Ok l -> Forall (fun f => 0 < f /\ exists m, Z.abs N = m * (f * f)) l.
Proof.
  induction fuel as [|k IH]; intros f N l Hf H; [discriminate|]. cbn [square_factors] in H.
  destruct (f * f >? Z.abs N) eqn:G. { injection H as <-. constructor. }
  destruct (square_factors k (f + 1) N) as [l'| | |] eqn:E; try discriminate. cbn [bind] in H. injection H as <-.
  specialize (IH (f + 1) N l' ltac:(lia) E). destruct (Z.eqb_spec (Z.rem (Z.abs N) (f * f)) 0) as [R|]; auto. constructor; auto. split; auto.
  exists (Z.quot (Z.abs N) (f * f)). pose proof (Z.quot_rem' (Z.abs N) (f * f)). lia.
Qed.
Lemma square_factors_total : forall fuel f N, 0 < f -> (Z.to_nat (Z.abs N + 2 - f) < fuel)%nat -> exists l, square_factors fuel f N = Ok l.
Proof.
  induction fuel as [|k IH]; intros f N Hf H; [lia|]. cbn [square_factors].
  destruct (f * f >? Z.abs N) eqn:G; [eexists; reflexivity|]. rewrite Z.gtb_ltb in G. apply Z.ltb_ge in G.
  destruct (IH (f + 1) N ltac:(lia)) as [l ->]; [nia|]. eexists; reflexivity.
Qed.

Section Pell.
Variables (a0 D : Z).
Hypothesis Ha : 0 < a0.
Hypothesis Hlo : a0 * a0 < D.
Hypothesis Hhi : D < (a0 + 1) * (a0 + 1).

(** reduced (P, Q) *)
Definition reduced (P Q : Z) : Prop := 0 < P <= a0 /\ 0 < Q /\ a0 < P + Q /\ Q <= a0 + P /\ exists R, 0 < R /\ R * Q = D - P * P.
Definition nextP (P Q : Z) : Z := (a0 + P) / Q * Q - P.
Definition nextQ (P Q : Z) : Z := (D - nextP P Q * nextP P Q) / Q.

Lemma reduced_step : forall P Q, reduced P Q -> reduced (nextP P Q) (nextQ P Q) /\ nextQ P Q * Q = D - nextP P Q * nextP P Q /\
  1 <= (a0 + P) / Q /\ a0 - nextP P Q < Q.
Proof.
  intros P Q (HP & HQ & H1 & H2 & R & HR & HRQ). unfold nextQ.
  pose proof (Z.div_mod (a0 + P) Q ltac:(lia)) as E. pose proof (Z.mod_pos_bound (a0 + P) Q HQ) as B.
  set (a := (a0 + P) / Q) in *. assert (1 <= a) as A1 by (apply Z.div_le_lower_bound; lia).
  unfold nextP. fold a. set (P' := a * Q - P).
  assert (P' <= a0) as U by (unfold P'; nia). assert (a0 - P' < Q) as L by (unfold P'; nia).
  assert (0 < P') as Pos by (destruct (Z_le_gt_dec Q a0); [lia|unfold P'; nia]).
  assert (D - P' * P' = (R - a * (a * Q - P) + a * P) * Q) as DV by (unfold P'; nia).
  rewrite DV, Z.div_mul by lia. set (Q' := R - a * (a * Q - P) + a * P) in *.
  assert (a0 + P' >= Q) as S by (unfold P'; nia).
  assert (0 < Q' * Q) as QQ by nia. assert (0 < Q') as Q'pos by nia.
  assert (a0 < P' + Q') as C1.
  { assert ((a0 - P') * (a0 + P') < Q' * Q) by nia. destruct (Z_lt_le_dec (a0 - P') Q'); [lia|]. exfalso.
    assert (Q' * Q <= (a0 - P') * Q) by nia. nia. }
  assert (Q' <= a0 + P') as C2.
  { assert (Q' * Q < (a0 + 1 - P') * (a0 + 1 + P')) by nia. assert ((a0 + 1 - P') * (a0 + 1 + P') <= Q * (a0 + 1 + P')) by nia.
    assert (Q' < a0 + 1 + P') by nia. lia. }
  split; [|split; [lia|split; [exact A1|exact L]]].
  split; [lia|]. split; [exact Q'pos|]. split; [exact C1|]. split; [exact C2|]. exists Q. split; [exact HQ|]. lia.
Qed.

Lemma reduced_start : reduced a0 (D - a0 * a0).
Proof. split; [lia|]. split; [lia|]. split; [lia|]. split; [nia|]. exists 1. lia. Qed.

Lemma step_inj : forall P Q P2 Q2, reduced P Q -> reduced P2 Q2 -> nextP P Q = nextP P2 Q2 -> nextQ P Q = nextQ P2 Q2 -> P = P2 /\ Q = Q2.
Proof.
  intros P Q P2 Q2 R1 R2 EP EQ. destruct (reduced_step P Q R1) as (S1 & M1 & _). destruct (reduced_step P2 Q2 R2) as (S2 & M2 & _).
  assert (Q = Q2) as <-.
  { destruct S1 as (_ & HQ & _). rewrite EP in M1. rewrite <- EQ in M2. nia. }
  split; auto. unfold nextP in EP. destruct R1 as (A & B & C & _), R2 as (A2 & _ & C2 & _).
  set (x := (a0 + P) / Q) in *. set (y := (a0 + P2) / Q) in *. assert (x = y) by nia. nia.
Qed.

(** * The loop invariant *)
Record inv (s : cf) (pm qm Qp : Z) : Prop := {
  i_red : reduced (cP s) (cQ s);
  i_Qp : Qp * cQ s = D - cP s * cP s;
  i_cur : p0 s * p0 s - D * (q0 s * q0 s) = cd s * cQ s;
  i_prev : pm * pm - D * (qm * qm) = - cd s * Qp;
  i_mix : p0 s * pm - D * (q0 s * qm) = - cd s * cP s;
  i_p1 : p1 s = ca s * p0 s + pm;
  i_q1 : q1 s = ca s * q0 s + qm;
  i_d : cd s = 1 \/ cd s = -1;
  i_a : ca s = (a0 + cP s) / cQ s;
  i_pos : 0 < p0 s /\ 0 < q0 s /\ 0 <= pm /\ 0 <= qm }.

Lemma inv_start : exists s, cf_start a0 D = Ok s /\ inv s 1 0 1 /\ cP s = a0 /\ cQ s = D - a0 * a0 /\ cd s = -1.
Proof.
  pose proof reduced_start as R. unfold cf_start, tdiv_q. destruct (Z.eqb_spec (D - a0 * a0) 0); [lia|]. cbn [bind]. eexists. split; [reflexivity|].
  split; [|cbn; auto]. split; cbn [cP cQ ca p0 p1 q0 q1 cd]; auto; try lia. apply quot_div; lia.
Qed.

Lemma inv_next : forall s pm qm Qp, inv s pm qm Qp -> exists s', cf_next a0 D s = Ok s' /\ inv s' (p0 s) (q0 s) (cQ s) /\
  cP s' = nextP (cP s) (cQ s) /\ cQ s' = nextQ (cP s) (cQ s) /\ cd s' = - cd s.
Proof.
  intros s pm qm Qp [R1 R2 R3 R4 R5 R6 R7 R8 R9 R10]. destruct (reduced_step _ _ R1) as (S & M & A1 & _).
  unfold cf_next. rewrite R9. fold (nextP (cP s) (cQ s)). rewrite <- M. destruct R1 as (HP & HQ & _). rewrite divexact_mul by lia. cbn [bind].
  unfold tdiv_q. pose proof S as (SP & SQ & _). destruct (Z.eqb_spec (nextQ (cP s) (cQ s)) 0); [lia|]. cbn [bind].
  eexists. split; [reflexivity|]. split; [|cbn; auto].
  rewrite <- R9 in A1. assert (nextP (cP s) (cQ s) = ca s * cQ s - cP s) as NP by (unfold nextP; rewrite R9; reflexivity).
  set (P' := nextP (cP s) (cQ s)) in *. set (Q' := nextQ (cP s) (cQ s)) in *.
  assert (p1 s * p1 s - D * (q1 s * q1 s) = - cd s * Q') as K1.
  { rewrite R6, R7. assert (Q' = Qp - ca s * ca s * cQ s + 2 * ca s * cP s) as ->.
    { assert (Q' * cQ s = (Qp - ca s * ca s * cQ s + 2 * ca s * cP s) * cQ s) as X; [|apply Z.mul_reg_r in X; lia].
      rewrite M, NP. transitivity (Qp * cQ s + cP s * cP s - (ca s * cQ s - cP s) * (ca s * cQ s - cP s)); [lia|ring]. }
    transitivity (ca s * ca s * (p0 s * p0 s - D * (q0 s * q0 s)) + 2 * ca s * (p0 s * pm - D * (q0 s * qm)) + (pm * pm - D * (qm * qm))); [ring|].
    rewrite R3, R4, R5. ring. }
  assert (p1 s * p0 s - D * (q1 s * q0 s) = cd s * P') as K2.
  { rewrite R6, R7, NP. transitivity (ca s * (p0 s * p0 s - D * (q0 s * q0 s)) + (p0 s * pm - D * (q0 s * qm))); [ring|]. rewrite R3, R5. ring. }
  split; cbn [cP cQ ca p0 p1 q0 q1 cd].
  - exact S.
  - lia.
  - exact K1.
  - rewrite R3. lia.
  - rewrite K2. lia.
  - ring.
  - ring.
  - lia.
  - apply quot_div; lia.
  - rewrite R6, R7. destruct R10 as (X1 & X2 & X3 & X4).
    assert (0 < ca s * p0 s) by (apply Z.mul_pos_pos; lia). assert (0 < ca s * q0 s) by (apply Z.mul_pos_pos; lia). lia.
Qed.

(** * Soundness *)
Lemma found_ok : forall N lf s pm qm Qp, inv s pm qm Qp -> cd s = (if N >? 0 then 1 else -1) ->
  Forall (fun f => 0 < f /\ exists m, Z.abs N = m * (f * f)) lf ->
  Forall (fun xy => pell_eq D N (fst xy) (snd xy) /\ 0 < fst xy /\ 0 < snd xy) (cf_found lf N s).
Proof.
  intros N lf s pm qm Qp I Hd. induction 1 as [|f lf [Hf [m Hm]] _ IH]; [constructor|]. cbn [cf_found].
  destruct (Z.eqb_spec (cQ s) (Z.quot (Z.abs N) (f * f))) as [E|]; auto. constructor; auto. cbn [fst snd].
  rewrite Hm, Z.quot_mul in E by nia. destruct I as [_ _ R3 _ _ _ _ _ _ R10]. split; [|nia].
  unfold pell_eq. transitivity ((p0 s * p0 s - D * (q0 s * q0 s)) * (f * f)); [ring|]. rewrite R3, E, Hd.
  transitivity ((if N >? 0 then 1 else -1) * (m * (f * f))); [ring|]. rewrite <- Hm. rewrite Z.gtb_ltb. destruct (Z.ltb_spec 0 N); lia.
Qed.

Definition good (N : Z) (ps : pell) : Prop :=
  Forall (fun xy => pell_eq D N (fst xy) (snd xy) /\ 0 < fst xy /\ 0 < snd xy) (sols ps) /\
  pell_eq D 1 (minx ps) (miny ps) /\ 0 < minx ps /\ 0 < miny ps.

Lemma loop_ok : forall N lf, Forall (fun f => 0 < f /\ exists m, Z.abs N = m * (f * f)) lf ->
  forall fuel s pm qm Qp acc ps, inv s pm qm Qp ->
  Forall (fun xy => pell_eq D N (fst xy) (snd xy) /\ 0 < fst xy /\ 0 < snd xy) acc ->
  pell_loop fuel a0 D N lf s acc = Ok ps -> good N ps.
Proof.
  intros N lf Hlf. induction fuel as [|k IH]; intros s pm qm Qp acc ps I Hacc H; [discriminate|]. cbn [pell_loop] in H.
  assert (Forall (fun xy => pell_eq D N (fst xy) (snd xy) /\ 0 < fst xy /\ 0 < snd xy)
    (if cd s =? (if N >? 0 then 1 else -1) then acc ++ cf_found lf N s else acc)) as Hacc'.
  { destruct (Z.eqb_spec (cd s) (if N >? 0 then 1 else -1)); auto. apply Forall_app. split; auto. eapply found_ok; eauto. }
  set (acc' := if cd s =? _ then _ else _) in *. destruct ((2 * a0 =? ca s) && (cd s =? 1)) eqn:B.
  - apply andb_prop in B. destruct B as [B1 B2]. apply Z.eqb_eq in B1, B2. injection H as <-. split; [exact Hacc'|]. cbn [minx miny].
    destruct I as [R1 _ R3 _ _ _ _ _ R9 R10]. split; [|tauto]. unfold pell_eq. rewrite R3, B2.
    destruct R1 as (HP & HQ & _). pose proof (Z.mul_div_le (a0 + cP s) (cQ s) HQ). rewrite <- R9, <- B1 in H. nia.
  - destruct (inv_next s pm qm Qp I) as (s' & E & I' & _). rewrite E in H. cbn [bind] in H. eapply IH; eauto.
Qed.

(** * Termination *)
Definition st : Type := Z * Z * Z.
Definition tick (x : st) : st := let '(P, Q, d) := x in (nextP P Q, nextQ P Q, - d).
Definition at_ (n : nat) : st := Nat.iter n tick (a0, D - a0 * a0, -1).
Definition okst (x : st) : Prop := let '(P, Q, d) := x in reduced P Q /\ (d = 1 \/ d = -1).

Lemma at_ok : forall n, okst (at_ n).
Proof.
  induction n as [|n IH]. { split; [apply reduced_start|auto]. }
  change (at_ (S n)) with (tick (at_ n)). destruct (at_ n) as [[P Q] d]. destruct IH as [R Hd]. cbn [tick okst].
  split; [apply reduced_step; exact R|]. lia.
Qed.
Lemma tick_inj : forall x y, okst x -> okst y -> tick x = tick y -> x = y.
Proof.
  intros [[P Q] d] [[P2 Q2] d2] [R1 _] [R2 _] E. cbn [tick] in E. injection E as E1 E2 E3. destruct (step_inj P Q P2 Q2 R1 R2 E1 E2) as [-> ->]. f_equal. lia.
Qed.

Definition zs (n : Z) : list Z := map Z.of_nat (seq 0 (S (Z.to_nat n))).
Lemma zs_in : forall n z, 0 <= z <= n -> In z (zs n).
Proof. intros n z H. apply in_map_iff. exists (Z.to_nat z). split; [lia|]. apply in_seq. lia. Qed.
Definition space : list st := list_prod (list_prod (zs a0) (zs (2 * a0))) [1; -1].
Lemma at_space : forall n, In (at_ n) space.
Proof.
  intros n. pose proof (at_ok n) as H. destruct (at_ n) as [[P Q] d]. destruct H as [(H1 & H2 & H3 & H4 & _) Hd]. unfold space.
  apply in_prod; [apply in_prod; apply zs_in; lia|]. cbn [In]. lia.
Qed.

Lemma repeats : exists n, at_ (S n) = at_ 0.
Proof.
  set (N := S (length space)). set (l := map at_ (seq 0 N)).
  assert (~ NoDup l) as ND.
  { intros H. assert (incl l space) as I. { intros x Hx. apply in_map_iff in Hx. destruct Hx as (n & <- & _). apply at_space. }
    pose proof (NoDup_incl_length H I) as L. unfold l in L. rewrite map_length, seq_length in L. unfold N in L. lia. }
  assert (exists i j, (i < j)%nat /\ at_ i = at_ j) as (i & j & L & E).
  { assert (forall n, NoDup (map at_ (seq 0 n)) \/ exists i j, (i < j)%nat /\ at_ i = at_ j) as K.
    { induction n as [|n [IH|IH]]; [left; constructor| |right; exact IH]. rewrite seq_S, map_app. cbn [map plus].
      assert ({In (at_ n) (map at_ (seq 0 n))} + {~ In (at_ n) (map at_ (seq 0 n))}) as [I|I].
      { apply in_dec. intros [[x y] z] [[x' y'] z']. destruct (Z.eq_dec x x'), (Z.eq_dec y y'), (Z.eq_dec z z'); subst; auto; right; congruence. }
      - right. apply in_map_iff in I. destruct I as (i & E & Hi). apply in_seq in Hi. exists i, n. split; [lia|exact E].
      - left. apply NoDup_rev in IH. rewrite <- (rev_involutive (map at_ (seq 0 n) ++ [at_ n])). apply NoDup_rev. rewrite rev_app_distr. cbn [rev app].
        constructor; auto. intros J. apply I. apply in_rev. exact J. }
    destruct (K N); [contradiction|auto]. }
  revert j L E. induction i as [|i IH]; intros j L E.
  - destruct j as [|n]; [lia|]. exists n. auto.
  - destruct j as [|j]; [lia|]. apply (IH j); [lia|]. apply tick_inj; [apply at_ok|apply at_ok|]. exact E.
Qed.

Lemma reaches_end : exists n P Q, at_ n = (P, Q, 1) /\ (a0 + P) / Q = 2 * a0.
Proof.
  destruct repeats as [n E]. exists n. pose proof (at_ok n) as O. change (at_ (S n)) with (tick (at_ n)) in E. destruct (at_ n) as [[P Q] d]. destruct O as [R Hd].
  cbn [tick at_ Nat.iter] in E. injection E as E1 E2 E3. exists P, Q. assert (d = 1) as -> by lia. split; auto.
  destruct (reduced_step P Q R) as (S & M & A1 & _). rewrite E1, E2 in M. destruct R as (HP & HQ & H1 & _).
  assert (Q = 1) as -> by nia. rewrite Z.div_1_r. assert (P = a0) by lia. lia.
Qed.

Lemma loop_total : forall N lf n P Q, at_ n = (P, Q, 1) -> (a0 + P) / Q = 2 * a0 ->
  forall fuel m s pm qm Qp acc, inv s pm qm Qp -> (cP s, cQ s, cd s) = at_ m -> (m <= n)%nat -> (n < m + fuel)%nat ->
  exists ps, pell_loop fuel a0 D N lf s acc = Ok ps.
Proof.
  intros N lf n P Q En Ea. induction fuel as [|k IH]; intros m s pm qm Qp acc I Es Hm Hf; [lia|]. cbn [pell_loop].
  destruct ((2 * a0 =? ca s) && (cd s =? 1)) eqn:B; [eexists; reflexivity|].
  destruct (inv_next s pm qm Qp I) as (s' & E & I' & X1 & X2 & X3). rewrite E. cbn [bind]. apply (IH (S m) s' (p0 s) (q0 s) (cQ s)); [exact I'| | |lia].
  - change (at_ (S m)) with (tick (at_ m)). rewrite <- Es. cbn [tick]. rewrite X1, X2, X3. reflexivity.
  - destruct (Nat.eq_dec m n) as [->|]; [|lia]. exfalso. rewrite En in Es. injection Es as E1 E2 Ed.
    destruct I as [_ _ _ _ _ _ _ _ R9 _]. rewrite R9, E1, E2, Ed, Ea, Z.eqb_refl in B. discriminate.
Qed.
End Pell.

Lemma sqrt_range : forall D, 0 < D -> ~ square D -> 0 < Z.sqrt D /\ Z.sqrt D * Z.sqrt D < D /\ D < (Z.sqrt D + 1) * (Z.sqrt D + 1).
Proof.
  intros D H N. pose proof (Z.sqrt_spec D ltac:(lia)) as [A B]. split; [apply Z.sqrt_pos; lia|]. split; [|lia].
  destruct (Z.eq_dec (Z.sqrt D * Z.sqrt D) D) as [E|]; [|lia]. exfalso. apply N. exists (Z.sqrt D). auto.
Qed.

Lemma pell_sound : forall fuel D N ps, 0 < D -> ~ square D -> general_pell fuel D N = Ok ps -> good D N ps.
Proof.
  intros fuel D N ps HD Hs H. destruct (sqrt_range D HD Hs) as (A & B & C). unfold general_pell in H.
  destruct (square_factors fuel 1 N) as [lf| | |] eqn:E; try discriminate. cbn [bind] in H. apply square_factors_ok in E; [|lia].
  unfold mpz_sqrt in H. destruct (Z.ltb_spec D 0); [lia|]. cbn [bind] in H.
  destruct (inv_start _ D A B C) as (s & E2 & I & _). rewrite E2 in H. cbn [bind] in H.
  eapply loop_ok; eauto.
Qed.
Lemma pell_total : forall D N, 0 < D -> ~ square D -> exists fuel0, forall fuel, (fuel0 <= fuel)%nat -> exists ps, general_pell fuel D N = Ok ps.
Proof.
  intros D N HD Hs. destruct (sqrt_range D HD Hs) as (A & B & C). destruct (reaches_end _ D A B C) as (n & P & Q & En & Ea).
  exists (S n + S (Z.to_nat (Z.abs N + 2)))%nat. intros fuel Hf. unfold general_pell.
  destruct (square_factors_total fuel 1 N) as [lf ->]; [lia|lia|]. cbn [bind].
  unfold mpz_sqrt. destruct (Z.ltb_spec D 0); [lia|]. cbn [bind].
  destruct (inv_start _ D A B C) as (s & E2 & I & X1 & X2 & X3). rewrite E2. cbn [bind].
  eapply (loop_total _ D A B C N lf n P Q En Ea fuel 0); eauto; try lia. rewrite X1, X2, X3. reflexivity.
Qed.
