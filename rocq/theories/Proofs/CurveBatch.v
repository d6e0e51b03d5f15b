(** Batch point operations. *)
From Coq Require Import ZArith List Bool Lia Ring Field.
From Verif.Base Require Import Outcome Algebra Slots.
From Verif.Spec Require Import Curve CurveCalls.
From Verif.Model Require Import Curve.
From Verif.Proofs Require Import FieldFacts SlotFacts CurveGroup CurveFacts.
Import ListNotations.
Open Scope nat_scope.

Section B.
Variable K : fld.
Hypothesis HK : fld_laws K.
Add Field KFb : (fl_field K HK).
Notation "x + y" := (fadd x y). Notation "x - y" := (fsub x y). Notation "x * y" := (fmul x y). Notation "- x" := (fopp x).
Notation "x / y" := (fdiv x y).
Notation to i := (Tmp (16 + i)%nat).
Lemma u_to : forall i, user (to i). Proof. intro. apply user_tmp. lia. Qed.
Implicit Types s : store K.

(** ** The table of inverses *)
Definition same_but s s' (ts : list nat) : Prop :=
  (forall m i, s' (Reg m, i) = s (Reg m, i)) /\ forall j, ~ In j ts -> s' (tbl j) = s (tbl j).
Definition regs s s' : Prop := forall m i, s' (Reg m, i) = s (Reg m, i).

Section T.
Variable (s0 : store K) (n : nat) (z : nat -> K) (forward backward : nat -> list (instr K)).
Hypothesis FW : forall i s, i < n -> regs s0 s ->
  exists s', run (forward i) s = Ok s' /\ same_but s s' [i] /\
    s' (tbl i) = match i with O => z O | S j => z i * s (tbl j) end.
Hypothesis BW : forall i s, 0 < i -> i < n -> regs s0 s ->
  exists s', run (backward i) s = Ok s' /\ same_but s s' [i] /\
    s' (tbl i) = s (tbl (i - 1)) * s e2 /\ s' e2 = s e2 * z i.
Fixpoint prod (i : nat) : K := match i with O => f1 | S j => prod j * z j end.

Lemma regs_trans : forall s1 s2 s3, regs s1 s2 -> regs s2 s3 -> regs s1 s3.
Proof. intros s1 s2 s3 A B m i. rewrite B, A. auto. Qed.
Lemma forward_ok : forall k, k <= n -> exists s, run (flat_map forward (seq 0 k)) s0 = Ok s /\ regs s0 s /\
  forall i, i < k -> s (tbl i) = prod (S i).
Proof.
  induction k as [ | k IH]; intro H.
  - exists s0. split; [auto | split]; [intros m i; auto | intros; lia].
  - destruct IH as (s & R & G & T); [lia | ].
    destruct (FW k s) as (s' & R' & (F1 & F2) & V); [lia | auto | ].
    exists s'. rewrite seq_S, flat_map_app. cbn [flat_map]. rewrite app_nil_r, run_app, R. cbn [bind]. split; [auto | split].
    + apply (regs_trans _ _ _ G). intros m i. apply F1.
    + intros i Hi. destruct (Nat.eq_dec i k) as [-> | N].
      * rewrite V. cbn [Nat.add]. destruct k as [ | j]; cbn [prod]; [ring | ]. rewrite T by lia. cbn [prod]. ring.
      * rewrite F2 by (cbn; intuition lia). apply T. lia.
Qed.
Lemma prod_nz : forall k, (forall i, i < k -> z i <> f0) -> prod k <> f0.
Proof.
  induction k; intros H; cbn [prod]; [apply (f_1_neq_0 K HK) | ].
  apply (f_mul_nz K HK); [apply IHk; intros; apply H; lia | apply H; lia].
Qed.
Lemma prod_z : forall k i, i < k -> z i = f0 -> prod k = f0.
Proof.
  induction k; intros i H E; [lia | ]. cbn [prod]. destruct (Nat.eq_dec i k) as [-> | N].
  - rewrite E. ring.
  - rewrite (IHk i) by (auto; lia). ring.
Qed.
(** going down from index k *)
Lemma backward_ok : forall k s, S k <= n -> (forall i, i < n -> z i <> f0) -> regs s0 s ->
  (forall i, i < k -> s (tbl i) = prod (S i)) -> s e2 = finv (prod (S k)) ->
  exists s', run (flat_map backward (rev (seq 1 k))) s = Ok s' /\ regs s0 s' /\
    (forall i, 0 < i -> i <= k -> s' (tbl i) = finv (z i)) /\ (forall i, k < i -> s' (tbl i) = s (tbl i)) /\ s' e2 = finv (z 0).
Proof.
  induction k as [ | k IH]; intros s H NZ G T E.
  - exists s. split; [auto | split; [auto | split; [intros; lia | split; auto]]]. rewrite E. cbn [prod]. f_equal. ring.
  - rewrite seq_S, rev_app_distr. cbn [rev app flat_map]. cbn [Nat.add].
    destruct (BW (S k) s) as (s1 & R1 & (F1 & F2) & V1 & E1); [lia | lia | auto | ].
    assert (P1 : prod (S k) <> f0) by (apply prod_nz; intros; apply NZ; lia).
    assert (P2 : z (S k) <> f0) by (apply NZ; lia).
    destruct (IH s1) as (s' & R' & G' & T' & U' & E'); auto; [lia | | | | ].
    + apply (regs_trans _ _ _ G). intros m i. apply F1.
    + intros i Hi. rewrite F2 by (cbn; intuition lia). apply T. lia.
    + rewrite E1, E. change (prod (S (S k))) with (prod (S k) * z (S k)). field. auto.
    + exists s'. rewrite run_app, R1. cbn [bind]. split; [auto | split; [auto | split; [ | split; auto]]].
      * intros i Hi Hk. destruct (Nat.eq_dec i (S k)) as [-> | N]; [ | apply T'; lia].
        rewrite U', V1 by lia. replace (S k - 1)%nat with k by lia. rewrite T by lia. rewrite E.
        change (prod (S (S k))) with (prod (S k) * z (S k)). field. auto.
      * intros i Hi. rewrite U', F2 by (cbn; intuition lia). auto.
Qed.
Hypothesis Hn : 0 < n.
Lemma e2_tbl : forall i, loc_eqb (tbl i) e2 = false. Proof. reflexivity. Qed.
Lemma tbl_e2 : forall i, loc_eqb e2 (tbl i) = false. Proof. reflexivity. Qed.
Lemma table_ok : (forall i, i < n -> z i <> f0) ->
  exists s', run (table_prog K forward backward n) s0 = Ok s' /\ regs s0 s' /\ forall i, i < n -> s' (tbl i) = finv (z i).
Proof.
  intro NZ. unfold table_prog. destruct (forward_ok n (le_n n)) as (s1 & R1 & G1 & T1).
  rewrite run_app, R1. cbn [bind app]. rewrite run_inv with (u := prod n).
  2:{ rewrite T1 by lia. replace (S (n - 1)) with n by lia. reflexivity. }
  rewrite (finvert_ok K HK) by (apply prod_nz; auto). cbn [bind].
  rewrite run_app.
  destruct (backward_ok (n - 1) (upd s1 e2 (finv (prod n)))) as (s2 & R2 & G2 & T2 & U2 & E2); auto; [lia | | | ].
  - intros i Hi. unfold upd. rewrite e2_tbl. apply T1. lia.
  - replace (S (n - 1)) with n by lia. reflexivity.
  - rewrite R2. cbn [bind run exec]. eexists. split; [reflexivity | ]. split.
    + intros m i. unfold upd. cbn. apply G2.
    + intros i Hi. unfold upd. destruct i as [ | i].
      * cbn. auto.
      * cbn. apply T2; lia.
Qed.
Lemma table_ub : (exists i, i < n /\ z i = f0) -> run (table_prog K forward backward n) s0 = UB.
Proof.
  intros (i & Hi & E). unfold table_prog. destruct (forward_ok n (le_n n)) as (s1 & R1 & G1 & T1).
  rewrite run_app, R1. cbn [bind app]. rewrite run_inv with (u := prod n).
  2:{ rewrite T1 by lia. replace (S (n - 1)) with n by lia. reflexivity. }
  rewrite (prod_z n i) by auto. rewrite (finvert_0 K HK). reflexivity.
Qed.
End T.

Lemma to_ne : forall i j, i <> j -> to i <> to j. Proof. intros i j H E. inversion E. auto. Qed.
Lemma sb_intro : forall s s' i, (forall o k, user o -> o <> to i -> s' (o, k) = s (o, k)) -> same_but s s' [i].
Proof.
  intros s s' i H. split.
  - intros m k. apply H; [apply user_reg | discriminate].
  - intros j Hj. apply H; [apply u_to | ]. apply to_ne. intro; subst. apply Hj. left; auto.
Qed.
Definition regl (l : list nat) : list obj := map Reg l.
Lemma nth_reg : forall l i, nth i (map Reg l) (Reg 0) = Reg (nth i l 0). Proof. intros. apply map_nth. Qed.
Lemma nth_reg2 : forall l i, nth i (map reg2 l) (Reg 0, Reg 0) = reg2 (nth i l (0, 0)). Proof. intros. apply (map_nth reg2 l (0, 0)). Qed.

Ltac frm := apply sb_intro; intros o k U N; lookup.
Lemma fw_sub : forall s t tp p q, user t -> user tp -> user p -> user q -> t <> tp -> t <> p -> t <> q ->
  exists s', run [ISub (t, 0) (q, 0) (p, 0); IMul (t, 0) (t, 0) (tp, 0)] s = Ok s' /\
    (forall o k, user o -> o <> t -> s' (o, k) = s (o, k)) /\ s' (t, 0) = (s (q, 0) - s (p, 0)) * s (tp, 0).
Proof.
  intros. repeat slot_step. eexists. split; [reflexivity | split].
  - intros o k U N. lookup.
  - lookup.
Qed.
Lemma bw_sub : forall s t tp p q, user t -> user tp -> user p -> user q -> t <> tp -> t <> p -> t <> q ->
  exists s', run [IMul (t, 0) (tp, 0) e2; ISub e1 (q, 0) (p, 0); IMul e2 e2 e1] s = Ok s' /\
    (forall o k, user o -> o <> t -> s' (o, k) = s (o, k)) /\
    s' (t, 0) = s (tp, 0) * s e2 /\ s' e2 = s e2 * (s (q, 0) - s (p, 0)).
Proof.
  intros. unfold e1, e2. repeat slot_step. eexists. split; [reflexivity | split; [ | split]].
  - intros o k U N. lookup.
  - lookup.
  - lookup.
Qed.
Lemma fw_dbl : forall s t tp q, user t -> user tp -> user q -> t <> tp -> t <> q ->
  exists s', run [IDbl (t, 0) (q, 1); IMul (t, 0) (t, 0) (tp, 0)] s = Ok s' /\
    (forall o k, user o -> o <> t -> s' (o, k) = s (o, k)) /\ s' (t, 0) = (s (q, 1) + s (q, 1)) * s (tp, 0).
Proof.
  intros. repeat slot_step. eexists. split; [reflexivity | split].
  - intros o k U N. lookup.
  - lookup.
Qed.
Lemma bw_dbl : forall s t tp q, user t -> user tp -> user q -> t <> tp -> t <> q ->
  exists s', run [IMul (t, 0) (tp, 0) e2; IMul e2 e2 (q, 1); IDbl e2 e2] s = Ok s' /\
    (forall o k, user o -> o <> t -> s' (o, k) = s (o, k)) /\
    s' (t, 0) = s (tp, 0) * s e2 /\ s' e2 = s e2 * (s (q, 1) + s (q, 1)).
Proof.
  intros. unfold e1, e2. repeat slot_step. eexists. split; [reflexivity | split; [ | split]].
  - intros o k U N. lookup.
  - lookup.
  - etransitivity; [lookup | ring].
Qed.

Section Tables.
Variable s0 : store K.
Lemma ma_fw : forall l i s, regs s0 s ->
  exists s', run (ma_forward K (map reg2 l) i) s = Ok s' /\ same_but s s' [i] /\
    s' (tbl i) = (let z j := s0 (Reg (snd (nth j l (0, 0))), 0) - s0 (Reg (fst (nth j l (0, 0))), 0) in
                  match i with O => z O | S j => z i * s (tbl j) end).
Proof.
  intros l i s G. unfold ma_forward. rewrite nth_reg2. cbn [reg2 fst snd]. destruct i as [ | j]; cbn [Nat.eqb].
  - eexists. split; [reflexivity | split].
    + apply sb_intro. intros o k U N. unfold upd, loc_eqb. cbn [fst]. rewrite obj_eqb_neq by auto. reflexivity.
    + unfold upd, loc_eqb. cbn. rewrite !G. reflexivity.
  - replace (S j - 1)%nat with j by lia. unfold tbl.
    destruct (fw_sub s (to (S j)) (to j) (Reg (fst (nth (S j) l (0, 0)))) (Reg (snd (nth (S j) l (0, 0)))))
      as (s' & R & F & V); try exact (u_to _); try exact (user_reg _); try discriminate.
    + apply to_ne. lia.
    + exists s'. split; [exact R | split; [apply sb_intro; auto | ]]. rewrite V, !G. cbv zeta. ring.
Qed.
Lemma ma_bw : forall l i s, 0 < i -> regs s0 s ->
  exists s', run (ma_backward K (map reg2 l) i) s = Ok s' /\ same_but s s' [i] /\
    s' (tbl i) = s (tbl (i - 1)) * s e2 /\ s' e2 = s e2 * (s0 (Reg (snd (nth i l (0, 0))), 0) - s0 (Reg (fst (nth i l (0, 0))), 0)).
Proof.
  intros l i s Hi G. unfold ma_backward. rewrite nth_reg2. cbn [reg2 fst snd]. unfold tbl.
  destruct (bw_sub s (to i) (to (i - 1)) (Reg (fst (nth i l (0, 0)))) (Reg (snd (nth i l (0, 0)))))
      as (s' & R & F & V & E); try exact (u_to _); try exact (user_reg _); try discriminate.
  - apply to_ne. lia.
  - exists s'. split; [exact R | split; [apply sb_intro; auto | split; [auto | ]]]. rewrite E, !G. auto.
Qed.
Lemma md_fw : forall l i s, regs s0 s ->
  exists s', run (md_forward K (map Reg l) i) s = Ok s' /\ same_but s s' [i] /\
    s' (tbl i) = (let z j := s0 (Reg (nth j l 0), 1) + s0 (Reg (nth j l 0), 1) in
                  match i with O => z O | S j => z i * s (tbl j) end).
Proof.
  intros l i s G. unfold md_forward. rewrite nth_reg. destruct i as [ | j]; cbn [Nat.eqb].
  - eexists. split; [reflexivity | split].
    + apply sb_intro. intros o k U N. unfold upd, loc_eqb. cbn [fst]. rewrite obj_eqb_neq by auto. reflexivity.
    + unfold upd, loc_eqb. cbn. rewrite !G. reflexivity.
  - replace (S j - 1)%nat with j by lia. unfold tbl.
    destruct (fw_dbl s (to (S j)) (to j) (Reg (nth (S j) l 0)))
      as (s' & R & F & V); try exact (u_to _); try exact (user_reg _); try discriminate.
    + apply to_ne. lia.
    + exists s'. split; [exact R | split; [apply sb_intro; auto | ]]. rewrite V, !G. cbv zeta. ring.
Qed.
Lemma md_bw : forall l i s, 0 < i -> regs s0 s ->
  exists s', run (md_backward K (map Reg l) i) s = Ok s' /\ same_but s s' [i] /\
    s' (tbl i) = s (tbl (i - 1)) * s e2 /\ s' e2 = s e2 * (s0 (Reg (nth i l 0), 1) + s0 (Reg (nth i l 0), 1)).
Proof.
  intros l i s Hi G. unfold md_backward. rewrite nth_reg. unfold tbl.
  destruct (bw_dbl s (to i) (to (i - 1)) (Reg (nth i l 0)))
      as (s' & R & F & V & E); try exact (u_to _); try exact (user_reg _); try discriminate.
  - apply to_ne. lia.
  - exists s'. split; [exact R | split; [apply sb_intro; auto | split; [auto | ]]]. rewrite E, !G. auto.
Qed.
End Tables.

Variables a b : K.
Hypothesis C2 : f2 K <> f0.
Notation cst := (cst K).
Notation assigns := (assigns K).
Implicit Types st : cst.
Notation rep := (rep K).

(** one entry, with the inverse in the table *)
Lemma add_entry : forall i c p q st, inf st (Reg p) = false -> inf st (Reg q) = false ->
  sl st (Reg q, 0) - sl st (Reg p, 0) <> f0 ->
  sl st (tbl i) = finv (sl st (Reg q, 0) - sl st (Reg p, 0)) ->
  assigns (st <- crun K [ISub e2 (Reg q, 1) (Reg p, 1); IMul e2 e2 (tbl i); ISqr e0 e2; ISub e0 e0 (Reg p, 0); ISub e0 e0 (Reg q, 0);
                           ISub e1 (Reg p, 0) e0; IMul e1 e1 e2; ISub e1 e1 (Reg p, 1); ISet (Reg c, 0) e0; ISet (Reg c, 1) e1] st ;;
               Ok (set_inf (Reg c) false st)) (Reg c) st (padd K a (cval st (Reg p)) (cval st (Reg q))).
Proof.
  intros i c p q st Ip Iq D T. unfold cval. rewrite Ip, Iq. cbn [padd].
  rewrite (feqb_false K HK) by (intro E; apply D; rewrite E; ring). cbn [negb]. unfold third.
  set (l := (sl st (Reg q, 1) - sl st (Reg p, 1)) / (sl st (Reg q, 0) - sl st (Reg p, 0))).
  assert (L : (sl st (Reg q, 1) - sl st (Reg p, 1)) * sl st (tbl i) = l) by (rewrite T; unfold l; field; auto).
  clearbody l. unfold tbl in *. unfold e0, e1, e2.
  pose proof (user_reg p) as Up. pose proof (user_reg q) as Uq. pose proof (user_reg c) as Uc. pose proof (u_to i) as Ut.
  assert (Nt : Reg c <> to i) by discriminate.
  revert L Up Uq Uc Ut Nt. generalize (Reg p) (Reg q) (Reg c) (to i). clear -HK. intros p q c t L Up Uq Uc Ut Nt.
  assert (R : exists s', run [ISub (Tmp 3, 0) (q, 1) (p, 1); IMul (Tmp 3, 0) (Tmp 3, 0) (t, 0); ISqr (Tmp 1, 0) (Tmp 3, 0);
     ISub (Tmp 1, 0) (Tmp 1, 0) (p, 0); ISub (Tmp 1, 0) (Tmp 1, 0) (q, 0); ISub (Tmp 2, 0) (p, 0) (Tmp 1, 0);
     IMul (Tmp 2, 0) (Tmp 2, 0) (Tmp 3, 0); ISub (Tmp 2, 0) (Tmp 2, 0) (p, 1); ISet (c, 0) (Tmp 1, 0); ISet (c, 1) (Tmp 2, 0)] (sl st) = Ok s' /\
     s' (c, 0) = l * l - sl st (p, 0) - sl st (q, 0) /\
     s' (c, 1) = l * (sl st (p, 0) - (l * l - sl st (p, 0) - sl st (q, 0))) - sl st (p, 1) /\
     (forall o i, user o -> o <> c -> s' (o, i) = sl st (o, i))).
  { repeat slot_step. eexists. split; [reflexivity | split; [ | split]].
    - etransitivity; [lookup | ]. rewrite L. ring.
    - etransitivity; [lookup | ]. rewrite L. ring.
    - intros o i0 U N. lookup. }
  destruct R as (s' & R & X1 & Y1 & F). eapply (by_run K); eauto.
Qed.
Lemma double_entry : forall i c p st, inf st (Reg p) = false -> sl st (Reg p, 1) <> f0 ->
  sl st (tbl i) = finv (sl st (Reg p, 1) + sl st (Reg p, 1)) ->
  assigns (st <- crun K [ISqr e2 (Reg p, 0); IMulZ e2 e2 3; IConst lambda a; IAdd e2 e2 lambda; IMul e2 e2 (tbl i);
                         IDbl e1 (Reg p, 0); ISqr e0 e2; ISub e0 e0 e1;
                         ISub e1 (Reg p, 0) e0; IMul e1 e1 e2; ISub e1 e1 (Reg p, 1);
                         ISet (Reg c, 0) e0; ISet (Reg c, 1) e1] st ;;
               Ok (set_inf (Reg c) false st)) (Reg c) st (padd K a (cval st (Reg p)) (cval st (Reg p))).
Proof.
  intros i c p st Ip D T. unfold cval. rewrite Ip. cbn [padd].
  rewrite !(feqb_refl K HK), (feqb_false K HK) by auto. cbn [negb andb]. unfold third.
  pose proof (dbl_nz K HK C2 _ D) as D2. rewrite <- (fofz_3 K HK).
  set (l := (fofz 3 * (sl st (Reg p, 0) * sl st (Reg p, 0)) + a) / (f2 K * sl st (Reg p, 1))).
  assert (L : (fofz 3 * (sl st (Reg p, 0) * sl st (Reg p, 0)) + a) * sl st (tbl i) = l).
  { rewrite T. unfold l. replace (f2 K * sl st (Reg p, 1)) with (sl st (Reg p, 1) + sl st (Reg p, 1)) by (unfold f2; ring).
    generalize (fofz 3 : K). intro. field. auto. }
  clearbody l. unfold tbl in *. unfold e0, e1, e2, lambda.
  pose proof (user_reg p) as Up. pose proof (user_reg c) as Uc. pose proof (u_to i) as Ut.
  assert (Nt : Reg c <> to i) by discriminate.
  revert L Up Uc Ut Nt. generalize (Reg p) (Reg c) (to i). clear -HK. intros p c t L Up Uc Ut Nt.
  assert (R : exists s', run [ISqr (Tmp 3, 0) (p, 0); IMulZ (Tmp 3, 0) (Tmp 3, 0) 3; IConst (Tmp 0, 0) a; IAdd (Tmp 3, 0) (Tmp 3, 0) (Tmp 0, 0);
     IMul (Tmp 3, 0) (Tmp 3, 0) (t, 0);
     IDbl (Tmp 2, 0) (p, 0); ISqr (Tmp 1, 0) (Tmp 3, 0); ISub (Tmp 1, 0) (Tmp 1, 0) (Tmp 2, 0);
     ISub (Tmp 2, 0) (p, 0) (Tmp 1, 0); IMul (Tmp 2, 0) (Tmp 2, 0) (Tmp 3, 0); ISub (Tmp 2, 0) (Tmp 2, 0) (p, 1);
     ISet (c, 0) (Tmp 1, 0); ISet (c, 1) (Tmp 2, 0)] (sl st) = Ok s' /\
     s' (c, 0) = l * l - sl st (p, 0) - sl st (p, 0) /\
     s' (c, 1) = l * (sl st (p, 0) - (l * l - sl st (p, 0) - sl st (p, 0))) - sl st (p, 1) /\
     (forall o i, user o -> o <> c -> s' (o, i) = sl st (o, i))).
  { repeat slot_step. eexists. split; [reflexivity | split; [ | split]].
    - etransitivity; [lookup | ]. rewrite L. ring.
    - etransitivity; [lookup | ]. rewrite L. ring.
    - intros o i0 U N. lookup. }
  destruct R as (s' & R & X1 & Y1 & F). eapply (by_run K); eauto.
Qed.

Definition xdiff (s : store K) (e : nat * nat) : K := s (Reg (snd e), 0) - s (Reg (fst e), 0).
Lemma rep_assign : forall m d st v P, rep st v -> assigns m (Reg d) st P ->
  exists st', m = Ok st' /\ rep st' (setp K v d P) /\ frame K st st' (Reg d).
Proof.
  intros m d st v P R (st' & E & V & F). exists st'. split; [auto | split; auto]. intro n. unfold setp.
  destruct (Nat.eqb_spec n d) as [-> | N]; auto. rewrite R. unfold cval.
  destruct (F (Reg n)) as [I S]; [apply user_reg | congruence | ]. rewrite I, !S. auto.
Qed.
Lemma finish_add : forall l i st v, rep st v -> independent (map add_inputs l) ->
  (forall k, k < length l -> let e := snd (nth k l (0, (0, 0))) in xdiff (sl st) e <> f0 /\ sl st (tbl (i + k)) = finv (xdiff (sl st) e)) ->
  exists st', ma_finish K a i (map reg3 l) st = Ok st' /\ rep st' (seq_add K a v l).
Proof.
  induction l as [ | [c [p q]] l IH]; intros i st v R ID T.
  - exists st. auto.
  - cbn [map reg3 reg2 fst snd ma_finish seq_add]. cbn [map add_inputs independent fst snd] in ID. destruct ID as [ID1 ID2].
    pose proof (T 0 ltac:(cbn; lia)) as T0. cbn [nth snd fst xdiff] in T0. rewrite Nat.add_0_r in T0. destruct T0 as [D T0].
    match goal with |- exists st', bind ?m _ = _ /\ _ => assert (E : assigns m (Reg c) st (padd K a (v p) (v q))) end.
    { rewrite !R. pose proof (mul_ok K HK a C2 (Reg c) (Reg p) (Reg q) st (user_reg c) (user_reg p) (user_reg q)) as M.
      unfold curve_mul in M. destruct (inf st (Reg p)) eqn:Ip; auto. destruct (inf st (Reg q)) eqn:Iq; auto.
      destruct (feqb (sl st (Reg p, 0)) (sl st (Reg q, 0))) eqn:X; [apply M | ].
      apply add_entry; auto. }
    destruct (rep_assign _ _ _ _ _ R E) as (st1 & E1 & R1 & F1). rewrite E1. cbn [bind].
    assert (G : forall o, user o -> o <> Reg c -> forall k, sl st1 (o, k) = sl st (o, k)) by (intros o U N k; apply F1; auto).
    apply IH; auto. intros k Hk. specialize (T (S k) ltac:(cbn; lia)). cbn [nth] in T.
    destruct (nth k l (0, (0, 0))) as [d [p' q']] eqn:N. cbn [snd] in *. unfold xdiff in *. cbn [fst snd] in *.
    assert (I' : In (add_inputs (d, (p', q'))) (map add_inputs l)) by (apply in_map; rewrite <- N; apply nth_In; auto).
    specialize (ID1 d [p'; q'] I'). cbn [In] in ID1.
    rewrite !G by (try apply user_reg; intro EE; inversion EE; subst; tauto).
    replace (S i + k)%nat with (i + S k)%nat by lia. unfold tbl in *.
    rewrite !G by (try apply u_to; discriminate). auto.
Qed.
Theorem multi_add_ok : forall l st v, l <> [] -> rep st v -> independent (map add_inputs l) ->
  (forall c p q, In (c, (p, q)) l -> sl st (Reg p, 0) <> sl st (Reg q, 0)) ->
  exists st', multi_add K a (map reg3 l) st = Ok st' /\ rep st' (seq_add K a v l).
Proof.
  intros l st v N R ID D.
  assert (E0 : multi_add K a (map reg3 l) st = (st <- crun K (ma_table K (map snd (map reg3 l))) st ;; ma_finish K a 0 (map reg3 l) st))
    by (destruct l; [contradiction | reflexivity]).
  rewrite E0. rewrite map_map. change (map (fun x => snd (reg3 x)) l) with (map (fun x => reg2 (snd x)) l). rewrite <- (map_map snd reg2).
  set (l2 := map snd l). unfold ma_table. rewrite map_length.
  assert (LEN : length l2 = length l) by apply map_length.
  assert (XD : forall i, i < length l -> xdiff (sl st) (nth i l2 (0, 0)) <> f0).
  { intros i Hi. unfold l2. rewrite (map_nth snd l (0, (0, 0))). destruct (nth i l (0, (0, 0))) as [c [p q]] eqn:E.
    unfold xdiff. cbn [snd fst]. intro Z0. apply (D c p q); [rewrite <- E; apply nth_In; auto | ].
    symmetry. apply (f_sub_0 K HK). auto. }
  destruct (table_ok (sl st) (length l2) (fun i => xdiff (sl st) (nth i l2 (0, 0)))
     (ma_forward K (map reg2 l2)) (ma_backward K (map reg2 l2))) as (s' & RT & G & T).
  - intros i s Hi G. destruct (ma_fw (sl st) l2 i s G) as (s' & A & B & C). exists s'. split; [auto | split; auto].
  - intros i s Hi Hn G. destruct (ma_bw (sl st) l2 i s Hi G) as (s' & A & B & C). exists s'. auto.
  - rewrite LEN. destruct l; [contradiction | cbn; lia].
  - rewrite LEN. auto.
  - unfold crun. rewrite RT. cbn [bind]. apply finish_add; auto.
    + intro n. rewrite R. unfold cval. cbn. rewrite !G. auto.
    + intros k Hk. cbv zeta. rewrite <- (map_nth snd l (0, (0, 0))). fold l2.
      assert (X : xdiff s' (nth k l2 (0, 0)) = xdiff (sl st) (nth k l2 (0, 0))) by (unfold xdiff; rewrite !G; auto).
      cbn [sl snd]. rewrite X. split; [apply XD; auto | ]. apply T. lia.
Qed.
Theorem multi_add_ub : forall l st, (exists c p q, In (c, (p, q)) l /\ sl st (Reg p, 0) = sl st (Reg q, 0)) ->
  multi_add K a (map reg3 l) st = UB.
Proof.
  intros l st (c & p & q & I & D).
  assert (N : l <> []) by (intro; subst; auto).
  assert (E0 : multi_add K a (map reg3 l) st = (st <- crun K (ma_table K (map snd (map reg3 l))) st ;; ma_finish K a 0 (map reg3 l) st))
    by (destruct l; [contradiction | reflexivity]).
  rewrite E0. rewrite map_map. change (map (fun x => snd (reg3 x)) l) with (map (fun x => reg2 (snd x)) l). rewrite <- (map_map snd reg2).
  set (l2 := map snd l). unfold ma_table. rewrite map_length.
  assert (LEN : length l2 = length l) by apply map_length.
  assert (HH : run (table_prog K (ma_forward K (map reg2 l2)) (ma_backward K (map reg2 l2)) (length l2)) (sl st) = UB).
  { apply (table_ub (sl st) (length l2) (fun i => xdiff (sl st) (nth i l2 (0, 0)))).
    - intros i s Hi G. destruct (ma_fw (sl st) l2 i s G) as (s' & A & B & C). exists s'. split; [auto | split; auto].
    - rewrite LEN. destruct l; [contradiction | cbn; lia].
    - destruct (In_nth l (c, (p, q)) (0, (0, 0)) I) as (i & Hi & E). exists i. rewrite LEN. split; auto.
      unfold l2. rewrite (map_nth snd l (0, (0, 0))), E. unfold xdiff. cbn [fst snd]. rewrite D. ring. }
  unfold crun. rewrite HH. reflexivity.
Qed.

(** ** Doubling *)
Lemma flags_ok : forall l st, sl (md_flags K (map reg2 l) st) = sl st.
Proof.
  induction l as [ | [c p] l IH]; intro st; auto. cbn [map reg2 md_flags fst snd]. rewrite IH.
  destruct (inf st (Reg p)); [ | destruct (feqb _ _)]; auto.
Qed.
(** after the first loop (all y non-zero), the flags *)
Lemma flags_inf : forall l st n, (forall c p, In (c, p) l -> sl st (Reg p, 1) <> f0) -> independent (map double_inputs l) ->
  inf (md_flags K (map reg2 l) st) (Reg n) = inf st (Reg n) || existsb (fun e => Nat.eqb (fst e) n && inf st (Reg (snd e))) l.
Proof.
  induction l as [ | [c p] l IH]; intros st n Y ID; [cbn; rewrite orb_false_r; auto | ].
  cbn [map reg2 md_flags fst snd existsb]. cbn [map double_inputs independent fst snd] in ID. destruct ID as [ID1 ID2].
  assert (Y0 : sl st (Reg p, 1) <> f0) by (apply (Y c); left; auto).
  assert (Y1 : forall c p, In (c, p) l -> sl st (Reg p, 1) <> f0) by (intros; eapply Y; right; eauto).
  destruct (inf st (Reg p)) eqn:Ip.
  - rewrite IH by auto. cbn [set_inf inf sl obj_eqb]. rewrite andb_true_r. rewrite (Nat.eqb_sym c n).
    assert (EX : existsb (fun e => Nat.eqb (fst e) n && (if Nat.eqb (snd e) c then true else inf st (Reg (snd e)))) l =
                 existsb (fun e => Nat.eqb (fst e) n && inf st (Reg (snd e))) l).
    { clear - ID1. induction l as [ | [d r] l IH]; auto. cbn [existsb fst snd]. rewrite IH.
      - destruct (Nat.eqb_spec r c) as [-> | _]; auto. exfalso. apply (ID1 d [c]); left; auto.
      - intros e ps H. apply (ID1 e). right. auto. }
    rewrite EX. destruct (Nat.eqb n c); cbn [orb]; auto. rewrite orb_true_r. auto.
  - rewrite (feqb_false K HK) by auto. rewrite IH by auto. rewrite andb_false_r. auto.
Qed.
Lemma finish_double : forall l i st v, (forall n, In n (map snd l) -> v n <> None -> inf st (Reg n) = false \/ True) ->
  (forall n, (exists c, In (c, n) l) -> v n <> None -> v n = Some (sl st (Reg n, 0), sl st (Reg n, 1))) ->
  (forall n, ~ In n (map fst l) -> v n = cval st (Reg n)) ->
  (forall c p, In (c, p) l -> (inf st (Reg c) = true <-> v p = None)) ->
  independent (map double_inputs l) -> NoDup (map fst l) ->
  (forall k, k < length l -> let p := snd (nth k l (0, 0)) in sl st (Reg p, 1) <> f0 /\
      sl st (tbl (i + k)) = finv (sl st (Reg p, 1) + sl st (Reg p, 1))) ->
  exists st', md_finish K a i (map reg2 l) st = Ok st' /\ rep st' (seq_double K a v l).
Proof.
  induction l as [ | [c p] l IH]; intros i st v HX VAL REST FL ID ND T.
  - exists st. split; [reflexivity | ]. intro n. apply REST. auto.
  - cbn [map reg2 fst snd md_finish seq_double]. cbn [map double_inputs independent fst snd] in ID. destruct ID as [ID1 ID2].
    cbn [map fst] in ND. inversion ND as [ | ? ? ND1 ND2]; subst.
    pose proof (T 0 ltac:(cbn; lia)) as T0. cbn [nth snd fst] in T0. rewrite Nat.add_0_r in T0. destruct T0 as [D T0].
    assert (FLp : inf st (Reg c) = true <-> v p = None) by (apply FL; left; auto).
    assert (E : exists st1, (if inf st (Reg c) then Ok st else
       st <- crun K [ISqr e2 (Reg p, 0); IMulZ e2 e2 3; IConst lambda a; IAdd e2 e2 lambda; IMul e2 e2 (tbl i);
                         IDbl e1 (Reg p, 0); ISqr e0 e2; ISub e0 e0 e1;
                         ISub e1 (Reg p, 0) e0; IMul e1 e1 e2; ISub e1 e1 (Reg p, 1);
                         ISet (Reg c, 0) e0; ISet (Reg c, 1) e1] st ;;
       Ok (set_inf (Reg c) false st)) = Ok st1 /\ cval st1 (Reg c) = padd K a (v p) (v p) /\ frame K st st1 (Reg c)).
    { destruct (inf st (Reg c)) eqn:Ic.
      - exists st. split; [auto | split]. { unfold cval. rewrite Ic. rewrite (proj1 FLp) by auto. auto. }
        intros o U N. auto.
      - assert (Vp : v p <> None) by (intro X; apply FLp in X; congruence).
        set (st' := set_inf (Reg p) false st).
        assert (Tq : sl st' (tbl i) = finv (sl st' (Reg p, 1) + sl st' (Reg p, 1))) by exact T0.
        destruct (double_entry i c p st' ltac:(unfold st'; cbn; rewrite Nat.eqb_refl; auto) D Tq) as (st1 & E1 & V1 & F1).
        unfold crun in *. cbn [sl st' set_inf] in E1.
        match type of E1 with context [run ?P ?S] => destruct (run P S) as [s1 | | | ] eqn:RR end; cbn [bind] in E1; try discriminate.
        cbn [bind]. eexists. split; [reflexivity | ]. inversion E1; subst st1. clear E1. split.
        + rewrite (VAL p) by (auto; exists c; left; auto).
          unfold cval in V1 |- *. unfold st' in V1. cbn [inf sl set_inf obj_eqb] in V1 |- *. rewrite !Nat.eqb_refl in V1. rewrite Nat.eqb_refl.
          exact V1.
        + intros o U N. destruct (F1 o U N) as [I1 S1]. split; [ | intro k; exact (S1 k)].
          cbn [inf set_inf]. rewrite obj_eqb_neq by auto. auto. }
    destruct E as (st1 & E1 & V1 & F1). rewrite E1. cbn [bind].
    assert (G : forall o, user o -> o <> Reg c -> forall k, sl st1 (o, k) = sl st (o, k)) by (intros o U N k; apply F1; auto).
    assert (Gi : forall n, n <> c -> inf st1 (Reg n) = inf st (Reg n)) by (intros n N; apply F1; [apply user_reg | congruence]).
    assert (NP : forall d r, In (d, r) l -> r <> c).
    { intros d r H EE. subst. apply (ID1 d [c]); [ | left; auto]. change (d, [c]) with (double_inputs (d, c)). apply in_map. auto. }
    apply IH; auto.
    + intros n (d & H) NN. unfold setp in *. pose proof (NP d n H) as NE. rewrite (proj2 (Nat.eqb_neq n c) NE) in *.
      rewrite !G by (try apply user_reg; congruence). apply VAL; auto. exists d. right. auto.
    + intros n Hn. unfold setp. destruct (Nat.eqb_spec n c) as [-> | NE]; auto.
      rewrite REST by (cbn; intuition congruence). unfold cval. rewrite Gi by auto. rewrite !G by (try apply user_reg; congruence). auto.
    + intros d r H. pose proof (NP d r H) as NE. unfold setp. rewrite (proj2 (Nat.eqb_neq r c) NE).
      assert (d <> c) by (intro; subst; apply ND1; change c with (fst (c, r)); apply in_map; auto).
      rewrite Gi by auto. apply FL. right. auto.
    + intros k Hk. specialize (T (S k) ltac:(cbn; lia)). cbn [nth] in T. cbv zeta in *.
      destruct (nth k l (0, 0)) as [d r] eqn:N. cbn [snd] in *.
      assert (In (d, r) l) by (rewrite <- N; apply nth_In; auto). pose proof (NP d r H) as NE.
      rewrite !G by (try apply user_reg; congruence).
      replace (S i + k)%nat with (i + S k)%nat by lia. unfold tbl in *.
      rewrite !G by (try apply u_to; discriminate). auto.
Qed.
Theorem multi_double_ok : forall l st v, l <> [] -> rep st v -> independent (map double_inputs l) -> NoDup (map fst l) ->
  (forall c p, In (c, p) l -> sl st (Reg p, 1) <> f0) ->
  (forall c p, In (c, p) l -> v p <> None -> v c <> None) ->
  exists st', multi_double K a (map reg2 l) st = Ok st' /\ rep st' (seq_double K a v l).
Proof.
  intros l st v N R ID ND D FR.
  assert (E0 : multi_double K a (map reg2 l) st = (let st := md_flags K (map reg2 l) st in st <- crun K (md_table K (map snd (map reg2 l))) st ;; md_finish K a 0 (map reg2 l) st))
    by (destruct l; [contradiction | reflexivity]).
  rewrite E0. cbv zeta. rewrite map_map. change (map (fun x => snd (reg2 x)) l) with (map (fun x => Reg (snd x)) l). rewrite <- (map_map snd Reg).
  set (l2 := map snd l). unfold md_table. rewrite map_length.
  assert (LEN : length l2 = length l) by apply map_length.
  assert (XD : forall i, i < length l -> sl st (Reg (nth i l2 0), 1) <> f0).
  { intros i Hi. unfold l2. rewrite (map_nth snd l (0, 0)). destruct (nth i l (0, 0)) as [c p] eqn:E.
    apply (D c p). rewrite <- E. apply nth_In. auto. }
  destruct (table_ok (sl st) (length l2) (fun i => sl st (Reg (nth i l2 0), 1) + sl st (Reg (nth i l2 0), 1))
     (md_forward K (map Reg l2)) (md_backward K (map Reg l2))) as (s' & RT & G & T).
  - intros i s Hi G. destruct (md_fw (sl st) l2 i s G) as (s' & A & B & C). exists s'. split; [auto | split; auto].
  - intros i s Hi Hn G. destruct (md_bw (sl st) l2 i s Hi G) as (s' & A & B & C). exists s'. auto.
  - rewrite LEN. destruct l; [contradiction | cbn; lia].
  - rewrite LEN. intros i Hi. apply (dbl_nz K HK C2). apply XD; auto.
  - unfold crun. rewrite flags_ok, RT. cbn [bind]. apply finish_double; auto.
    + intros n (c & H) NN. cbn [sl]. rewrite !G. rewrite R in NN |- *. unfold cval in *. destruct (inf st (Reg n)); congruence.
    + intros n Hn. rewrite R. unfold cval. cbn [sl inf]. rewrite flags_inf by auto. rewrite !G.
      assert (X : existsb (fun e => Nat.eqb (fst e) n && inf st (Reg (snd e))) l = false).
      { apply not_true_is_false. intro X. apply existsb_exists in X. destruct X as ([c p] & I' & X). apply andb_true_iff in X. destruct X as [X _].
        apply Nat.eqb_eq in X. apply Hn. rewrite <- X. apply in_map. auto. }
      rewrite X, orb_false_r. auto.
    + intros c p H. cbn [inf]. rewrite flags_inf by auto.
      assert (Vp : v p = None <-> inf st (Reg p) = true) by (rewrite R; unfold cval; destruct (inf st (Reg p)); split; congruence).
      assert (Vc : v c = None <-> inf st (Reg c) = true) by (rewrite R; unfold cval; destruct (inf st (Reg c)); split; congruence).
      split.
      * intro X. apply orb_true_iff in X. destruct X as [X | X].
        -- destruct (v p) eqn:VP; auto. exfalso. apply (FR c p); [auto | congruence | apply Vc; auto].
        -- apply existsb_exists in X. destruct X as ([d r] & I' & X). apply andb_true_iff in X. cbn [fst snd] in X. destruct X as [X Y].
           apply Nat.eqb_eq in X. subst d.
           assert (r = p); [ | subst; apply Vp; auto].
           clear - ND H I'. induction l as [ | [c' p'] l IH]; [contradiction | ]. cbn [map fst] in ND. inversion ND; subst.
           destruct H as [H | H], I' as [I' | I'].
           ++ congruence.
           ++ exfalso. inversion H; subst. apply H2. change c with (fst (c, r)). apply in_map. auto.
           ++ exfalso. inversion I'; subst. apply H2. change c with (fst (c, p)). apply in_map. auto.
           ++ auto.
      * intro X. apply orb_true_iff. right. apply existsb_exists. exists (c, p). split; auto. cbn [fst snd]. rewrite Nat.eqb_refl. apply Vp; auto.
    + intros k Hk. cbv zeta. rewrite <- (map_nth snd l (0, 0)). cbn [snd]. fold l2. cbn [sl].
      rewrite !G. split; [apply XD; auto | ]. apply T. lia.
Qed.
(** outputs that are O on entry (as after element_init) are not assigned *)
Theorem multi_double_fresh : forall c p st, cval st (Reg c) = None -> sl st (Reg p, 1) <> f0 ->
  exists st', multi_double K a [(Reg c, Reg p)] st = Ok st' /\ cval st' (Reg c) = None.
Proof.
  intros c p st Vc D. assert (Ic : inf st (Reg c) = true) by (unfold cval in Vc; destruct (inf st (Reg c)); congruence).
  unfold multi_double. cbn [md_flags map snd md_finish].
  set (st1 := if inf st (Reg p) then _ else _).
  assert (I1 : inf st1 (Reg c) = true).
  { unfold st1. destruct (inf st (Reg p)); [cbn; rewrite Nat.eqb_refl; auto | ].
    destruct (feqb _ _); [cbn; rewrite Nat.eqb_refl; auto | auto]. }
  assert (S1 : sl st1 = sl st) by (unfold st1; destruct (inf st (Reg p)); [ | destruct (feqb _ _)]; auto).
  destruct (table_ok (sl st) 1 (fun i => sl st (Reg p, 1) + sl st (Reg p, 1))
     (md_forward K [Reg p]) (md_backward K [Reg p])) as (s' & RT & G & T).
  - intros i s Hi G. destruct (md_fw (sl st) [p] i s G) as (s' & A & B & C). exists s'. split; [auto | split; auto].
    destruct i; [auto | lia].
  - intros i s Hi Hn. lia.
  - lia.
  - intros i Hi. apply (dbl_nz K HK C2). auto.
  - unfold crun, md_table. cbn [length]. rewrite S1, RT. cbn [bind inf]. rewrite I1. eexists. split; [reflexivity | ].
    unfold cval. cbn. rewrite I1. auto.
Qed.
End B.
