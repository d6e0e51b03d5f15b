(** Histories of calls: the heap holds exactly the blocks of the live objects. *)
From Coq Require Import List ZArith Bool Arith Lia Permutation.
From Verif.Base Require Import Outcome.
From Verif.Model Require Import Mnt Miller PairingD.
From Verif.Spec Require Import PairingValueD.
From Verif.Model Require Import Storage.
From Verif.Spec Require Import Storage.
From Verif.Proofs Require Import StorageFacts StoragePairing StorageClear StorageTables.
Import ListNotations.
Local Open Scope nat_scope.

(** ** What the groups need is in the cells of the pairing *)
Section Needs.
Local Opaque cells fcells ncells quot pcells.
Ltac grn := intros q H; apply needs_support in H; un; cbn [support home_of hl] in H;
  repeat rewrite ?count_app, ?count_cons, ?count_nil in H; cc; lia.
Lemma group_needs : forall p P nq g q, In q (needs (group p P g)) -> 0 < count q (pair_cells p P nq).
Proof.
  intros [t z q0 r] P nq g. unfold pair_cells, common_cells, type_cells, group. destruct t as [e1 e2| |n| | | |], g; cbn [ty]; grn.
Qed.
Lemma slot_needs : forall p P nq s q, has_slot p s = true -> In q (needs (slot_field p P s)) -> 0 < count q (pair_cells p P nq).
Proof.
  intros [t z q0 r] P nq s q Hs. revert q. unfold pair_cells, common_cells, type_cells, slot_field, has_slot in *. destruct t as [e1 e2| |n| | | |], s; cbn [ty] in *; try discriminate Hs; grn.
Qed.
Lemma ppn_needs : forall p P nq q, match ty p with TE | TF | TI => False | _ => True end -> In q (ppn p P) -> 0 < count q (pair_cells p P nq).
Proof.
  intros p P nq q T H. unfold ppn in H. rewrite !in_app_iff in H. destruct H as [H|[H|H]].
  - apply count_in in H. unfold pair_cells, common_cells. cc. rewrite !count_cons, count_nil in H. lia.
  - assert (S : slot_field p P SFq = Fq p P) by (unfold slot_field; destruct (ty p); tauto). rewrite <- S in H.
    apply (slot_needs p P nq SFq); [reflexivity|exact H].
  - apply (group_needs p P nq G1); exact H.
Qed.
Lemma nq_cells : forall p P nq s q, has_slot p s = true ->
  count q (pair_cells p P (nq_get (nq_set nq s))) = count q (pair_cells p P (nq_get nq)) + (if nq_get nq s then 0 else count q (ncells (slot_field p P s) true)).
Proof.
  intros [t z q0 r] P [a b c d] s q Hs. unfold pair_cells, common_cells, type_cells, slot_field, has_slot in *.
  destruct t as [e1 e2| |n| | | |], s; cbn [ty] in *; try discriminate Hs; un; cc;
  unfold nq_set, nq_of, nq_get, slot_eqb; cbn [nZr nFq nFx nFd orb];
  first [destruct a; cc; lia | destruct b; cc; lia | destruct c; cc; lia | destruct d; cc; lia].
Qed.
End Needs.

(** ** Live objects *)
Definition obj_cells (x : nat * obj) : list path :=
  match snd x with
  | OParam p => param_cells p [fst x]
  | OPair p _ nq => pair_cells p [fst x] (nq_get nq)
  | OElem _ f => cells f [fst x]
  | OPp i p (Some m) => pp_cells p [i] m [fst x]
  | OPp _ _ None => []
  | OTab _ f bits => epp_cells f bits [fst x]
  end.
Definition owner (o : objs) (x : obj) : Prop :=
  match x with
  | OParam _ | OPair _ _ _ => True
  | OElem i f | OTab i f _ => exists p m nq g, look i o = Some (OPair p m nq) /\ f = group p [i] g
  | OPp i p mm => exists m nq, look i o = Some (OPair p m nq) /\ (forall m', mm = Some m' -> m' = m /\ table_ok p m)
  end.
Definition wf (o : objs) : Prop := NoDup (map fst o) /\ forall k x, In (k, x) o -> owner o x.
Definition holds (o : objs) (h : heap) : Prop := forall q, count q h = count q (flat_map obj_cells o).

Lemma look_split : forall o k x, look k o = Some x -> exists a b, o = a ++ (k, x) :: b /\ ~ In k (map fst a).
Proof.
  induction o as [|[j y] o IH]; intros k x H; [discriminate|]. cbn in H. destruct (Nat.eqb_spec j k) as [->|N].
  - inversion H; subst. exists [], o. split; [reflexivity|intros []].
  - destruct (IH k x H) as (a & b & -> & I). exists ((j, y) :: a), b. split; [reflexivity|]. cbn. intros [E|E]; [congruence|tauto].
Qed.
Lemma look_in : forall o k x, look k o = Some x -> In (k, x) o.
Proof. intros o k x H. destruct (look_split o k x H) as (a & b & -> & _). apply in_or_app; right; left; reflexivity. Qed.
Lemma in_look : forall o k x, NoDup (map fst o) -> In (k, x) o -> look k o = Some x.
Proof.
  induction o as [|[j y] o IH]; intros k x N H; [destruct H|]. cbn in *. inversion N as [|? ? A B]; subst. destruct H as [H|H].
  - inversion H; subst. rewrite Nat.eqb_refl. reflexivity.
  - destruct (Nat.eqb_spec j k) as [->|E]; [|apply IH; assumption]. destruct A. apply in_map_iff. exists (k, x); split; [reflexivity|exact H].
Qed.
Lemma fresh_not_in : forall o k, look k o = None -> ~ In k (map fst o).
Proof.
  induction o as [|[j y] o IH]; intros k H; [intros []|]. cbn in *. destruct (Nat.eqb_spec j k) as [->|E]; [discriminate|].
  intros [A|A]; [congruence|]. apply (IH k H A).
Qed.
Lemma drop_cons : forall j y o k, drop k ((j, y) :: o) = if j =? k then drop k o else (j, y) :: drop k o.
Proof. intros j y o k. unfold drop. cbn [filter fst]. destruct (j =? k); reflexivity. Qed.
Lemma drop_none : forall o k, ~ In k (map fst o) -> drop k o = o.
Proof.
  induction o as [|[j y] o IH]; intros k H; [reflexivity|]. rewrite drop_cons. cbn in H. destruct (Nat.eqb_spec j k) as [->|E]; [tauto|].
  rewrite IH by tauto. reflexivity.
Qed.
Lemma drop_app : forall a b k, drop k (a ++ b) = drop k a ++ drop k b.
Proof. intros. unfold drop. apply filter_app. Qed.
Lemma drop_split : forall o k x, NoDup (map fst o) -> look k o = Some x -> exists a b, o = a ++ (k, x) :: b /\ drop k o = a ++ b.
Proof.
  intros o k x N H. destruct (look_split o k x H) as (a & b & -> & A). exists a, b. split; [reflexivity|].
  rewrite map_app in N. cbn in N. apply NoDup_remove_2 in N. rewrite in_app_iff in N.
  rewrite drop_app, (drop_none a k A). rewrite drop_cons, Nat.eqb_refl. rewrite (drop_none b k) by tauto. reflexivity.
Qed.
Lemma look_drop : forall o j k, j <> k -> look j (drop k o) = look j o.
Proof.
  induction o as [|[i y] o IH]; intros j k N; [reflexivity|]. rewrite drop_cons. destruct (Nat.eqb_spec i k) as [->|E]; cbn [look].
  - destruct (Nat.eqb_spec k j); [congruence|]. apply IH, N.
  - destruct (i =? j); [reflexivity|apply IH, N].
Qed.
Lemma in_drop : forall o j k x, In (j, x) (drop k o) -> In (j, x) o /\ j <> k.
Proof. intros o j k x H. unfold drop in H. apply filter_In in H. destruct H as (A & B). split; [exact A|]. cbn in B. destruct (Nat.eqb_spec j k); [discriminate|assumption]. Qed.
Lemma nodup_drop : forall o k, NoDup (map fst o) -> NoDup (map fst (drop k o)) /\ ~ In k (map fst (drop k o)).
Proof.
  induction o as [|[j y] o IH]; intros k N; [split; [constructor|intros []]|]. rewrite drop_cons. cbn in N. inversion N as [|? ? A B]; subst. destruct (IH k B) as (C & D).
  destruct (Nat.eqb_spec j k) as [->|E]; [split; assumption|]. cbn [map fst]. split.
  - constructor; [|exact C]. intros I. apply A. apply in_map_iff in I. destruct I as ([i x] & <- & I). apply in_drop in I. apply in_map_iff. exists (i, x); tauto.
  - intros [I|I]; [congruence|tauto].
Qed.

Lemma live1 : forall o k x q, look k o = Some x -> count q (obj_cells (k, x)) <= count q (flat_map obj_cells o).
Proof. intros o k x q H. destruct (look_split o k x H) as (a & b & -> & _). rewrite count_flat. lia. Qed.
Lemma live2 : forall o k x i y q, look k o = Some x -> look i o = Some y -> k <> i ->
  count q (obj_cells (k, x)) + count q (obj_cells (i, y)) <= count q (flat_map obj_cells o).
Proof.
  intros o k x i y q H I N. destruct (look_split o k x H) as (a & b & E & A). rewrite E, count_flat.
  assert (J : look i (a ++ b) = Some y \/ In (i, y) (a ++ b)).
  { right. apply look_in in I. rewrite E in I. apply in_app_or in I. apply in_or_app. destruct I as [I|[I|I]]; [tauto|inversion I; congruence|tauto]. }
  assert (In (i, y) (a ++ b)) as K by (destruct J as [J|J]; [apply look_in, J|exact J]).
  apply in_split in K. destruct K as (c & d & ->). rewrite count_flat. lia.
Qed.

Lemma owner_put : forall o k x y, look k o = None -> owner o y -> owner ((k, x) :: o) y.
Proof.
  intros o k x y F W. assert (L : forall i z, look i o = Some z -> look i ((k, x) :: o) = Some z).
  { intros i z E. cbn. destruct (Nat.eqb_spec k i) as [->|N]; [congruence|exact E]. }
  destruct y; cbn [owner] in *; try exact I.
  - destruct W as (p & m & nq & g & E & G). exists p, m, nq, g. split; [apply L, E|exact G].
  - destruct W as (m0 & nq & E & G). exists m0, nq. split; [apply L, E|exact G].
  - destruct W as (p & m & nq & g & E & G). exists p, m, nq, g. split; [apply L, E|exact G].
Qed.
Lemma wf_put : forall o k x, wf o -> look k o = None -> owner o x -> wf ((k, x) :: o).
Proof.
  intros o k x (N & W) F X. split; [cbn; constructor; [apply fresh_not_in, F|exact N]|].
  intros j y [E|E]; [inversion E; subst; apply owner_put; assumption|]. apply owner_put; [exact F|apply (W j y E)].
Qed.
Lemma wf_drop : forall o k, wf o -> (forall j y, In (j, y) o -> ~ uses k y) -> wf (drop k o).
Proof.
  intros o k (N & W) U. split; [apply nodup_drop, N|]. intros j y H. apply in_drop in H. destruct H as (H & _). specialize (W j y H). specialize (U j y H).
  destruct y; cbn [owner uses] in *; try exact I.
  - destruct W as (p & m & nq & g & E & G). exists p, m, nq, g. rewrite look_drop by exact U. tauto.
  - destruct W as (m0 & nq & E & G). exists m0, nq. rewrite look_drop by exact U. tauto.
  - destruct W as (p & m & nq & g & E & G). exists p, m, nq, g. rewrite look_drop by exact U. tauto.
Qed.
Lemma not_pair_unused : forall o k x, wf o -> look k o = Some x -> (forall p m nq, x <> OPair p m nq) -> forall j y, In (j, y) o -> ~ uses k y.
Proof.
  intros o k x (N & W) L X j y H U. specialize (W j y H). destruct y; cbn [owner uses] in *; try tauto; subst i.
  - destruct W as (p & m & nq & g & E & _). rewrite L in E. inversion E. apply (X p m nq H1).
  - destruct W as (m0 & nq & E & _). rewrite L in E. inversion E. apply (X p m0 nq H1).
  - destruct W as (p & m & nq & g & E & _). rewrite L in E. inversion E. apply (X p m nq H1).
Qed.
Lemma wf_update : forall o i p m nq m' nq', wf o -> look i o = Some (OPair p m nq) -> (m' = m \/ forall k p m0, In (k, OPp i p (Some m0)) o -> m0 = m') ->
  wf ((i, OPair p m' nq') :: drop i o).
Proof.
  intros o i p m nq m' nq' (N & W) L M. destruct (nodup_drop o i N) as (N1 & N2). split; [cbn; constructor; assumption|].
  assert (LL : forall j z, j <> i -> look j o = Some z -> look j ((i, OPair p m' nq') :: drop i o) = Some z).
  { intros j z J E. cbn. destruct (Nat.eqb_spec i j); [congruence|]. rewrite look_drop by exact J. exact E. }
  assert (LI : look i ((i, OPair p m' nq') :: drop i o) = Some (OPair p m' nq')) by (cbn; rewrite Nat.eqb_refl; reflexivity).
  intros j y [E|E]; [inversion E; subst; exact I|]. apply in_drop in E. destruct E as (E & _). pose proof (W j y E) as O.
  destruct y; cbn [owner] in *; try exact I.
  - destruct O as (p1 & m1 & nq1 & g & A & G). destruct (Nat.eq_dec i0 i) as [->|J]; [|exists p1, m1, nq1, g; split; [apply LL; assumption|exact G]].
    rewrite L in A. inversion A; subst. exists p1, m', nq', g. split; [exact LI|reflexivity].
  - destruct O as (m1 & nq1 & A & G). destruct (Nat.eq_dec i0 i) as [->|J]; [|exists m1, nq1; split; [apply LL; assumption|exact G]].
    rewrite L in A. inversion A; subst. exists m', nq'. split; [exact LI|]. intros m2 Em. subst. destruct (G m2 eq_refl) as (-> & T).
    destruct M as [->|M]; [split; [reflexivity|exact T]|]. rewrite (M j p0 m1 E) in *. split; [reflexivity|exact T].
  - destruct O as (p1 & m1 & nq1 & g & A & G). destruct (Nat.eq_dec i0 i) as [->|J]; [|exists p1, m1, nq1, g; split; [apply LL; assumption|exact G]].
    rewrite L in A. inversion A; subst. exists p1, m', nq', g. split; [exact LI|reflexivity].
Qed.

Lemma put_step : forall o h k x m N, holds o h -> Inits N m (obj_cells (k, x)) -> (forall q, In q N -> 0 < count q (flat_map obj_cells o)) ->
  exists h', m h = Ok h' /\ holds ((k, x) :: o) h'.
Proof.
  intros o h k x m N H I G. destruct (I h) as (h' & E & C); [intros q Q; rewrite H; apply G, Q|]. exists h'. split; [exact E|].
  intros q. specialize (C q). rewrite count_nil in C. cbn [flat_map]. rewrite count_app, <- H. lia.
Qed.
Lemma del_step : forall o h k x m N, NoDup (map fst o) -> look k o = Some x -> holds o h -> Clears N m (obj_cells (k, x)) ->
  (forall q, In q N -> count q (obj_cells (k, x)) < count q (flat_map obj_cells o)) -> exists h', m h = Ok h' /\ holds (drop k o) h'.
Proof.
  intros o h k x m N ND L H I G. destruct (I h) as (h' & E & C); [intros q; rewrite H; apply live1, L|intros q Q; rewrite H; apply G, Q|].
  exists h'. split; [exact E|]. intros q. specialize (C q). rewrite count_nil, H in C. destruct (drop_split o k x ND L) as (a & b & Eo & ->).
  rewrite Eo, count_flat in C. lia.
Qed.
Lemma upd_holds : forall o h k x y B, NoDup (map fst o) -> look k o = Some x -> (forall q, count q h = count q (flat_map obj_cells o) + count q B) ->
  (forall q, count q (obj_cells (k, y)) = count q (obj_cells (k, x)) + count q B) -> holds ((k, y) :: drop k o) h.
Proof.
  intros o h k x y B ND L H C q. destruct (drop_split o k x ND L) as (a & b & Eo & ->). rewrite H, Eo, count_flat. cbn [flat_map]. rewrite count_app, C. lia.
Qed.

Lemma two_keys : forall o k x i y, look k o = Some x -> look i o = Some y -> x <> y -> k <> i.
Proof. intros o k x i y A B N ->. congruence. Qed.
Lemma init_nq_get : forall p P, pair_cells p P (nq_get (nq_of (init_nq p))) = pair_cells p P (init_nq p).
Proof. reflexivity. Qed.
Definition ppn' (p : pinfo) (P : path) : list path := match ty p with TE | TF | TI => [] | _ => ppn p P end.
Lemma ppn'_needs : forall p P nq q, In q (ppn' p P) -> 0 < count q (pair_cells p P nq).
Proof. intros p P nq q H. unfold ppn' in H. pose proof (ppn_needs p P nq q) as N. destruct (ty p); try (exfalso; exact H); apply N; try exact I; assumption. Qed.
Lemma pp_init_ok' : forall p P m K, table_ok p m -> Inits (ppn' p P) (pp_init p P m K) (pp_cells p P m K).
Proof.
  intros p P m K T. pose proof (pp_init_ok p P m K T) as H. unfold ppn', pp_init, pp_cells in *. destruct (ty p); try exact H; apply I_skip.
Qed.
Lemma pp_clear_ok' : forall p P m K, table_ok p m -> Clears (ppn' p P) (pp_clear p P m K) (pp_cells p P m K).
Proof.
  intros p P m K T. pose proof (pp_clear_ok p P m K T) as H. unfold ppn', pp_clear, pp_cells in *. destruct (ty p); try exact H; apply C_skip.
Qed.

Lemma elem_live : forall o k x i f, wf o -> look k o = Some x -> (x = OElem i f \/ exists bits, x = OTab i f bits) ->
  forall q, In q (cneeds f) -> count q (obj_cells (k, x)) < count q (flat_map obj_cells o).
Proof.
  intros o k x i f (N & W) L X q Q. pose proof (W k x (look_in _ _ _ L)) as O.
  assert (exists p m nq g, look i o = Some (OPair p m nq) /\ f = group p [i] g) as (p & m & nq & g & E & ->) by (destruct X as [->|(bits & ->)]; exact O).
  assert (K : k <> i) by (apply (two_keys o k x i _ L E); destruct X as [->|(bits & ->)]; discriminate).
  pose proof (live2 o k x i _ q L E K) as B. unfold obj_cells at 2 in B. cbn [fst snd] in B.
  pose proof (group_needs p [i] (nq_get nq) g q (cneeds_needs _ q Q)). lia.
Qed.
Lemma group_live : forall o i p m nq g, look i o = Some (OPair p m nq) -> forall q, In q (needs (group p [i] g)) -> 0 < count q (flat_map obj_cells o).
Proof.
  intros o i p m nq g L q Q. pose proof (live1 o i _ q L) as B. unfold obj_cells at 1 in B. cbn [fst snd] in B.
  pose proof (group_needs p [i] (nq_get nq) g q Q). lia.
Qed.

Theorem step_ok : forall c o h, wf o -> holds o h -> legal o c -> exists h', exec c (o, h) = Ok (after o c, h') /\ wf (after o c) /\ holds (after o c) h'.
Proof.
  intros c o h W H G. pose proof W as (ND & _).
  destruct c as [k p|k|i k|i p complete|i|i m|i s|e i g|e|k e zero|k|k e bits|k]; cbn [legal exec after] in *.
  - destruct (put_step o h k (OParam p) (param_init p [k]) [] H (param_init_ok p [k]) ltac:(intros ? [])) as (h' & E & H').
    exists h'. rewrite E. split; [reflexivity|]. split; [apply wf_put; [exact W|exact G|exact I]|exact H'].
  - destruct G as (p & L). rewrite L.
    destruct (del_step o h k (OParam p) (param_clear p [k]) [] ND L H (param_clear_ok p [k]) ltac:(intros ? [])) as (h' & E & H').
    exists h'. rewrite E. split; [reflexivity|]. split; [|exact H']. apply wf_drop; [exact W|]. apply (not_pair_unused o k _ W L). intros; discriminate.
  - destruct G as (F & p & L). rewrite L.
    destruct (put_step o h i (OPair p Miller (nq_of (init_nq p))) (need [0; k] >> pairing_init p [i]) [[0; k]] H) as (h' & E & H').
    + apply I_nseq; [left; reflexivity|]. apply (I_weak []); [|intros ? []]. exact (pairing_init_ok p [i]).
    + intros q [<-|[]]. pose proof (live1 o k _ [0; k] L) as B. unfold obj_cells at 1 in B. cbn [fst snd] in B. unfold param_cells in B. rewrite !count_app, count_cons, one_refl in B. lia.
    + exists h'. rewrite E. split; [reflexivity|]. split; [apply wf_put; [exact W|exact F|exact I]|exact H'].
  - destruct G as (F & ->).
    destruct (put_step o h i (OPair p Miller (nq_of (init_nq p))) (pairing_init_text p [i] [40; i] true) [] H (text_ok p [i] [40; i]) ltac:(intros ? [])) as (h' & E & H').
    exists h'. rewrite E. split; [reflexivity|]. split; [apply wf_put; [exact W|exact F|exact I]|exact H'].
  - destruct G as ((p & m & nq & L) & U). rewrite L.
    destruct (del_step o h i (OPair p m nq) (pairing_clear p [i] (nq_get nq)) [] ND L H (pairing_clear_ok p [i] (nq_get nq)) ltac:(intros ? [])) as (h' & E & H').
    exists h'. rewrite E. split; [reflexivity|]. split; [apply wf_drop; [exact W|exact U]|exact H'].
  - destruct G as ((p & m0 & nq & L) & U). rewrite L. exists h. split; [reflexivity|]. split; [apply (wf_update o i p m0 nq); [exact W|exact L|right; exact U]|].
    apply (upd_holds o h i (OPair p m0 nq) _ [] ND L); [intros q; rewrite H, count_nil; lia|intros q; rewrite count_nil, Nat.add_0_r; reflexivity].
  - destruct G as (p & m & nq & L & S). rewrite L.
    assert (exists h', get_nqr (slot_field p [i] s) (nq_get nq s) h = Ok h' /\
      forall q, count q h' = count q (flat_map obj_cells o) + count q (if nq_get nq s then [] else ncells (slot_field p [i] s) true)) as (h' & E & C).
    { assert (J : Inits (needs (slot_field p [i] s)) (get_nqr (slot_field p [i] s) (nq_get nq s)) (if nq_get nq s then [] else ncells (slot_field p [i] s) true)).
      { unfold get_nqr. apply (I_seq _ _ _ []); [apply I_touch', home_needs|]. destruct (nq_get nq s); [apply I_skip|apply gen_nqr_ok]. }
      destruct (J h) as (h' & E & C).
      - intros q Q. rewrite H. pose proof (live1 o i _ q L) as B. unfold obj_cells at 1 in B. cbn [fst snd] in B. pose proof (slot_needs p [i] (nq_get nq) s q S Q). lia.
      - exists h'. split; [exact E|]. intros q. specialize (C q). rewrite count_nil, H in C. lia. }
    exists h'. rewrite E. split; [reflexivity|]. split; [apply (wf_update o i p m nq); [exact W|exact L|left; reflexivity]|].
    apply (upd_holds o h' i (OPair p m nq) _ _ ND L C). intros q. unfold obj_cells. cbn [fst snd]. rewrite (nq_cells p [i] nq s q S). destruct (nq_get nq s); reflexivity.
  - destruct G as (F & p & m & nq & L). rewrite L.
    destruct (put_step o h e (OElem i (group p [i] g)) (elem_init (group p [i] g) [e]) _ H (elem_init_ok _ _) (group_live o i p m nq g L)) as (h' & E & H').
    exists h'. rewrite E. split; [reflexivity|]. split; [apply wf_put; [exact W|exact F|]|exact H']. exists p, m, nq, g. split; [exact L|reflexivity].
  - destruct G as (i & f & L). rewrite L.
    destruct (del_step o h e (OElem i f) (elem_clear f [e]) _ ND L H (elem_clear_ok _ _) (elem_live o e _ i f W L (or_introl eq_refl))) as (h' & E & H').
    exists h'. rewrite E. split; [reflexivity|]. split; [|exact H']. apply wf_drop; [exact W|]. apply (not_pair_unused o e _ W L). intros; discriminate.
  - destruct G as (F & i & f & p & m & nq & Le & L & T). rewrite Le, L. destruct zero.
    + exists h. split; [reflexivity|]. split; [apply wf_put; [exact W|exact F|]|exact H]. exists m, nq. split; [exact L|]. intros m' D; discriminate.
    + destruct T as [T|T]; [discriminate|].
      destruct (put_step o h k (OPp i p (Some m)) (pp_init p [i] m [k]) _ H (pp_init_ok' p [i] m [k] T)) as (h' & E & H').
      { intros q Q. pose proof (live1 o i _ q L) as B. unfold obj_cells at 1 in B. cbn [fst snd] in B. pose proof (ppn'_needs p [i] (nq_get nq) q Q). lia. }
      exists h'. rewrite E. split; [reflexivity|]. split; [apply wf_put; [exact W|exact F|]|exact H']. exists m, nq. split; [exact L|]. intros m' D; inversion D; subst; auto.
  - destruct G as (i & p & mm & L). rewrite L. pose proof W as (_ & WO). destruct (WO k _ (look_in _ _ _ L)) as (m & nq & Li & D).
    assert (WD : wf (drop k o)) by (apply wf_drop; [exact W|]; apply (not_pair_unused o k _ W L); intros; discriminate).
    destruct mm as [m'|].
    + rewrite Li. destruct (D m' eq_refl) as (-> & T).
      destruct (del_step o h k (OPp i p (Some m)) (pp_clear p [i] m [k]) _ ND L H (pp_clear_ok' p [i] m [k] T)) as (h' & E & H').
      { intros q Q. assert (K : k <> i) by (apply (two_keys o k _ i _ L Li); discriminate). pose proof (live2 o k _ i _ q L Li K) as B. unfold obj_cells at 2 in B. cbn [fst snd] in B.
        pose proof (ppn'_needs p [i] (nq_get nq) q Q). lia. }
      exists h'. rewrite E. split; [reflexivity|]. split; [exact WD|exact H'].
    + destruct (del_step o h k (OPp i p None) skip [] ND L H (C_skip []) ltac:(intros ? [])) as (h' & E & H').
      exists h'. rewrite E. split; [reflexivity|]. split; [exact WD|exact H'].
  - destruct G as (F & i & f & L). rewrite L. pose proof W as (_ & WO). destruct (WO e _ (look_in _ _ _ L)) as (p & m & nq & g & Li & ->).
    destruct (put_step o h k (OTab i (group p [i] g) bits) (element_pp_init (group p [i] g) bits [k]) _ H (epp_init_ok _ _ _) (group_live o i p m nq g Li)) as (h' & E & H').
    exists h'. rewrite E. split; [reflexivity|]. split; [apply wf_put; [exact W|exact F|]|exact H']. exists p, m, nq, g. split; [exact Li|reflexivity].
  - destruct G as (i & f & bits & L). rewrite L.
    destruct (del_step o h k (OTab i f bits) (element_pp_clear f bits [k]) _ ND L H (epp_clear_ok _ _ _) (elem_live o k _ i f W L (or_intror (ex_intro _ bits eq_refl)))) as (h' & E & H').
    exists h'. rewrite E. split; [reflexivity|]. split; [|exact H']. apply wf_drop; [exact W|]. apply (not_pair_unused o k _ W L). intros; discriminate.
Qed.

Theorem run_ok : forall cs o h, wf o -> holds o h -> legals o cs ->
  exists h', execs cs (o, h) = Ok (afters o cs, h') /\ wf (afters o cs) /\ holds (afters o cs) h'.
Proof.
  induction cs as [|c cs IH]; intros o h W H G; [exists h; repeat split; try apply W; exact H|]. cbn [legals execs afters] in *. destruct G as (G1 & G2).
  destruct (step_ok c o h W H G1) as (h1 & E & W1 & H1). rewrite E. cbn [bind]. apply IH; assumption.
Qed.
Lemma wf_nil : wf []. Proof. split; [constructor|intros k x []]. Qed.
Lemma holds_nil : holds [] []. Proof. intros q; reflexivity. Qed.
Theorem legal_runs : forall cs, legals [] cs -> exists h, execs cs ([], []) = Ok (afters [] cs, h).
Proof. intros cs G. destruct (run_ok cs [] [] wf_nil holds_nil G) as (h & E & _). exists h; exact E. Qed.
Theorem nothing_left : forall cs, legals [] cs -> afters [] cs = [] -> execs cs ([], []) = Ok ([], []).
Proof.
  intros cs G A. destruct (run_ok cs [] [] wf_nil holds_nil G) as (h & E & _ & H). rewrite A in E, H. refine (eq_trans E _). do 2 f_equal. apply count_all0. exact H.
Qed.
Lemma count_occ_count : forall l q, count_occ path_dec l q = count q l.
Proof. induction l as [|x l IH]; intros q; [reflexivity|]. cbn [count_occ count]. unfold one. rewrite IH. destruct (path_dec x q), (path_dec q x); try lia; congruence. Qed.
Lemma flat_perm : forall o o', Permutation o o' -> forall q, count q (flat_map obj_cells o) = count q (flat_map obj_cells o').
Proof.
  intros o o' P q. induction P; cbn [flat_map]; rewrite ?count_app; try lia.
Qed.
Theorem same_objects_same_storage : forall cs cs' h h', legals [] cs -> legals [] cs' -> Permutation (afters [] cs) (afters [] cs') ->
  execs cs ([], []) = Ok (afters [] cs, h) -> execs cs' ([], []) = Ok (afters [] cs', h') -> Permutation h h'.
Proof.
  intros cs cs' h h' G G' P E E'. destruct (run_ok cs [] [] wf_nil holds_nil G) as (h1 & E1 & _ & H1). destruct (run_ok cs' [] [] wf_nil holds_nil G') as (h2 & E2 & _ & H2).
  pose proof (eq_trans (eq_sym E) E1) as X1. inversion X1; subst h1. pose proof (eq_trans (eq_sym E') E2) as X2. inversion X2; subst h2.
  apply (Permutation_count_occ path_dec). intros q. rewrite !count_occ_count, H1, H2. apply flat_perm, P.
Qed.

(** ** Everything can be cleared *)
Definition clear_of (x : nat * obj) : call :=
  match snd x with OParam _ => CParamClear (fst x) | OPair _ _ _ => CPairingClear (fst x) | OElem _ _ => CElemClear (fst x) | OPp _ _ _ => CPpClear (fst x) | OTab _ _ _ => CTableClear (fst x) end.
Lemma after_clear : forall o x, after o (clear_of x) = drop (fst x) o.
Proof. intros o [k x]. destruct x; reflexivity. Qed.
Lemma drop_shorter : forall o k x, NoDup (map fst o) -> look k o = Some x -> S (length (drop k o)) = length o.
Proof. intros o k x N L. destruct (drop_split o k x N L) as (a & b & -> & ->). rewrite !app_length. cbn. lia. Qed.
Definition is_pair (x : nat * obj) : bool := match snd x with OPair _ _ _ => true | _ => false end.
Lemma clear_all : forall n o, length o = n -> wf o -> exists xs, legals o (map clear_of xs) /\ afters o (map clear_of xs) = [].
Proof.
  induction n as [|n IH]; intros o Hn W; [destruct o; [exists []; split; [exact I|reflexivity]|discriminate]|]. pose proof W as (ND & _).
  assert (exists x, In x o /\ (is_pair x = true -> forall j y, In (j, y) o -> forall k, ~ uses k y)) as (x & X & U).
  { destruct (existsb (fun x => negb (is_pair x)) o) eqn:Ex.
    - apply existsb_exists in Ex. destruct Ex as (x & X & B). exists x. split; [exact X|]. intros T. rewrite T in B. discriminate.
    - destruct o as [|x o]; [discriminate|]. exists x. split; [left; reflexivity|]. intros _ j y J k Uy.
      assert (existsb (fun x => negb (is_pair x)) (x :: o) = true) as T; [|congruence]. apply existsb_exists. exists (j, y). split; [exact J|]. destruct y; try destruct Uy; reflexivity. }
  destruct x as [k x]. assert (L : look k o = Some x) by (apply in_look; assumption).
  assert (G : legal o (clear_of (k, x))).
  { destruct x; cbn; try (repeat eexists; exact L). split; [repeat eexists; exact L|]. intros j y J. apply (U eq_refl j y J). }
  assert (W' : wf (drop k o)).
  { apply wf_drop; [exact W|]. destruct x; try (apply (not_pair_unused o k _ W L); intros; discriminate). intros j y J. apply (U eq_refl j y J). }
  destruct (IH (drop k o)) as (xs & A & B); [pose proof (drop_shorter o k x ND L); lia|exact W'|].
  exists ((k, x) :: xs). cbn [map legals afters]. rewrite after_clear. cbn [fst]. repeat split; assumption.
Qed.
Lemma legals_app : forall a b o, legals o (a ++ b) <-> legals o a /\ legals (afters o a) b.
Proof. induction a as [|c a IH]; intros b o; cbn [app legals afters]; [tauto|]. rewrite IH. tauto. Qed.
Lemma afters_app : forall a b o, afters o (a ++ b) = afters (afters o a) b.
Proof. induction a as [|c a IH]; intros b o; cbn [app afters]; [reflexivity|apply IH]. Qed.
Theorem can_finish : forall cs, legals [] cs -> exists xs, legals [] (cs ++ map clear_of xs) /\ execs (cs ++ map clear_of xs) ([], []) = Ok ([], []).
Proof.
  intros cs G. destruct (run_ok cs [] [] wf_nil holds_nil G) as (h & _ & W & _). destruct (clear_all _ _ eq_refl W) as (xs & A & B).
  exists xs. assert (L : legals [] (cs ++ map clear_of xs)) by (apply legals_app; tauto). split; [exact L|]. apply nothing_left; [exact L|]. rewrite afters_app. exact B.
Qed.

(** ** Leaks *)
Theorem missing_key_leak : forall i p, exists h, execs [CPairingText i p false] ([], []) = Ok ([], h) /\ h <> [].
Proof.
  intros i p. cbn [execs exec]. unfold pairing_init_text.
  destruct (I_seq [] _ _ _ _ (param_init_ok p [40; i]) (I_skip []) []) as (h & E & C); [intros q []|].
  exists h. rewrite E. cbn [bind]. split; [reflexivity|]. intros ->. specialize (C [0; 40; i]). unfold param_cells in C. rewrite !count_app, !count_cons, one_refl, !count_nil in C. lia.
Qed.
Definition a1_blocks (K : path) (i n : nat) : list path := cat n (fun j => [0 :: 2 + (i + j) :: K]).
Lemma a1_loop_ok : forall p P K m i, exists L, Inits (ppn p P) (a1_pp_loop p P K i m) (a1_blocks K i (S m) ++ L) /\ 0 < count (0 :: 1 :: 2 + (i + m) :: K) L.
Proof.
  intros p P K. assert (T : forall i two, Inits (ppn p P) (inits (a1_entry p P K i two)) (flat_map pc (a1_entry p P K i two))).
  { intros i two. apply temps_in. intros f e H. unfold a1_entry in H. apply in_map_iff in H. destruct H as (j & E & _). inversion E; auto. }
  assert (S0 : forall i m, same (a1_blocks K i (S m)) ([0 :: 2 + i :: K] ++ a1_blocks K (S i) m)).
  { intros i m q. unfold a1_blocks. replace (S m) with (1 + m) by lia. rewrite cat_add, !count_app. cbn [cat app]. rewrite Nat.add_0_r. f_equal.
    apply cat_same. intros j _ q'. do 5 f_equal. lia. }
  induction m as [|m IH]; intros i; cbn [a1_pp_loop].
  - exists (flat_map pc (a1_entry p P K i false)). split.
    + eapply I_same; [apply I_seq; [apply I_alloc|apply T]|]. intros q. rewrite !count_app, S0, count_app. unfold a1_blocks. cbn [cat]. rewrite count_nil. unfold path in *. lia.
    + rewrite Nat.add_0_r. unfold a1_entry. cbn [map flat_map]. rewrite count_app. unfold pc at 1. cbn [fst snd]. unfold Fq. destruct (qi p); cbn [cells]; rewrite count_cons, one_refl; lia.
  - destruct (IH (S i)) as (L & A & B). exists (flat_map pc (a1_entry p P K i (Base.Gmp.mpz_tstbit (rr p) (Z.of_nat (S m)))) ++ L). split.
    + eapply I_same; [apply I_seq; [apply I_alloc|apply I_seq; [apply T|exact A]]|]. intros q. rewrite !count_app, (S0 i (S m)), count_app. unfold path in *. lia.
    + rewrite count_app. replace (i + S m) with (S i + m) by lia. lia.
Qed.

Lemma a1_init_ok : forall p P K, exists L, Inits (ppn p P) (a1_pp_init p P K) ([0 :: K] ++ a1_blocks K 0 (S (start_bit (rr p))) ++ L) /\ L <> [].
Proof.
  intros p P K. destruct (a1_loop_ok p P K (start_bit (rr p)) 0) as (L & A & B). exists L. split; [|intros ->; rewrite count_nil in B; lia].
  unfold a1_pp_init. apply I_nseq; [apply data_ppn|]. apply I_seq; [apply I_alloc|].
  assert (T : forall f e, In (f, e) (a1_temps p P) -> f = Fq p P \/ f = Eq p P).
  { intros f e [H|H]; [inversion H; auto|]. apply in_map_iff in H. destruct H as (j & E & _). inversion E; auto. }
  apply (I_temps _ (ppn p P) _ _ _ (flat_map pc (a1_temps p P)) (flat_map pc (a1_temps p P)));
    [apply temps_in, T|exact A|apply temps_in, T|intros q; reflexivity|apply incl_refl].
Qed.
Lemma a1_clear_ok : forall p K, Clears [] (a1_pp_clear p K) ([0 :: K] ++ a1_blocks K 0 (S (start_bit (rr p)))).
Proof.
  intros p K. unfold a1_pp_clear. eapply C_same.
  - apply (C_then [0 :: K]); [apply C_need| |].
    + apply C_seq; [apply (C_upto [] (fun i => release (0 :: 2 + i :: K)) (fun i => [0 :: 2 + i :: K])); intros i _; apply C_release|apply C_release].
    + intros q [<-|[]]. right. rewrite !in_app_iff. simpl. tauto.
  - intros q. unfold a1_blocks. cbn [Nat.add]. repeat rewrite ?count_app, ?count_cons, ?count_nil. unfold path in *. lia.
Qed.
Theorem a1_table_leak : forall p, ty p = TA1 -> exists h,
  execs [CPairingText 0 p true; CElem 1 0 G1; CPp 2 1 false; CPpClear 2; CElemClear 1; CPairingClear 0] ([], []) = Ok ([], h) /\ h <> [].
Proof.
  intros p T. set (cs := [CPairingText 0 p true; CElem 1 0 G1]).
  assert (G : legals [] cs) by (cbn; repeat split; eauto).
  destruct (run_ok cs [] [] wf_nil holds_nil G) as (h & E & _ & H).
  change [CPairingText 0 p true; CElem 1 0 G1; CPp 2 1 false; CPpClear 2; CElemClear 1; CPairingClear 0] with (cs ++ [CPp 2 1 false; CPpClear 2; CElemClear 1; CPairingClear 0]).
  assert (X : forall a b st, execs (a ++ b) st = (st' <- execs a st ;; execs b st')).
  { induction a as [|c a IH]; intros b st; [reflexivity|]. cbn [app execs]. destruct (exec c st); cbn [bind]; [apply IH|reflexivity|reflexivity|reflexivity]. }
  rewrite X. assert (E' : execs cs ([], []) = Ok (afters [] cs, h)) by exact E. rewrite E'. clear E E' X. unfold cs in *. cbn [afters after look Nat.eqb] in *.
  set (pr := OPair p Miller (nq_of (init_nq p))) in *. set (f := group p [0] G1) in *.
  assert (N : forall q, In q (ppn p [0]) -> 0 < count q (pair_cells p [0] (nq_get (nq_of (init_nq p))))) by (intros q; apply ppn_needs; rewrite T; exact I).
  assert (H0 : forall q, count q h = count q (cells f [1]) + count q (pair_cells p [0] (nq_get (nq_of (init_nq p))))).
  { intros q. rewrite H. unfold pr. cbn [flat_map obj_cells fst snd]. rewrite !count_app, count_nil. lia. }
  destruct (a1_init_ok p [0] [2]) as (L & A & NL).
  destruct (A h) as (h1 & E1 & C1); [intros q Q; specialize (N q Q); rewrite H0; lia|].
  destruct (a1_clear_ok p [2] h1) as (h2 & E2 & C2); [intros q; specialize (C1 q); rewrite !count_app, count_nil in *; lia|intros q []|].
  assert (H2 : forall q, count q h2 = count q (cells f [1]) + count q (pair_cells p [0] (nq_get (nq_of (init_nq p)))) + count q L).
  { intros q. specialize (C1 q); specialize (C2 q); specialize (H0 q). rewrite !count_app, !count_nil in *. lia. }
  destruct (elem_clear_ok f [1] h2) as (h3 & E3 & C3).
  { intros q. rewrite H2. lia. }
  { intros q Q. rewrite H2. pose proof (group_needs p [0] (nq_get (nq_of (init_nq p))) G1 q (cneeds_needs _ q Q)). lia. }
  destruct (pairing_clear_ok p [0] (nq_get (nq_of (init_nq p))) h3) as (h4 & E4 & C4); [intros q; specialize (C3 q); rewrite H2, count_nil in C3; lia|intros q []|].
  assert (I0 : forall K, pp_init p [0] Miller K = a1_pp_init p [0] K) by (intros K; unfold pp_init; rewrite T; reflexivity).
  assert (D0 : forall K, pp_clear p [0] Miller K = a1_pp_clear p K) by (intros K; unfold pp_clear; rewrite T; reflexivity).
  exists h4. unfold pr. cbn [bind execs]. unfold exec at 1. cbn [look Nat.eqb]. rewrite I0, E1. cbn [bind].
  unfold exec at 1. cbn [look Nat.eqb]. rewrite D0, E2. cbn [bind drop filter fst negb Nat.eqb].
  unfold exec at 1. cbn [look Nat.eqb]. rewrite E3. cbn [bind drop filter fst negb Nat.eqb].
  unfold exec at 1. cbn [look Nat.eqb]. rewrite E4. cbn [bind drop filter fst negb Nat.eqb]. split; [reflexivity|].
  intros ->. destruct L as [|x L]; [congruence|]. specialize (C4 x); specialize (C3 x); specialize (H2 x). rewrite !count_nil in *. rewrite count_cons, one_refl in H2. lia.
Qed.
Theorem can_finish' : forall cs, legals [] cs -> exists cs', legals [] (cs ++ cs') /\ execs (cs ++ cs') ([], []) = Ok ([], []).
Proof. intros cs G. destruct (can_finish cs G) as (xs & H). exists (map clear_of xs). exact H. Qed.
Theorem option_under_table : exists p, execs [CPairingText 0 p true; CElem 1 0 G1; CPp 2 1 false; COption 0 Net; CPpClear 2] ([], []) = UB.
Proof. exists {| ty := TA 1 3; zi := Mont; qi := Mont; rr := 11%Z |}. vm_compute. reflexivity. Qed.
Theorem all_ones_overrun : exists p, ty p = TD 3 /\ rr p = 7%Z /\ execs [CPairingText 0 p true; CElem 1 0 G1; CPp 2 1 false] ([], []) = UB.
Proof. exists {| ty := TD 3; zi := Mont; qi := Mont; rr := 7%Z |}. split; [reflexivity|]. split; [reflexivity|]. vm_compute. reflexivity. Qed.
