(** Dynamic arrays and symbol tables. *)
From Coq Require Import ZArith List Bool Lia Arith.
From Verif.Base Require Import Outcome Array.
From Verif.Model Require Import Memory Darray Symtab.
From Verif.Spec Require Import Sequences.
From Verif.Proofs Require Import ArrayFacts.
Import ListNotations.

Section D.
Context {A : Type}.
Variable junk : nat -> list A.
Hypothesis Hj : forall n, length (junk n) = n.
Variable eqb : A -> A -> bool.

Definition rep (a : darray A) (l : list A) : Prop :=
  length (item a) = max a /\ count a = length l /\ exists rest, item a = l ++ rest.

Lemma rep_init : rep (darray_init junk) [].
Proof. split; [apply Hj|]. split; [reflexivity|]. exists (junk max_init). reflexivity. Qed.

Lemma grow : forall b l rest n, rest = [] -> n > length (l ++ rest) ->
  exists rest', pbc_realloc junk b (l ++ rest) n = Ok (l ++ rest') /\ length (l ++ rest') = n /\ rest' <> [].
Proof.
  intros b l rest n -> Hn. rewrite app_nil_r in *. exists (skipn (length l) (junk n)).
  assert (L : length (l ++ skipn (length l) (junk n)) = n). { rewrite app_length, skipn_length, Hj. lia. }
  split; [|split; auto].
  - destruct b; simpl.
    + unfold plain_realloc. destruct (Nat.eqb_spec n 0); [lia|]. rewrite firstn_all2 by lia. reflexivity.
    + unfold safe_realloc, memcpy. rewrite Hj.
      replace (length l <=? n) with true by (symmetry; apply Nat.leb_le; lia). rewrite Nat.leb_refl. simpl.
      rewrite firstn_all. reflexivity.
  - intros E. rewrite E, app_nil_r in L. lia.
Qed.

Lemma append_spec : forall b a l x, rep a l -> exists a', darray_append b junk a x = Ok a' /\ rep a' (l ++ [x]).
Proof.
  intros b a l x [H1 [H2 [rest H3]]]. unfold darray_append.
  assert (G : exists m it rest', (if count a =? max a then
       let m := if max a =? 0 then max_init else max a * 2 in
       it <- pbc_realloc junk b (item a) m ;; Ok {| max := m; count := count a; item := it |} else Ok a)
     = Ok {| max := m; count := count a; item := it |} /\ length it = m /\ it = l ++ rest' /\ rest' <> []).
  { destruct (Nat.eqb_spec (count a) (max a)) as [E|E].
    - assert (R : rest = []). { destruct rest; auto. exfalso. rewrite H3, app_length in H1. simpl in H1. lia. }
      set (m := if max a =? 0 then max_init else max a * 2).
      destruct (grow b l rest m R) as [rest' [E1 [E2 E3]]].
      { rewrite <- H3, H1. unfold m, max_init. destruct (Nat.eqb_spec (max a) 0); lia. }
      cbv zeta. rewrite H3, E1. cbn [bind]. exists m, (l ++ rest'), rest'. auto.
    - exists (max a), (item a), rest. split; [destruct a; reflexivity|]. split; auto. split; auto.
      intros ->. rewrite H3, app_nil_r in H1. lia. }
  cbv zeta in G. destruct G as (m & it & rest' & -> & G1 & G2 & G3). cbn [bind item count max].
  destruct rest' as [|y rest']; [congruence|].
  rewrite G2, H2, put_app by reflexivity. cbn [bind]. eexists. split; [reflexivity|].
  split; [|split]; cbn [item count max].
  - rewrite G2 in G1. rewrite app_length in *. simpl in *. lia.
  - rewrite app_length. simpl. lia.
  - exists rest'. rewrite <- app_assoc. reflexivity.
Qed.

Lemma memmove_remove : forall (l l' rest : list A) x,
  exists rest', memmove (l ++ x :: l' ++ rest) (length l) (length l + 1) (length l') = Ok ((l ++ l') ++ rest') /\
    length ((l ++ l') ++ rest') = length (l ++ x :: l' ++ rest).
Proof.
  intros l l' rest x. unfold memmove. destruct (Nat.eqb_spec (length l') 0) as [E|E].
  - destruct l'; [|discriminate]. exists (x :: rest). rewrite app_nil_r. split; reflexivity.
  - set (it := l ++ x :: l' ++ rest).
    assert (LI : length it = length l + S (length l' + length rest)) by (unfold it; rewrite app_length; simpl; rewrite app_length; reflexivity).
    replace (length l + length l' <=? length it) with true by (symmetry; apply Nat.leb_le; lia).
    replace (length l + 1 + length l' <=? length it) with true by (symmetry; apply Nat.leb_le; lia). cbn [andb].
    exists (skipn (length l + length l') it). split.
    + f_equal. rewrite <- app_assoc. f_equal.
      * unfold it. rewrite firstn_app, firstn_all, Nat.sub_diag. simpl. apply app_nil_r.
      * f_equal. unfold it. rewrite skipn_app. rewrite skipn_all2 by lia.
        replace (length l + 1 - length l) with 1 by lia. simpl. rewrite firstn_app, firstn_all, Nat.sub_diag. simpl. apply app_nil_r.
    + rewrite app_length, app_length, skipn_length. lia.
Qed.

Lemma index_spec : forall a l x l', rep a (l ++ x :: l') ->
  exists a', darray_remove_index a (length l) = Ok a' /\ rep a' (l ++ l').
Proof.
  intros a l x l' [H1 [H2 [rest H3]]]. unfold darray_remove_index. rewrite app_length in H2. simpl in H2.
  destruct (Nat.eqb_spec (count a) 0); [lia|].
  destruct (Nat.ltb_spec (count a - 1) (length l)); [lia|].
  replace (count a - 1 - length l) with (length l') by lia.
  rewrite <- app_assoc in H3. cbn [app] in H3. rewrite H3.
  destruct (memmove_remove l l' rest x) as [rest' [-> E2]]. cbn [bind]. eexists. split; [reflexivity|].
  split; [|split]; cbn [item count max].
  - rewrite E2, <- H3. auto.
  - rewrite app_length. lia.
  - exists rest'. reflexivity.
Qed.

Lemma index_loop_spec : forall l pre rest p,
  index_loop eqb (pre ++ l ++ rest) (length l) (length pre) p =
  Ok (match position (fun y => eqb y p) l with Some i => Some (length pre + i) | None => None end).
Proof.
  induction l as [|y l IH]; intros pre rest p; [reflexivity|].
  cbn [length index_loop app]. rewrite get_app by reflexivity. cbn [bind position].
  destruct (eqb y p). { rewrite Nat.add_0_r. reflexivity. }
  replace (S (length pre)) with (length (pre ++ [y])) by (rewrite app_length; simpl; lia).
  replace (pre ++ y :: l ++ rest) with ((pre ++ [y]) ++ l ++ rest) by (rewrite <- app_assoc; reflexivity).
  rewrite IH. destruct (position _ l); auto. rewrite app_length. cbn [length]. do 2 f_equal. lia.
Qed.

Lemma index_of_spec : forall a l x, rep a l -> darray_index_of eqb a x = Ok (position (fun y => eqb y x) l).
Proof.
  intros a l x [H1 [H2 [rest H3]]]. unfold darray_index_of. rewrite H2, H3.
  pose proof (index_loop_spec l [] rest x) as E. simpl in E. rewrite E. destruct (position _ l); reflexivity.
Qed.

Lemma position_split : forall t (l : list A) i, position t l = Some i ->
  exists l1 x l2, l = l1 ++ x :: l2 /\ length l1 = i /\ t x = true /\ forall y, In y l1 -> t y = false.
Proof.
  intros t. induction l as [|y l IH]; intros i H; [discriminate|]. simpl in H. destruct (t y) eqn:E.
  - injection H as <-. exists [], y, l. repeat split; auto. intros z [].
  - destruct (position t l) as [j|] eqn:P; [|discriminate]. injection H as <-.
    destruct (IH j eq_refl) as (l1 & x & l2 & -> & L & T & N). exists (y :: l1), x, l2. simpl. repeat split; auto.
    intros z [<-|Hz]; auto.
Qed.

Lemma remove_first_split : forall x l1 z l2, eqb z x = true -> (forall y, In y l1 -> eqb y x = false) ->
  remove_first eqb x (l1 ++ z :: l2) = l1 ++ l2.
Proof.
  intros x l1 z l2 Hz. induction l1 as [|y l1 IH]; intros N; simpl.
  - rewrite Hz. reflexivity.
  - rewrite N by (left; auto). f_equal. apply IH. intros w Hw. apply N. right; auto.
Qed.
Lemma remove_first_none : forall x l, position (fun y => eqb y x) l = None -> remove_first eqb x l = l.
Proof.
  intros x. induction l as [|y l IH]; simpl; auto. destruct (eqb y x); [discriminate|].
  destruct (position _ l); [discriminate|]. intros _. rewrite IH; auto.
Qed.

Lemma remove_spec : forall a l x, rep a l -> exists a', darray_remove eqb a x = Ok a' /\ rep a' (remove_first eqb x l).
Proof.
  intros a l x R. unfold darray_remove. rewrite (index_of_spec a l x R). cbn [bind].
  destruct (position (fun y => eqb y x) l) as [i|] eqn:P.
  - destruct (position_split _ _ _ P) as (l1 & z & l2 & -> & <- & T & N).
    rewrite remove_first_split by auto. destruct R as [H1 [H2 [rest H3]]].
    rewrite app_length in H2. simpl in H2. replace (count a - 1 - length l1) with (length l2) by lia.
    rewrite <- app_assoc in H3. cbn [app] in H3. rewrite H3.
    destruct (memmove_remove l1 l2 rest z) as [rest' [-> E2]]. cbn [bind]. eexists. split; [reflexivity|].
    split; [|split]; cbn [item count max].
    + rewrite E2, <- H3. auto.
    + rewrite app_length. lia.
    + exists rest'. reflexivity.
  - rewrite remove_first_none by auto. eauto.
Qed.

Lemma items_loop_spec : forall (l : list A) pre rest, items_loop (pre ++ l ++ rest) (length l) (length pre) = Ok l.
Proof.
  induction l as [|y l IH]; intros pre rest; [reflexivity|].
  cbn [length items_loop app]. rewrite get_app by reflexivity. cbn [bind].
  replace (S (length pre)) with (length (pre ++ [y])) by (rewrite app_length; simpl; lia).
  replace (pre ++ y :: l ++ rest) with ((pre ++ [y]) ++ l ++ rest) by (rewrite <- app_assoc; reflexivity).
  rewrite IH. reflexivity.
Qed.
Lemma at_test_loop_spec : forall t (l : list A) pre rest, at_test_loop (pre ++ l ++ rest) (length l) (length pre) t = Ok (find t l).
Proof.
  intros t. induction l as [|y l IH]; intros pre rest; [reflexivity|].
  cbn [length at_test_loop app find]. rewrite get_app by reflexivity. cbn [bind]. destruct (t y); auto.
  replace (S (length pre)) with (length (pre ++ [y])) by (rewrite app_length; simpl; lia).
  replace (pre ++ y :: l ++ rest) with ((pre ++ [y]) ++ l ++ rest) by (rewrite <- app_assoc; reflexivity).
  rewrite IH. reflexivity.
Qed.

Lemma copy_spec : forall d ld a l, rep d ld -> rep a l -> l <> [] ->
  exists d', darray_copy Plain junk d a = Ok d' /\ rep d' l.
Proof.
  intros d ld a l [D1 [D2 [rd D3]]] [H1 [H2 [rest H3]]] N. unfold darray_copy, darray_realloc. cbn [pbc_realloc].
  unfold plain_realloc. destruct (Nat.eqb_spec (count a) 0) as [E|E].
  { exfalso. apply N. destruct l; auto. simpl in H2. lia. }
  cbn [bind item max]. unfold memcpy.
  set (blk := firstn (count a) (item d) ++ skipn (length (item d)) (junk (count a))).
  assert (LB : length blk = count a).
  { unfold blk. rewrite app_length, firstn_length, skipn_length, Hj. lia. }
  rewrite LB, Nat.leb_refl. replace (count a <=? length (item a)) with true.
  2: { symmetry. apply Nat.leb_le. rewrite H3, app_length. lia. }
  cbn [andb bind]. eexists. split; [reflexivity|]. 
  assert (F : firstn (count a) (item a) = l). { rewrite H3, H2, firstn_app, firstn_all, Nat.sub_diag. simpl. apply app_nil_r. }
  split; [|split]; cbn [item count max]; auto.
  - rewrite app_length, F, skipn_length, LB. lia.
  - eexists. rewrite F. reflexivity.
Qed.

Lemma step_spec : forall s t c t' os, (forall r, rep (s r) (t r)) -> dspec eqb t c t' os ->
  exists s', darray_step Plain junk eqb s c = Ok (s', os) /\ forall r, rep (s' r) (t' r).
Proof.
  intros s t c t' os R H. 
  assert (U : forall r a l, rep a l -> forall i, rep (set_reg s r a i) (set_reg t r l i)).
  { intros r a l Ha i. unfold set_reg. destruct (Nat.eqb i r); auto. }
  destruct H; cbn [darray_step].
  - destruct (append_spec Plain (s r) (t r) x (R r)) as [a' [-> Ra]]. cbn [bind]. eauto.
  - unfold darray_remove_last. destruct (R r) as [H1 [H2 [rest H3]]]. rewrite H, app_length in H2. simpl in H2.
    destruct (Nat.eqb_spec (count (s r)) 0); [lia|]. cbn [bind]. eexists. split; [reflexivity|]. apply U.
    split; [|split]; cbn [item count max]; auto; [lia|]. exists (x :: rest). rewrite H3, H, <- app_assoc. reflexivity.
  - pose proof (R r) as Rr. rewrite H in Rr. destruct (index_spec _ _ _ _ Rr) as [a' [-> Ra]]. cbn [bind]. eauto.
  - destruct (remove_spec (s r) (t r) x (R r)) as [a' [-> Ra]]. cbn [bind]. eauto.
  - eexists. split; [reflexivity|]. apply U. apply rep_init.
  - destruct (copy_spec (s d) (t d) (s r) (t r) (R d) (R r) H0) as [a' [-> Ra]]. cbn [bind]. eauto.
  - destruct (R r) as [H1 [H2 H3]]. rewrite H2. eauto.
  - unfold darray_at. destruct (R r) as [H1 [H2 [rest H3]]]. rewrite H3, H, <- app_assoc. cbn [app].
    rewrite get_app by reflexivity. cbn [bind]. eauto.
  - rewrite (index_of_spec _ _ _ (R r)). cbn [bind]. eauto.
  - unfold darray_forall. destruct (R r) as [H1 [H2 [rest H3]]]. rewrite H3, H2.
    pose proof (items_loop_spec (t r) [] rest) as E. simpl in E. rewrite E. cbn [bind]. eauto.
  - unfold darray_at_test. destruct (R r) as [H1 [H2 [rest H3]]]. rewrite H3, H2.
    pose proof (at_test_loop_spec t0 (t r) [] rest) as E. simpl in E. rewrite E. cbn [bind]. eauto.
Qed.

Lemma run_spec : forall t h os, dspec_run eqb t h os -> forall s, (forall r, rep (s r) (t r)) ->
  darray_run Plain junk eqb s h = Ok os.
Proof.
  intros t h os H. induction H as [t|t c t' o1 h o2 Hc Hr IH]; intros s R; [reflexivity|].
  cbn [darray_run]. destruct (step_spec s t c t' o1 R Hc) as [s' [-> R']]. cbn [bind fst snd].
  rewrite (IH s' R'). reflexivity.
Qed.

Lemma session_spec : forall h os, dspec_run eqb (fun _ => []) h os ->
  darray_run Plain junk eqb (fun _ => darray_init junk) h = Ok os.
Proof. intros h os H. eapply run_spec; eauto. intros r. apply rep_init. Qed.
End D.

Section S.
Context {D : Type}.
Variable junk : nat -> list (list Z * D).
Hypothesis Hj : forall n, length (junk n) = n.

Fixpoint lookup (l : list (list Z * D)) (k : list Z) : option D :=
  match l with [] => None | (k', d) :: l' => if key_eqb k' k then Some d else lookup l' k end.

Lemma find_entry_spec : forall (l : list (list Z * D)) pre rest k,
  find_entry (pre ++ l ++ rest) (length l) (length pre) k =
  Ok (match position (fun e => key_eqb (fst e) k) l with Some i => Some (length pre + i) | None => None end).
Proof.
  induction l as [|y l IH]; intros pre rest k; [reflexivity|].
  cbn [length find_entry app]. rewrite get_app by reflexivity. cbn [bind position].
  destruct (key_eqb (fst y) k). { rewrite Nat.add_0_r. reflexivity. }
  replace (S (length pre)) with (length (pre ++ [y])) by (rewrite app_length; simpl; lia).
  replace (pre ++ y :: l ++ rest) with ((pre ++ [y]) ++ l ++ rest) by (rewrite <- app_assoc; reflexivity).
  rewrite IH. destruct (position _ l); auto. rewrite app_length. cbn [length]. do 2 f_equal. lia.
Qed.

Lemma lookup_none : forall l k, position (fun e => key_eqb (fst e) k) l = None -> lookup l k = None.
Proof.
  induction l as [|[k' d] l IH]; intros k H; auto. simpl in *. destruct (key_eqb k' k); [discriminate|].
  apply IH. destruct (position _ l); [discriminate|reflexivity].
Qed.
Lemma lookup_app : forall l1 l2 k, (forall e, In e l1 -> key_eqb (fst e) k = false) -> lookup (l1 ++ l2) k = lookup l2 k.
Proof.
  induction l1 as [|[k' d] l1 IH]; intros l2 k H; auto. simpl. pose proof (H (k', d) (or_introl eq_refl)) as E. simpl in E. rewrite E.
  apply IH. intros e He. apply H. right; auto.
Qed.
Lemma key_eqb_spec : forall x y, key_eqb x y = true <-> x = y.
Proof. intros. unfold key_eqb. destruct (list_eq_dec Z.eq_dec x y); split; congruence. Qed.

Lemma find_spec : forall t (l : list (list Z * D)) k, rep t l ->
  find_entry (item t) (count t) 0 k = Ok (position (fun e => key_eqb (fst e) k) l).
Proof.
  intros t l k [H1 [H2 [rest H3]]]. rewrite H2, H3. pose proof (find_entry_spec l [] rest k) as E. simpl in E.
  rewrite E. destruct (position _ l); reflexivity.
Qed.

Lemma put_spec : forall b t l k d, rep t l -> exists t' l', symtab_put b junk t d k = Ok t' /\ rep t' l' /\
  forall k', lookup l' k' = if list_eq_dec Z.eq_dec k' k then Some d else lookup l k'.
Proof.
  intros b t l k d R. unfold symtab_put. rewrite (find_spec t l k R). cbn [bind].
  destruct (position (fun e => key_eqb (fst e) k) l) as [i|] eqn:P.
  - destruct (position_split _ _ _ P) as (l1 & [k0 d0] & l2 & -> & <- & T & N).
    simpl in T. apply key_eqb_spec in T. subst k0.
    destruct R as [H1 [H2 [rest H3]]]. rewrite <- app_assoc in H3. cbn [app] in H3.
    rewrite H3, put_app by reflexivity. cbn [bind]. eexists. exists (l1 ++ (k, d) :: l2). split; [reflexivity|]. split.
    + split; [|split]; cbn [item count max].
      * rewrite <- H1, H3. rewrite !app_length. reflexivity.
      * rewrite H2, !app_length. reflexivity.
      * exists rest. rewrite <- app_assoc. reflexivity.
    + intros k'. destruct (list_eq_dec Z.eq_dec k' k) as [->|NE].
      * rewrite lookup_app by auto. simpl. rewrite (proj2 (key_eqb_spec k k) eq_refl). reflexivity.
      * clear -NE. induction l1 as [|[k1 d1] l1 IH]; simpl.
        -- destruct (key_eqb k k') eqn:E; auto. apply key_eqb_spec in E. congruence.
        -- destruct (key_eqb k1 k'); auto.
  - destruct (append_spec junk Hj b t l (k, d) R) as [t' [-> R']]. exists t', (l ++ [(k, d)]). split; auto. split; auto.
    intros k'. destruct (list_eq_dec Z.eq_dec k' k) as [->|NE].
    + rewrite lookup_app. { simpl. rewrite (proj2 (key_eqb_spec k k) eq_refl). reflexivity. }
      intros e He. clear -P He. induction l as [|y l IH]; [destruct He|]. simpl in P. destruct (key_eqb (fst y) k) eqn:E; [discriminate|].
      destruct He as [<-|He]; auto. apply IH; auto. destruct (position _ l); [discriminate|reflexivity].
    + clear -NE. induction l as [|[k1 d1] l IH]; simpl.
      * destruct (key_eqb k k') eqn:E; auto. apply key_eqb_spec in E. congruence.
      * destruct (key_eqb k1 k'); auto.
Qed.

Lemma lookup_position : forall l k i, position (fun e => key_eqb (fst e) k) l = Some i ->
  exists d rest1 rest2, l = rest1 ++ (k, d) :: rest2 /\ length rest1 = i /\ lookup l k = Some d.
Proof.
  intros l k i P. destruct (position_split _ _ _ P) as (l1 & [k0 d0] & l2 & -> & <- & T & N).
  simpl in T. apply key_eqb_spec in T. subst k0. exists d0, l1, l2. split; auto. split; auto.
  rewrite lookup_app by auto. simpl. rewrite (proj2 (key_eqb_spec k k) eq_refl). reflexivity.
Qed.

Lemma symtab_run_spec : forall b h t l m, rep t l -> (forall k, lookup l k = m k) ->
  symtab_run b junk t h = Ok (map_run m h).
Proof.
  intros b h. induction h as [|[k d|k|k] h IH]; intros t l m R M; [reflexivity| | | ]; cbn [symtab_run map_run].
  - destruct (put_spec b t l k d R) as (t' & l' & -> & R' & L). cbn [bind]. apply IH with l'; auto.
    intros k'. rewrite L. destruct (list_eq_dec Z.eq_dec k' k); auto.
  - unfold symtab_has. rewrite (find_spec t l k R). cbn [bind]. rewrite (IH t l m R M). cbn [bind].
    do 2 f_equal. f_equal. rewrite <- M.
    destruct (position (fun e => key_eqb (fst e) k) l) eqn:P.
    + destruct (lookup_position _ _ _ P) as (d & r1 & r2 & _ & _ & ->). reflexivity.
    + rewrite (lookup_none _ _ P). reflexivity.
  - unfold symtab_at. rewrite (find_spec t l k R). cbn [bind].
    destruct (position (fun e => key_eqb (fst e) k) l) eqn:P.
    + destruct (lookup_position _ _ _ P) as (d & r1 & r2 & E & E2 & L).
      destruct R as [H1 [H2 [rest H3]]]. rewrite H3, E, <- app_assoc. cbn [app]. rewrite get_app by auto. cbn [bind snd].
      rewrite (IH t l m) by (auto; split; eauto). cbn [bind]. rewrite <- M, L. reflexivity.
    + cbn [bind]. rewrite (IH t l m R M). cbn [bind]. rewrite <- M, (lookup_none _ _ P). reflexivity.
Qed.

Lemma symtab_session : forall b h, symtab_run b junk (symtab_init junk) h = Ok (map_run (fun _ => None) h).
Proof. intros b h. apply symtab_run_spec with []; auto. apply rep_init. apply Hj. Qed.
End S.
