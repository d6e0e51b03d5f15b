(** Nested integer lists in memory: every function of arith/multiz.c allocates
    exactly the blocks of its result and frees exactly the blocks it gives up. *)
From Coq Require Import ZArith List Bool Arith Lia Permutation.
From Verif.Base Require Import Outcome.
From Verif.Model Require Import Multiz MultizHeap.
From Verif.Spec Require Import MultizHeap.
Import ListNotations.
Open Scope nat_scope.

Section MzInd.
  Variable P : mz -> Prop.
  Hypothesis HZ : forall z, P (MZ z).
  Hypothesis HA : forall l, Forall P l -> P (MA l).
  Fixpoint mz_induction (v : mz) : P v :=
    match v with
    | MZ z => HZ z
    | MA l => HA l ((fix go (l : list mz) : Forall P l :=
        match l with [] => Forall_nil P | x :: r => Forall_cons x (mz_induction x) (go r) end) l)
    end.
End MzInd.

Ltac conj := repeat match goal with |- _ /\ _ => split end.

(** ** Heaps *)
Lemma update_length {A} (l : list A) i a : length (update l i a) = length l.
Proof. revert i; induction l; destruct i; simpl; auto. Qed.
Lemma nth_update {A} (l : list A) i j a : i < length l ->
  nth_error (update l i a) j = if j =? i then Some a else nth_error l j.
Proof.
  revert i j; induction l as [|x l IH]; intros i j H; [simpl in H; lia|].
  destruct i, j; simpl; auto. rewrite IH by (simpl in H; lia). reflexivity.
Qed.
Lemma live_length (h : heap) a c : nth_error h a = Some c -> a < length h.
Proof. intros H. apply nth_error_Some. congruence. Qed.
Lemma read_live h a c : nth_error h a = Some (Some c) -> read h a = Ok c.
Proof. intros H. unfold read. rewrite H. reflexivity. Qed.
Lemma alloc_nth (h : heap) c j : nth_error (h ++ [Some c]) j =
  if j =? length h then Some (Some c) else nth_error h j.
Proof.
  destruct (Nat.eqb_spec j (length h)) as [->|Hn].
  - rewrite nth_error_app2, Nat.sub_diag by lia. reflexivity.
  - destruct (Nat.lt_ge_cases j (length h)).
    + apply nth_error_app1; lia.
    + rewrite nth_error_app2 by lia. rewrite (proj2 (nth_error_None h j)) by lia.
      destruct (j - length h) eqn:E; [lia|]. simpl. destruct n; reflexivity.
Qed.

Lemma NoDup_split {A} (l m : list A) :
  NoDup (l ++ m) <-> NoDup l /\ NoDup m /\ forall i, In i l -> In i m -> False.
Proof.
  induction l as [|x l IH]; simpl.
  - split; [intros H; repeat split; auto; constructor|tauto].
  - split.
    + intros H. inversion H as [|? ? H1 H2]; subst. apply IH in H2. rewrite in_app_iff in H1.
      destruct H2 as (a&b&c). repeat split; auto; [constructor; tauto|].
      intros i [<-|Hi] Hm; [tauto|eauto].
    + intros (a&b&c). inversion a; subst. constructor.
      * rewrite in_app_iff. intros [H|H]; [tauto|eauto].
      * apply IH. eauto.
Qed.

Scheme holds_mut := Induction for holds Sort Prop
  with holds_all_mut := Induction for holds_all Sort Prop.

Definition same_on (F : list nat) (h h' : heap) : Prop := forall i, In i F -> nth_error h' i = nth_error h i.
Lemma holds_frame h h' v a F : holds h v a F -> same_on F h h' -> holds h' v a F.
Proof.
  intros H. revert h'.
  induction H using holds_mut with
    (P0 := fun vs l Fs (_ : holds_all h vs l Fs) => forall h', same_on Fs h h' -> holds_all h' vs l Fs);
    intros h' Hs.
  - constructor. rewrite Hs; simpl; auto.
  - econstructor; [rewrite Hs; simpl; eauto|]. apply IHholds. intros i Hi. apply Hs. simpl; auto.
  - constructor.
  - constructor; [apply IHholds|apply IHholds0]; intros i Hi; apply Hs, in_or_app; auto.
Qed.
Lemma holds_all_frame h h' vs l Fs : holds_all h vs l Fs -> same_on Fs h h' -> holds_all h' vs l Fs.
Proof.
  induction 1; intros Hs; constructor.
  - eapply holds_frame; eauto. intros i Hi. apply Hs, in_or_app; auto.
  - apply IHholds_all. intros i Hi. apply Hs, in_or_app; auto.
Qed.
Lemma holds_live h v a F : holds h v a F -> forall i, In i F -> allocated h i.
Proof.
  intros H.
  induction H using holds_mut with
    (P0 := fun vs l Fs (_ : holds_all h vs l Fs) => forall i, In i Fs -> allocated h i);
    intros i Hi; simpl in Hi.
  - destruct Hi as [<-|[]]. eexists; eauto.
  - destruct Hi as [<-|Hi]; auto. eexists; eauto.
  - tauto.
  - apply in_app_or in Hi. destruct Hi; auto.
Qed.
Lemma holds_root h v a F : holds h v a F -> In a F.
Proof. destruct 1; simpl; auto. Qed.
Lemma holds_all_app h vs l Fs ws k Gs : holds_all h vs l Fs -> holds_all h ws k Gs ->
  holds_all h (vs ++ ws) (l ++ k) (Fs ++ Gs).
Proof. induction 1; simpl; auto. intros H2. rewrite <- app_assoc. constructor; auto. Qed.
Lemma allocated_lt h i : allocated h i -> i < length h.
Proof. intros [c H]. apply live_length in H. exact H. Qed.

Lemma holds_int h z a F : holds h (MZ z) a F -> F = [a] /\ nth_error h a = Some (Some (NZ z)).
Proof. intros H. inversion H; subst; auto. Qed.
Lemma holds_list h vs a F : holds h (MA vs) a F ->
  exists l Fs, F = a :: Fs /\ nth_error h a = Some (Some (NA l)) /\ holds_all h vs l Fs.
Proof. intros H. inversion H; subst; eauto. Qed.
Lemma holds_nil_inv h l F : holds_all h [] l F -> l = [] /\ F = [].
Proof. intros H. inversion H; subst; auto. Qed.
Lemma holds_cons_inv h v vs l F : holds_all h (v :: vs) l F ->
  exists a F1 k F2, l = a :: k /\ F = F1 ++ F2 /\ holds h v a F1 /\ holds_all h vs k F2.
Proof. intros H. inversion H; subst. do 4 eexists; repeat split; eauto. Qed.

(** [grows h h' F]: what was there is as before, and F are the new blocks. *)
Record grows (h h' : heap) (F : list nat) : Prop := {
  g_len : length h <= length h';
  g_old : forall i, i < length h -> nth_error h' i = nth_error h i;
  g_dup : NoDup F;
  g_new : forall i, length h <= i -> (In i F <-> allocated h' i);
  g_low : forall i, In i F -> length h <= i }.

Lemma grows_refl h : grows h h [].
Proof.
  split; auto; try constructor; simpl; try tauto.
  intros H1. apply allocated_lt in H1. lia.
Qed.
Lemma allocated_same h h' i : nth_error h' i = nth_error h i -> allocated h i <-> allocated h' i.
Proof. intros H. unfold allocated. rewrite H. tauto. Qed.

Lemma grows_trans h h1 h2 L F : grows h h1 L -> grows h1 h2 F -> grows h h2 (L ++ F).
Proof.
  intros [a1 a2 a3 a4 a5] [b1 b2 b3 b4 b5].
  assert (HL : forall i, In i L -> i < length h1).
  { intros i Hi. apply allocated_lt, a4; auto. }
  split; try lia.
  - intros i Hi. rewrite b2 by lia. apply a2; auto.
  - apply NoDup_split; repeat split; auto. intros i H1 H2. apply HL in H1. apply b5 in H2. lia.
  - intros i Hi. rewrite in_app_iff. destruct (Nat.lt_ge_cases i (length h1)) as [H|H].
    + rewrite a4 by auto. rewrite (allocated_same h1 h2 i) by (apply b2; auto).
      split; [intros [?|H2]; auto; apply b5 in H2; lia|auto].
    + rewrite b4 by auto. split; [intros [H2|?]; auto; apply HL in H2; lia|auto].
  - intros i Hi. apply in_app_or in Hi. destruct Hi as [Hi|Hi]; auto. apply b5 in Hi. lia.
Qed.
Lemma grows_perm h h' L M : Permutation L M -> grows h h' L -> grows h h' M.
Proof.
  intros H [a1 a2 a3 a4 a5]. split; auto.
  - eapply Permutation_NoDup; eauto.
  - intros i Hi. rewrite <- a4 by auto. split; apply Permutation_in; auto using Permutation_sym.
  - intros i Hi. apply a5. eapply Permutation_in; [apply Permutation_sym|]; eauto.
Qed.
Lemma grows_alloc h c : grows h (h ++ [Some c]) [length h].
Proof.
  split.
  - rewrite app_length; lia.
  - intros i Hi. apply nth_error_app1; auto.
  - repeat constructor; simpl; tauto.
  - intros i Hi. unfold allocated. rewrite alloc_nth. simpl.
    destruct (Nat.eqb_spec i (length h)).
    + split; [eauto|auto].
    + split; [intros [?|[]]; congruence|]. intros [d Hd]. apply live_length in Hd. lia.
  - simpl. intros i [<-|[]]. lia.
Qed.
Lemma grows_write h h' L x c : In x L -> grows h h' L -> grows h (update h' x (Some c)) L.
Proof.
  intros Hx [a1 a2 a3 a4 a5].
  assert (Hx' : x < length h') by (apply allocated_lt, a4; auto).
  split; auto.
  - rewrite update_length; auto.
  - intros i Hi. rewrite nth_update by auto. destruct (Nat.eqb_spec i x) as [->|]; auto. apply a5 in Hx. lia.
  - intros i Hi. rewrite a4 by auto. unfold allocated. rewrite nth_update by auto.
    destruct (Nat.eqb_spec i x) as [->|]; [|tauto]. split; [eauto|]. intros _. apply a4; auto.
Qed.

Definition freed (F : list nat) (h h' : heap) : Prop :=
  length h' = length h /\
  forall i, i < length h -> nth_error h' i = if in_dec Nat.eq_dec i F then Some None else nth_error h i.
Lemma freed_out F h h' i : freed F h h' -> ~ In i F -> nth_error h' i = nth_error h i.
Proof.
  intros [H1 H2] Hi. destruct (Nat.lt_ge_cases i (length h)) as [H|H].
  - rewrite H2 by auto. destruct (in_dec Nat.eq_dec i F); tauto.
  - rewrite !(proj2 (nth_error_None _ _)) by lia. reflexivity.
Qed.
Lemma freed_in F h h' i : freed F h h' -> In i F -> ~ allocated h' i.
Proof.
  intros [H1 H2] Hi [c Hc]. destruct (Nat.lt_ge_cases i (length h)) as [H|H].
  - rewrite H2 in Hc by auto. destruct (in_dec Nat.eq_dec i F); [discriminate|tauto].
  - apply live_length in Hc. lia.
Qed.
Lemma grows_freed h h1 h2 L F : grows h h1 (L ++ F) -> freed F h1 h2 -> grows h h2 L.
Proof.
  intros [a1 a2 a3 a4 a5] Hf. pose proof Hf as [f1 f2].
  apply NoDup_split in a3. destruct a3 as (n1&n2&n3).
  split; auto.
  - lia.
  - intros i Hi. rewrite (freed_out F h1) by (auto; intros Hx; specialize (a5 i (in_or_app _ _ _ (or_intror Hx))); lia).
    auto.
  - intros i Hi. destruct (in_dec Nat.eq_dec i F) as [Hx|Hx].
    + split; [intros H; exfalso; eapply n3; eauto|]. intros H. exfalso. eapply freed_in; eauto.
    + rewrite <- (allocated_same h1 h2 i) by (eapply freed_out; eauto). rewrite <- a4 by auto.
      rewrite in_app_iff. tauto.
  - intros i Hi. apply a5, in_or_app; auto.
Qed.
Lemma freed_one h a c : nth_error h a = Some (Some c) -> free h a = Ok (update h a None) /\ freed [a] h (update h a None).
Proof.
  intros H. unfold free. rewrite (read_live _ _ _ H). split; [reflexivity|].
  pose proof (live_length _ _ _ H) as Hl.
  split; [apply update_length|]. intros i Hi. rewrite nth_update by auto.
  destruct (in_dec Nat.eq_dec i [a]) as [[<-|[]]|Hn].
  - rewrite Nat.eqb_refl. reflexivity.
  - destruct (Nat.eqb_spec i a) as [->|]; auto. simpl in Hn. tauto.
Qed.
Lemma freed_app F G h h1 h2 : freed F h h1 -> freed G h1 h2 -> freed (F ++ G) h h2.
Proof.
  intros [a1 a2] [b1 b2]. split; [congruence|]. intros i Hi. rewrite b2 by congruence. rewrite a2 by auto.
  destruct (in_dec Nat.eq_dec i G), (in_dec Nat.eq_dec i F), (in_dec Nat.eq_dec i (F ++ G)) as [H|H]; auto;
    rewrite in_app_iff in H; tauto.
Qed.
Lemma freed_perm F G h h' : (forall i, In i F <-> In i G) -> freed F h h' -> freed G h h'.
Proof.
  intros H [a b]. split; auto. intros i Hi. rewrite b by auto.
  destruct (in_dec Nat.eq_dec i F) as [H1|H1], (in_dec Nat.eq_dec i G) as [H2|H2]; auto; rewrite H in H1; tauto.
Qed.

(** ** multiz_free *)
Lemma free_holds v : forall h a F, holds h v a F -> NoDup F ->
  exists n0 h', freed F h h' /\ forall n, n0 <= n -> multiz_free n a h = Ok h'.
Proof.
  induction v as [z|vs IH] using mz_induction; intros h a F H Hd.
  - apply holds_int in H. destruct H as [-> H1].
    destruct (freed_one _ _ _ H1) as [Hf1 Hf2]. exists 1, (update h a None). split; auto.
    intros n Hn. destruct n; [lia|]. simpl. rewrite (read_live _ _ _ H1). simpl. exact Hf1.
  - apply holds_list in H. destruct H as (l&Fs&->&H2&H4).
    inversion Hd as [|? ? Ha Hd']; subst.
    assert (Hloop : exists n0 h', freed Fs h h' /\ forall n, n0 <= n ->
      fold_left (fun r y => h <- r ;; multiz_free n y h) l (Ok h) = Ok h').
    { clear H2 Ha Hd. revert h H4 Hd'. revert l Fs.
      induction IH as [|v vs Hv _ IHvs]; intros l Fs h H Hd.
      - apply holds_nil_inv in H. destruct H as [-> ->]. exists 0, h. split; [split; auto|auto].
      - apply holds_cons_inv in H. destruct H as (a1&F1&k&F2&->&->&Ha1&Hk).
        apply NoDup_split in Hd. destruct Hd as (d1&d2&d3).
        destruct (Hv _ _ _ Ha1 d1) as (n1&h1&Hf1&Hr1).
        assert (Hx : holds_all h1 vs k F2).
        { eapply holds_all_frame; eauto. intros i Hi. eapply freed_out; eauto. }
        destruct (IHvs _ _ _ Hx d2) as (n2&h2&Hf2&Hr2).
        exists (Nat.max n1 n2), h2. split; [eapply freed_app; eauto|].
        intros n Hn. simpl. rewrite Hr1 by lia. apply Hr2. lia. }
    destruct Hloop as (n0&h1&Hf&Hr).
    assert (Hx : nth_error h1 a = Some (Some (NA l))) by (rewrite (freed_out Fs h); auto).
    destruct (freed_one _ _ _ Hx) as [Hf1 Hf2].
    exists (S n0), (update h1 a None). split.
    + apply (freed_perm (Fs ++ [a])); [|eapply freed_app; eauto].
      intros i. rewrite in_app_iff. simpl. tauto.
    + intros n Hn. destruct n; [lia|]. cbn [multiz_free]. rewrite (read_live _ _ _ H2). cbn [bind].
      rewrite Hr by lia. exact Hf1.
Qed.

(** ** Building a list *)
Definition yields (op : nat -> heap -> res (nat * heap)) (h : heap) (v : mz) : Prop :=
  exists n0 b h' F, grows h h' F /\ holds h' v b F /\ forall n, n0 <= n -> op n h = Ok (b, h').
(** The heaps in which what was below [k], and the blocks [E], are as in [h0]. *)
Definition keeps (k : nat) (E : list nat) (h0 h : heap) : Prop :=
  k <= length h /\ forall i, i < k \/ In i E -> nth_error h i = nth_error h0 i.

Lemma same_grown h h' L i : grows h h' L -> allocated h i -> nth_error h' i = nth_error h i.
Proof. intros [? a2 ? ? ?] H. apply a2, allocated_lt, H. Qed.

Lemma build (item : nat -> nat -> nat -> heap -> res (nat * heap)) hs h0 E x items vs :
  Forall2 (fun p v => forall h, keeps (length hs) E h0 h -> yields (fun n => item n (fst p) (snd p)) h v) items vs ->
  forall h bs ws G, grows hs h (x :: E ++ G) -> keeps (length hs) E h0 h ->
  nth_error h x = Some (Some (NA bs)) -> holds_all h ws bs G ->
  exists n0 h' bs' G', grows hs h' (x :: E ++ G') /\ keeps (length hs) E h0 h' /\
    nth_error h' x = Some (Some (NA bs')) /\ holds_all h' (ws ++ vs) bs' G' /\
    forall n, n0 <= n ->
      fold_left (fun r p => h <- r ;; q <- item n (fst p) (snd p) h ;; append_to (snd q) x (fst q))
        items (Ok h) = Ok h'.
Proof.
  induction 1 as [|p v items vs Hp _ IH]; intros h bs ws G Hg Hk Hx Hb.
  - exists 0, h, bs, G. rewrite app_nil_r. conj; auto.
  - destruct (Hp h Hk) as (n1&b&h1&F&Hg1&Hh1&Hr1).
    assert (Hx1 : nth_error h1 x = Some (Some (NA bs))).
    { rewrite (same_grown _ _ _ _ Hg1); auto. exists (NA bs). auto. }
    pose proof (grows_trans _ _ _ _ _ Hg Hg1) as Hg2. simpl in Hg2. rewrite <- app_assoc in Hg2.
    assert (Hlx : x < length h1) by (eapply live_length; eauto).
    pose proof (g_dup _ _ _ Hg2) as Hd. inversion Hd as [|? ? Hnx Hd']; subst. rewrite !in_app_iff in Hnx.
    assert (Hxs : length hs <= x) by (apply (g_low _ _ _ Hg2); simpl; auto).
    set (h2 := update h1 x (Some (NA (bs ++ [b])))).
    assert (Hout : forall i, i <> x -> nth_error h2 i = nth_error h1 i).
    { intros i Hi. unfold h2. rewrite nth_update by auto. destruct (Nat.eqb_spec i x); tauto. }
    destruct (IH h2 (bs ++ [b]) (ws ++ [v]) (G ++ F)) as (n2&h3&bs'&G'&c1&c2&c3&c4&c5).
    + apply grows_write; simpl; auto.
    + destruct Hk as [k1 k2]. split.
      * unfold h2. rewrite update_length. pose proof (g_len _ _ _ Hg1). lia.
      * intros i Hi. rewrite Hout by (destruct Hi; [lia|intros ->; tauto]).
        rewrite <- k2 by auto. apply (g_old _ _ _ Hg1).
        destruct Hi as [Hi|Hi]; [lia|]. apply allocated_lt. apply (g_new _ _ _ Hg).
        -- apply (g_low _ _ _ Hg). simpl. rewrite in_app_iff. auto.
        -- simpl. rewrite in_app_iff. auto.
    + unfold h2. rewrite nth_update, Nat.eqb_refl by auto. reflexivity.
    + rewrite <- (app_nil_r F). apply holds_all_app.
      * eapply holds_all_frame; eauto. intros i Hi. rewrite Hout by (intros ->; tauto).
        apply (g_old _ _ _ Hg1). apply allocated_lt, (g_new _ _ _ Hg).
        -- apply (g_low _ _ _ Hg). simpl. rewrite in_app_iff. auto.
        -- simpl. rewrite in_app_iff. auto.
      * constructor; [|constructor]. eapply holds_frame; eauto. intros i Hi. apply Hout. intros ->; tauto.
    + exists (Nat.max n1 n2), h3, bs', G'. rewrite <- app_assoc in c4. conj; auto.
      intros n Hn. simpl. rewrite Hr1 by lia. simpl. unfold append_to. rewrite (read_live _ _ _ Hx1). simpl.
      unfold write. rewrite (read_live _ _ _ Hx1). simpl. apply c5. lia.
Qed.

Lemma holds_grown h h' L v a F : grows h h' L -> holds h v a F -> holds h' v a F.
Proof. intros Hg H. eapply holds_frame; eauto. intros i Hi. eapply same_grown; eauto. eapply holds_live; eauto. Qed.
Lemma holds_kept h0 h E v a F : keeps (length h0) E h0 h -> holds h0 v a F -> holds h v a F.
Proof.
  intros [k1 k2] H. eapply holds_frame; eauto. intros i Hi. apply k2. left.
  eapply allocated_lt, holds_live; eauto.
Qed.
Lemma holds_kept' h0 h k E v a F : (forall i, allocated h0 i -> In i F -> i < k \/ In i E) ->
  keeps k E h0 h -> holds h0 v a F -> holds h v a F.
Proof.
  intros Hs [k1 k2] H. eapply holds_frame; eauto. intros i Hi. apply k2. apply Hs; auto. eapply holds_live; eauto.
Qed.
Lemma keeps_refl h : keeps (length h) [] h h.
Proof. split; auto. Qed.
Lemma keeps_grown h h' L : grows h h' L -> keeps (length h) [] h h'.
Proof. intros [? ? ? ? ?]. split; auto. intros i [Hi|[]]; auto. Qed.

(** ** multiz_new_unary *)
Lemma fold_map {A B C} (f : C -> B -> C) (g : A -> B) l c : fold_left f (map g l) c = fold_left (fun c a => f c (g a)) l c.
Proof. revert c; induction l; simpl; auto. Qed.
Lemma unary_holds f v : forall h a F, holds h v a F -> yields (fun n => new_unary n f a) h (unary f v).
Proof.
  induction v as [z|vs IH] using mz_induction; intros h a F H.
  - apply holds_int in H. destruct H as [-> H1].
    exists 1, (length h), (h ++ [Some (NZ (f z))]), [length h]. conj.
    + apply grows_alloc.
    + constructor. rewrite alloc_nth, Nat.eqb_refl. reflexivity.
    + intros n Hn. destruct n; [lia|]. simpl. rewrite (read_live _ _ _ H1). reflexivity.
  - apply holds_list in H. destruct H as (l&Fs&->&H2&H4).
    pose proof (grows_alloc h (NA [])) as Hg.
    assert (HF : Forall2 (fun (p : nat * nat) v => forall h', keeps (length h) [] h h' ->
        yields (fun n => new_unary n f (fst p)) h' v) (map (fun y => (y, 0)) l) (map (unary f) vs)).
    { clear H2 Hg. revert l Fs H4. induction IH as [|v vs Hv _ IHvs]; intros l Fs H.
      { apply holds_nil_inv in H. destruct H as [-> ->]. constructor. }
      apply holds_cons_inv in H. destruct H as (a1&F1&k&F2&->&->&Ha1&Hl). simpl. constructor.
      - intros h' Hk. simpl. eapply Hv. eapply holds_kept; eauto.
      - eapply IHvs; eauto. }
    destruct (build (fun n a _ => new_unary n f a) h h [] (length h) _ _ HF
      (h ++ [Some (NA [])]) [] [] [] Hg (keeps_grown _ _ _ Hg)) as (n0&h'&bs&G&c1&c2&c3&c4&c5).
    + rewrite alloc_nth, Nat.eqb_refl. reflexivity.
    + constructor.
    + simpl in c1, c4. exists (S n0), (length h), h', (length h :: G). split; [auto|]. split; [econstructor; eauto|].
      intros n Hn. destruct n; [lia|]. cbn [new_unary]. rewrite (read_live _ _ _ H2). cbn [bind alloc].
      assert (Hn' : n0 <= n) by lia. specialize (c5 n Hn').
      match goal with |- bind ?x _ = _ => replace x with (Ok h') end; [reflexivity|].
      rewrite <- c5. rewrite fold_map. reflexivity.
Qed.

(** ** The first integer of a list *)
Lemma leaf_holds v : forall h a F z, holds h v a F -> NoDup F -> first_leaf v = Ok z ->
  exists n0 p, In p F /\ nth_error h p = Some (Some (NZ z)) /\ (forall n, n0 <= n -> leaf n a h = Ok (p, z)) /\
    forall g v', at_leaf g v = Ok v' -> holds (update h p (Some (NZ (g z)))) v' a F.
Proof.
  induction v as [z'|vs IH] using mz_induction; intros h a F z H Hd Hz.
  - apply holds_int in H. destruct H as [-> H1]. injection Hz as <-. exists 1, a. repeat split; simpl; auto.
    + intros n Hn. destruct n; [lia|]. simpl. rewrite (read_live _ _ _ H1). reflexivity.
    + intros g v' E. injection E as <-. constructor. rewrite nth_update, Nat.eqb_refl; auto. eapply live_length; eauto.
  - apply holds_list in H. destruct H as (l&Fs&->&H2&H4). destruct vs as [|v vs]; [discriminate|].
    apply holds_cons_inv in H4. destruct H4 as (a1&F1&k&F2&->&->&H5&H6). inversion IH as [|? ? Hv _]; subst.
    inversion Hd as [|? ? Hn Hd']; subst. apply NoDup_split in Hd'. destruct Hd' as (d1&d2&d3).
    destruct (Hv _ _ _ _ H5 d1 Hz) as (n0&p&p1&p2&p3&p4).
    assert (Hlp : p < length h) by (eapply live_length; eauto).
    exists (S n0), p. repeat split; auto.
    + simpl. rewrite in_app_iff. auto.
    + intros n Hn'. destruct n; [lia|]. simpl. rewrite (read_live _ _ _ H2). simpl. apply p3. lia.
    + intros g v' E. cbn [at_leaf] in E. destruct (at_leaf g v) as [y| | |] eqn:Ey; try discriminate.
      injection E as <-. econstructor.
      * rewrite nth_update by auto. destruct (Nat.eqb_spec a p) as [->|]; [|eauto].
        rewrite in_app_iff in Hn. tauto.
      * constructor; [apply p4; auto|]. eapply holds_all_frame; eauto. intros i Hi.
        rewrite nth_update by auto. destruct (Nat.eqb_spec i p) as [->|]; auto. exfalso; eauto.
Qed.
Lemma at_leaf_leaf g v v' : at_leaf g v = Ok v' -> exists z, first_leaf v = Ok z.
Proof.
  revert v'. induction v as [z|vs IH] using mz_induction; intros v' H; [simpl; eauto|].
  destruct vs as [|x vs]; [discriminate|]. cbn [at_leaf] in H. inversion IH; subst.
  destruct (at_leaf g x) eqn:E; try discriminate. simpl. eauto.
Qed.

(** ** multiz_new_bin *)
Lemma clone_leaf_holds g v v' h a F : at_leaf g (clone v) = Ok v' -> holds h v a F ->
  yields (fun n h => p <- new_clone n a h ;; let '(r, h1) := p in
      q <- leaf n r h1 ;; h2 <- write h1 (fst q) (NZ (g (snd q))) ;; Ok (r, h2)) h v'.
Proof.
  intros Hv H. destruct (unary_holds (fun z => z) v h a F H) as (n0&b&h1&F1&c1&c2&c3).
  destruct (at_leaf_leaf _ _ _ Hv) as [z Hz].
  destruct (leaf_holds _ _ _ _ _ c2 (g_dup _ _ _ c1) Hz) as (n1&p&p1&p2&p3&p4).
  exists (Nat.max n0 n1), b, (update h1 p (Some (NZ (g z)))), F1.
  split; [apply grows_write; auto|]. split; [apply p4; auto|].
  intros n Hn. unfold new_clone. rewrite c3 by lia. simpl. rewrite p3 by lia. simpl.
  unfold write. rewrite (read_live _ _ _ p2). reflexivity.
Qed.

Definition pairs (la lb : list mz) : list (mz * mz) :=
  combine la lb ++ map (fun y => (y, MZ 0)) (skipn (length lb) la) ++ map (fun y => (MZ 0, y)) (skipn (length la) lb).
Lemma bin_lists f la lb : bin f (MA la) (MA lb) =
  (l <- traverse (fun p => bin f (fst p) (snd p)) (pairs la lb) ;; Ok (MA l)).
Proof.
  cbn [bin]. f_equal. revert lb. induction la as [|a la IH]; intros lb.
  - unfold pairs. simpl. rewrite skipn_nil. simpl. induction lb as [|b lb IH]; simpl; auto. rewrite IH. reflexivity.
  - destruct lb as [|b lb].
    + unfold pairs. simpl. rewrite (IH []). unfold pairs. rewrite skipn_nil.
      destruct la; simpl; reflexivity.
    + unfold pairs. simpl. rewrite (IH lb). reflexivity.
Qed.

Lemma traverse_split {A B} (f : A -> res B) l m r : traverse f (l ++ m) = Ok r ->
  exists r1 r2, r = r1 ++ r2 /\ traverse f l = Ok r1 /\ traverse f m = Ok r2.
Proof.
  revert r; induction l as [|x l IH]; intros r H; simpl in *.
  - exists [], r. auto.
  - destruct (f x) as [y| | |]; try discriminate. simpl in *.
    destruct (traverse f (l ++ m)) as [t| | |] eqn:E; try discriminate. injection H as <-.
    destruct (IH _ eq_refl) as (r1&r2&->&->&->). exists (y :: r1), r2. auto.
Qed.
Lemma traverse_pointwise {A B} (f : A -> res B) l r : traverse f l = Ok r -> Forall2 (fun x y => f x = Ok y) l r.
Proof.
  revert r; induction l as [|x l IH]; intros r H; simpl in *.
  - injection H as <-. constructor.
  - destruct (f x) as [y| | |] eqn:Ex; try discriminate. simpl in *.
    destruct (traverse f l) as [t| | |]; try discriminate. injection H as <-. constructor; auto.
Qed.
Lemma Forall2_compose {A B C} (R : A -> B -> Prop) (S : B -> C -> Prop) (T : A -> C -> Prop) l m k :
  (forall a b c, R a b -> S b c -> T a c) -> Forall2 R l m -> Forall2 S m k -> Forall2 T l k.
Proof. intros H H1. revert k; induction H1; intros k H2; inversion H2; subst; constructor; eauto. Qed.
Lemma Forall2_skip {A B} (R : A -> B -> Prop) n : forall l m, Forall2 R l m -> Forall2 R (skipn n l) (skipn n m).
Proof. induction n; intros l m H; [exact H|]. destruct H; simpl; auto. Qed.
Lemma Forall2_combine {A B C D} (R : A -> B -> Prop) (S : C -> D -> Prop) l m : Forall2 R l m ->
  forall k j, Forall2 S k j -> Forall2 (fun p q => R (fst p) (fst q) /\ S (snd p) (snd q)) (combine l k) (combine m j).
Proof. induction 1; intros k j H2; simpl; [constructor|]. destruct H2; simpl; constructor; auto. Qed.
Lemma Forall2_maps {A B C D} (R : A -> B -> Prop) (T : C -> D -> Prop) f g l m :
  (forall a b, R a b -> T (f a) (g b)) -> Forall2 R l m -> Forall2 T (map f l) (map g m).
Proof. intros H. induction 1; simpl; constructor; auto. Qed.

Definition placed (P : mz -> Prop) (h : heap) (a : nat) (v : mz) : Prop := P v /\ exists F, holds h v a F.
Lemma holds_all_placed (P : mz -> Prop) h vs l Fs : Forall P vs -> holds_all h vs l Fs -> Forall2 (placed P h) l vs.
Proof.
  intros HP H. induction H; [constructor|]. inversion HP; subst. constructor; auto. split; eauto.
Qed.
Lemma holds_lengths h vs l Fs : holds_all h vs l Fs -> length l = length vs.
Proof. induction 1; simpl; auto. Qed.

Lemma bin_int_holds f x vb vc h a b Fa Fb : bin f (MZ x) vb = Ok vc ->
  holds h (MZ x) a Fa -> holds h vb b Fb -> yields (fun n => new_bin n f a b) h vc.
Proof.
  intros Hv Ha Hb. apply holds_int in Ha. destruct Ha as [-> Ha]. destruct vb as [y|ws]; cbn [bin bin_int] in Hv.
  - apply holds_int in Hb. destruct Hb as [-> Hb]. injection Hv as <-.
    exists 1, (length h), (h ++ [Some (NZ (f x y))]), [length h]. conj.
    + apply grows_alloc.
    + constructor. rewrite alloc_nth, Nat.eqb_refl. reflexivity.
    + intros n Hn. destruct n; [lia|]. simpl. rewrite (read_live _ _ _ Ha), (read_live _ _ _ Hb). reflexivity.
  - destruct (clone_leaf_holds (fun z => f x z) _ _ _ _ _ Hv Hb) as (n0&r&h'&F&c1&c2&c3).
    apply holds_list in Hb. destruct Hb as (k&Gs&->&Hb&_).
    exists (S n0), r, h', F. conj; auto. intros n Hn. specialize (c3 n). destruct n; [lia|].
    cbn [new_bin]. rewrite (read_live _ _ _ Ha), (read_live _ _ _ Hb). cbn [bind]. apply c3. lia.
Qed.

Lemma zero_cell h L hs x G bs us : hs = h -> grows hs L (x :: G) -> nth_error L x = Some (Some (NA bs)) -> holds_all L us bs G ->
  let zero := length L in let h3 := L ++ [Some (NZ 0)] in
  grows hs h3 (x :: [zero] ++ G) /\ keeps (length hs) [zero] h3 h3 /\
  nth_error h3 x = Some (Some (NA bs)) /\ holds_all h3 us bs G /\ nth_error h3 zero = Some (Some (NZ 0)).
Proof.
  intros -> Hg Hx Hu zero h3. pose proof (grows_alloc L (NZ 0)) as Ha. fold zero h3 in Ha.
  conj.
  - eapply grows_perm; [|exact (grows_trans _ _ _ _ _ Hg Ha)]. simpl.
    constructor. apply Permutation_sym, Permutation_cons_append.
  - split; [|auto]. unfold h3. rewrite app_length. pose proof (g_len _ _ _ Hg). lia.
  - rewrite (same_grown _ _ _ _ Ha); auto. eexists; eauto.
  - eapply holds_all_frame; eauto. intros i Hi. eapply same_grown; eauto.
    apply (g_new _ _ _ Hg); [apply (g_low _ _ _ Hg)|]; simpl; auto.
  - unfold h3. rewrite alloc_nth. unfold zero. rewrite Nat.eqb_refl. reflexivity.
Qed.

Lemma bin_holds f va : forall vb vc, bin f va vb = Ok vc -> forall h a b Fa Fb,
  holds h va a Fa -> holds h vb b Fb -> yields (fun n => new_bin n f a b) h vc.
Proof.
  induction va as [x|vs IH] using mz_induction; intros vb vc Hv h a b Fa Fb Ha Hb.
  - eapply bin_int_holds; eauto.
  - destruct vb as [y|ws].
    + cbn [bin] in Hv. destruct (clone_leaf_holds (fun z => f y z) _ _ _ _ _ Hv Ha) as (n0&r&h'&F&c1&c2&c3).
      apply holds_list in Ha. destruct Ha as (k&Gs&->&Ha&_). apply holds_int in Hb. destruct Hb as [-> Hb].
      exists (S n0), r, h', F. conj; auto. intros n Hn. specialize (c3 n). destruct n; [lia|].
      cbn [new_bin]. rewrite (read_live _ _ _ Ha), (read_live _ _ _ Hb). cbn [bind]. apply c3. lia.
    + rewrite bin_lists in Hv. destruct (traverse _ _) as [us| | |] eqn:Hu; try discriminate. injection Hv as <-.
      unfold pairs in Hu. apply traverse_split in Hu. destruct Hu as (u1&u2&->&Hu1&Hu2).
      apply traverse_pointwise in Hu1, Hu2.
      apply holds_list in Ha. destruct Ha as (la&As&->&Ha&Hla).
      apply holds_list in Hb. destruct Hb as (lb&Bs&->&Hb&Hlb).
      set (P := fun va => forall vb vc, bin f va vb = Ok vc -> forall h a b Fa Fb,
        holds h va a Fa -> holds h vb b Fb -> yields (fun n => new_bin n f a b) h vc).
      pose proof (holds_all_placed P _ _ _ _ IH Hla) as Pa.
      assert (Pb : Forall2 (placed (fun _ => True) h) lb ws).
      { eapply holds_all_placed; eauto. apply Forall_forall. auto. }
      pose proof (grows_alloc h (NA [])) as Hg.
      destruct (build (fun n a b => new_bin n f a b) h h [] (length h) (combine la lb) u1) with
        (h := h ++ [Some (NA [])]) (bs := @nil nat) (ws := @nil mz) (G := @nil nat)
        as (n1&h2&bs&G&c1&c2&c3&c4&c5); auto.
      { eapply Forall2_compose; [|exact (Forall2_combine _ _ _ _ Pa _ _ Pb)|exact Hu1].
        intros p q u [[q1 [F1 q2]] [_ [F2 q4]]] Hq h' Hk. eapply q1; eauto; eapply holds_kept; eauto. }
      { eapply keeps_grown; eauto. }
      { rewrite alloc_nth, Nat.eqb_refl. reflexivity. }
      { constructor. }
      simpl in c1, c4.
      destruct (zero_cell h h2 h (length h) G bs u1 eq_refl c1 c3 c4) as (z1&z2&z3&z4&z5).
      set (zero := length h2) in *. set (h3 := h2 ++ [Some (NZ 0)]) in *.
      assert (Hold : forall h' v a F, keeps (length h) [zero] h3 h' -> holds h v a F -> holds h' v a F).
      { intros h' v a0 F Hk Hh. eapply holds_kept'; [|exact Hk|eapply holds_grown; eauto].
        intros i _ Hi. left. eapply allocated_lt, holds_live; eauto. }
      assert (Hzero : forall h', keeps (length h) [zero] h3 h' -> holds h' (MZ 0) zero [zero]).
      { intros h' [_ Hk]. constructor. rewrite Hk by (simpl; auto). exact z5. }
      destruct (build (fun n a b => new_bin n f a b) h h3 [zero] (length h)
        (map (fun y => (y, zero)) (skipn (length lb) la) ++ map (fun y => (zero, y)) (skipn (length la) lb)) u2) with
        (h := h3) (bs := bs) (ws := u1) (G := G)
        as (n2&h4&bs4&G4&d1&d2&d3&d4&d5); auto.
      { apply (Forall2_compose (fun p q => P (fst q) /\ forall h', keeps (length h) [zero] h3 h' ->
            (exists F, holds h' (fst q) (fst p) F) /\ (exists F, holds h' (snd q) (snd p) F))
            (fun q u => bin f (fst q) (snd q) = Ok u) _ _
            (map (fun y => (y, MZ 0)) (skipn (length ws) vs) ++ map (fun y => (MZ 0, y)) (skipn (length vs) ws)));
          [| |exact Hu2].
        - intros p q u [q1 q2] Hq h' Hk. destruct (q2 h' Hk) as [[F1 e1] [F2 e2]]. eapply q1; eauto.
        - rewrite <- (holds_lengths _ _ _ _ Hla), <- (holds_lengths _ _ _ _ Hlb). apply Forall2_app.
          + eapply Forall2_maps; [|apply Forall2_skip, Pa]. intros a' v [p1 [F p2]]. simpl. split; auto.
            intros h' Hk. split; eauto.
          + eapply Forall2_maps; [|apply Forall2_skip, Pb]. intros a' v [_ [F p2]]. simpl. split.
            * intros vb vc; intros. eapply bin_int_holds; eauto.
            * intros h' Hk. split; eauto. }
      assert (Hz4 : nth_error h4 zero = Some (Some (NZ 0))).
      { destruct d2 as [_ d2]. rewrite d2 by (simpl; auto). exact z5. }
      destruct (freed_one _ _ _ Hz4) as [f1 f2].
      pose proof (g_dup _ _ _ d1) as Hd. simpl in Hd. inversion Hd as [|? ? m1 m2]; subst. inversion m2 as [|? ? m3 m4]; subst.
      simpl in m1.
      exists (S (Nat.max n1 n2)), (length h), (update h4 zero None), (length h :: G4). conj.
      * eapply grows_freed; [|exact f2]. eapply grows_perm; [|exact d1]. simpl. constructor. apply Permutation_cons_append.
      * econstructor; [rewrite (freed_out _ _ _ _ f2); eauto; simpl; intuition congruence|].
        eapply holds_all_frame; eauto. intros i Hi. apply (freed_out _ _ _ _ f2). simpl. intros [<-|[]]. auto.
      * intros n Hn. destruct n; [lia|]. cbn [new_bin]. rewrite (read_live _ _ _ Ha), (read_live _ _ _ Hb). cbn [bind alloc].
        rewrite c5 by lia. cbn [bind]. fold zero h3. rewrite d5 by lia. cbn [bind]. rewrite f1. reflexivity.
Qed.

(** ** multiz_new_mul *)
Definition mul_ok (va : mz) : Prop := forall vb vc, mz_mul va vb = Ok vc -> forall h a b Fa Fb,
  holds h va a Fa -> holds h vb b Fb -> yields (fun n => new_mul n a b) h vc.
Definition terms (vs ws : list mz) (i : nat) (acc : res mz) (j : nat) : res mz :=
  z <- acc ;; y <- mz_mul (nth j vs (MZ 0)) (nth (i - j) ws (MZ 0)) ;; mz_add z y.
Lemma mul_lists vs ws : mz_mul (MA vs) (MA ws) =
  (l <- traverse (fun i => fold_left (terms vs ws i) (seq 0 (i + 1)) (Ok (MZ 0))) (seq 0 (length vs + length ws - 1)) ;;
   Ok (MA l)).
Proof.
  cbn [mz_mul]. f_equal. induction (seq 0 _) as [|i is IH]; [reflexivity|]. cbn [traverse]. rewrite IH. f_equal.
  generalize (Ok (MZ 0)). induction (seq 0 (i + 1)) as [|j js IHj]; intros r; [reflexivity|]. cbn [fold_left].
  rewrite IHj. f_equal. unfold terms. destruct r; simpl; auto.
  change (fun b : mz => Ok (unary (fun z : Z => (z * 0)%Z) b)) with ((fun x => mz_mul x) (MZ 0)).
  rewrite map_nth. reflexivity.
Qed.
Lemma terms_fail vs ws i js r : (forall v, r <> Ok v) -> forall v, fold_left (terms vs ws i) js r <> Ok v.
Proof.
  revert r. induction js as [|j js IH]; intros r H v; simpl; auto.
  apply IH. intros w. destruct r; simpl; try discriminate. exfalso. eapply H; eauto.
Qed.
Definition term_step (n : nat) (la lb : list nat) (zero i : nat) (r : res (nat * heap)) (j : nat) : res (nat * heap) :=
  s <- r ;; let '(z, h) := s in
  py <- new_mul n (nth j la zero) (nth (i - j) lb zero) h ;;
  pt <- new_bin n Z.add z (fst py) (snd py) ;;
  h <- multiz_free n (fst py) (snd pt) ;;
  h <- multiz_free n z h ;;
  Ok (fst pt, h).
Lemma terms_holds hs vs ws la lb zero i :
  (forall j, mul_ok (nth j vs (MZ 0))) ->
  (forall j, exists F, holds hs (nth j vs (MZ 0)) (nth j la zero) F) ->
  (forall j, exists F, holds hs (nth j ws (MZ 0)) (nth j lb zero) F) ->
  forall js vz vr, fold_left (terms vs ws i) js (Ok vz) = Ok vr ->
  forall h z Fz, grows hs h Fz -> holds h vz z Fz ->
  exists n0 z' h' Fz', grows hs h' Fz' /\ holds h' vr z' Fz' /\
    forall n, n0 <= n -> fold_left (term_step n la lb zero i) js (Ok (z, h)) = Ok (z', h').
Proof.
  intros Hm Ha Hb. induction js as [|j js IH]; intros vz vr Hv h z Fz Hg Hz.
  - simpl in Hv. injection Hv as <-. exists 0, z, h, Fz. conj; auto.
  - cbn [fold_left] in Hv.
    destruct (terms vs ws i (Ok vz) j) as [vt| | |] eqn:Ht;
      try (exfalso; eapply terms_fail; [|exact Hv]; discriminate).
    unfold terms in Ht. cbn [bind] in Ht.
    destruct (mz_mul _ _) as [vy| | |] eqn:Hy; try discriminate. cbn [bind] in Ht.
    destruct (Ha j) as [Fa Ha']. destruct (Hb (i - j)) as [Fb Hb'].
    destruct (Hm j _ _ Hy h _ _ _ _ (holds_grown _ _ _ _ _ _ Hg Ha') (holds_grown _ _ _ _ _ _ Hg Hb'))
      as (n1&y&h1&Fy&g1&y1&r1).
    pose proof (holds_grown _ _ _ _ _ _ g1 Hz) as Hz1.
    destruct (bin_holds _ _ _ _ Ht _ _ _ _ _ Hz1 y1) as (n2&t&h2&Ft&g2&t2&r2).
    pose proof (grows_trans _ _ _ _ _ (grows_trans _ _ _ _ _ Hg g1) g2) as Hg2.
    pose proof (g_dup _ _ _ Hg2) as Hd. apply NoDup_split in Hd. destruct Hd as (d1&d2&d3).
    apply NoDup_split in d1. destruct d1 as (d4&d5&d6).
    destruct (free_holds _ _ _ _ (holds_grown _ _ _ _ _ _ g2 y1) d5) as (n3&h3&f3&r3).
    assert (Hz3 : holds h3 vz z Fz).
    { eapply holds_frame; [exact (holds_grown _ _ _ _ _ _ g2 Hz1)|].
      intros k Hk. eapply freed_out; eauto. }
    destruct (free_holds _ _ _ _ Hz3 d4) as (n4&h4&f4&r4).
    pose proof (freed_app _ _ _ _ _ f3 f4) as f34.
    assert (Hg4 : grows hs h4 Ft).
    { eapply grows_freed; [|exact f34]. eapply grows_perm; [|exact Hg2].
      rewrite Permutation_app_comm. apply Permutation_app_head, Permutation_app_comm. }
    assert (Ht4 : holds h4 vt t Ft).
    { eapply holds_frame; eauto. intros k Hk. eapply freed_out; eauto. intros Hx.
      apply (d3 k); auto. rewrite in_app_iff in *. tauto. }
    destruct (IH _ _ Hv _ _ _ Hg4 Ht4) as (n5&z'&h'&Fz'&e1&e2&e3).
    exists (Nat.max (Nat.max n1 n2) (Nat.max n3 (Nat.max n4 n5))), z', h', Fz'. conj; auto.
    intros n Hn. cbn [fold_left]. unfold term_step at 2. cbn [bind]. rewrite r1 by lia. cbn [bind fst snd].
    rewrite r2 by lia. cbn [bind fst snd]. rewrite r3 by lia. cbn [bind]. rewrite r4 by lia. cbn [bind].
    apply e3. lia.
Qed.
Definition coefficient (n : nat) (la lb : list nat) (zero i : nat) (h : heap) : res (nat * heap) :=
  let '(z0, h) := alloc h (NZ 0) in fold_left (term_step n la lb zero i) (seq 0 (i + 1)) (Ok (z0, h)).

Lemma mul_int_ok x : mul_ok (MZ x).
Proof.
  intros vb vc Hv h a b Fa Fb Ha Hb. injection Hv as <-. apply holds_int in Ha. destruct Ha as [-> Ha].
  destruct (unary_holds (fun z => (z * x)%Z) _ _ _ _ Hb) as (n0&r&h'&F&c1&c2&c3).
  exists (S n0), r, h', F. conj; auto. intros n Hn. specialize (c3 n). destruct n; [lia|].
  cbn [new_mul]. rewrite (read_live _ _ _ Ha). cbn [bind].
  assert (Hrb : exists c, read h b = Ok c).
  { pose proof (holds_live _ _ _ _ Hb b (holds_root _ _ _ _ Hb)) as [c Hc]. exists c. apply read_live; auto. }
  destruct Hrb as [c ->]. cbn [bind]. apply c3. lia.
Qed.
Lemma nth_placed (P : mz -> Prop) h vs l zero : P (MZ 0) -> (exists F, holds h (MZ 0) zero F) ->
  Forall2 (placed P h) l vs -> forall j, placed P h (nth j l zero) (nth j vs (MZ 0)).
Proof.
  intros H0 Hz. induction 1 as [|a v l vs Hp H IH]; intros j.
  - destruct j; split; auto.
  - destruct j; simpl; auto.
Qed.

Lemma mul_holds va : mul_ok va.
Proof.
  induction va as [x|vs IH] using mz_induction; [apply mul_int_ok|].
  intros vb vc Hv h a b Fa Fb Ha Hb. destruct vb as [y|ws].
  - change (mz_mul (MA vs) (MZ y)) with (Ok (unary (fun z => (z * y)%Z) (MA vs))) in Hv. injection Hv as <-.
    destruct (unary_holds (fun z => (z * y)%Z) _ _ _ _ Ha) as (n0&r&h'&F&c1&c2&c3).
    apply holds_list in Ha. destruct Ha as (la&As&->&Ha&Hla). apply holds_int in Hb. destruct Hb as [-> Hb].
    exists (S n0), r, h', F. conj; auto. intros n Hn. specialize (c3 n). destruct n; [lia|].
    cbn [new_mul]. rewrite (read_live _ _ _ Ha), (read_live _ _ _ Hb). cbn [bind]. apply c3. lia.
  - rewrite mul_lists in Hv. destruct (traverse _ _) as [us| | |] eqn:Hu; try discriminate. injection Hv as <-.
    apply traverse_pointwise in Hu.
    apply holds_list in Ha. destruct Ha as (la&As&->&Ha&Hla).
    apply holds_list in Hb. destruct Hb as (lb&Bs&->&Hb&Hlb).
    pose proof (grows_alloc h (NA [])) as Hg. set (h1 := h ++ [Some (NA [])]) in *.
    assert (Hx1 : nth_error h1 (length h) = Some (Some (NA []))).
    { unfold h1. rewrite alloc_nth, Nat.eqb_refl. reflexivity. }
    destruct (zero_cell h h1 h (length h) [] [] [] eq_refl Hg Hx1) as (z1&z2&z3&z4&z5); [constructor|].
    set (zero := length h1) in *. set (h2 := h1 ++ [Some (NZ 0)]) in *.
    assert (Hold : forall h' v a F, keeps (length h) [zero] h2 h' -> holds h v a F -> holds h' v a F).
    { intros h' v a0 F Hk Hh. eapply holds_kept'; [|exact Hk|eapply holds_grown; eauto].
      intros i _ Hi. left. eapply allocated_lt, holds_live; eauto. }
    assert (Hzero : forall h', keeps (length h) [zero] h2 h' -> exists F, holds h' (MZ 0) zero F).
    { intros h' [_ Hk]. exists [zero]. constructor. rewrite Hk by (simpl; auto). exact z5. }
    destruct (build (fun n i (_ : nat) => coefficient n la lb zero i) h h2 [zero] (length h)
      (map (fun i => (i, 0)) (seq 0 (length la + length lb - 1))) us) with
      (h := h2) (bs := @nil nat) (ws := @nil mz) (G := @nil nat)
      as (n1&h4&bs&G&d1&d2&d3&d4&d5); auto.
    { rewrite (holds_lengths _ _ _ _ Hla), (holds_lengths _ _ _ _ Hlb).
      rewrite <- (map_id us). eapply Forall2_maps; [|exact Hu]. intros i u Hi h' Hk. cbn [fst snd]. cbn beta.
      assert (Pa : forall j, placed mul_ok h' (nth j la zero) (nth j vs (MZ 0))).
      { apply nth_placed; auto using mul_int_ok. apply (holds_all_placed _ _ _ _ As); auto.
        eapply holds_all_frame; [exact Hla|]. intros k Hk'. 
        destruct Hk as [_ Hk]. rewrite Hk.
        - eapply same_grown; eauto. eapply (holds_live h (MA vs) a (a :: As)); [econstructor; eauto|simpl; auto].
        - left. eapply allocated_lt, (holds_live h (MA vs) a (a :: As)); [econstructor; eauto|simpl; auto]. }
      assert (Pb : forall j, placed (fun _ => True) h' (nth j lb zero) (nth j ws (MZ 0))).
      { apply nth_placed; auto. apply (holds_all_placed _ _ _ _ Bs); [apply Forall_forall; auto|].
        eapply holds_all_frame; [exact Hlb|]. intros k Hk'. 
        destruct Hk as [_ Hk]. rewrite Hk.
        - eapply same_grown; eauto. eapply (holds_live h (MA ws) b (b :: Bs)); [econstructor; eauto|simpl; auto].
        - left. eapply allocated_lt, (holds_live h (MA ws) b (b :: Bs)); [econstructor; eauto|simpl; auto]. }
      pose proof (grows_alloc h' (NZ 0)) as Hg0.
      destruct (terms_holds h' vs ws la lb zero i) with (js := seq 0 (i + 1)) (vz := MZ 0) (vr := u)
        (h := h' ++ [Some (NZ 0)]) (z := length h') (Fz := [length h']) as (n0&z'&h''&F&e1&e2&e3); auto.
      - intros j. apply Pa.
      - intros j. apply Pa.
      - intros j. apply Pb.
      - constructor. rewrite alloc_nth, Nat.eqb_refl. reflexivity.
      - exists n0, z', h'', F. conj; auto. }
    assert (Hz4 : nth_error h4 zero = Some (Some (NZ 0))).
    { destruct d2 as [_ d2]. rewrite d2 by (simpl; auto). exact z5. }
    destruct (freed_one _ _ _ Hz4) as [f1 f2].
    pose proof (g_dup _ _ _ d1) as Hd. simpl in Hd. inversion Hd as [|? ? m1 m2]; subst. inversion m2 as [|? ? m3 m4]; subst.
    simpl in m1.
    exists (S (S n1)), (length h), (update h4 zero None), (length h :: G). conj.
    + eapply grows_freed; [|exact f2]. eapply grows_perm; [|exact d1]. simpl. constructor. apply Permutation_cons_append.
    + econstructor; [rewrite (freed_out _ _ _ _ f2); eauto; simpl; intuition congruence|].
      eapply holds_all_frame; eauto. intros i Hi. apply (freed_out _ _ _ _ f2). simpl. intros [<-|[]]. auto.
    + intros n Hn. destruct n as [|n]; [lia|]. cbn [new_mul]. rewrite (read_live _ _ _ Ha), (read_live _ _ _ Hb). cbn [bind alloc].
      fold h1. fold zero. fold h2.
      assert (Hn' : n1 <= n) by lia. specialize (d5 n Hn'). rewrite fold_map in d5.
      match goal with |- bind ?x _ = _ => replace x with (Ok h4) end.
      cbn [bind]. destruct n as [|n]; [lia|]. cbn [multiz_free]. rewrite (read_live _ _ _ Hz4). cbn [bind]. rewrite f1. reflexivity.
Qed.

(** ** Histories of calls *)
Lemma blocks_live Fp w s i : represents_by Fp w s -> forall k, In k (Fp i) -> allocated (cells s) k.
Proof.
  intros [r1 r2 r3 r4 r5] k Hk. destruct (w i) as [v|] eqn:E.
  - destruct (r1 _ _ E) as [a [_ H]]. eapply holds_live; eauto.
  - rewrite (r2 _ E) in Hk. destruct Hk.
Qed.
Definition set_at {A} (f : nat -> A) (i : nat) (a : A) : nat -> A := fun j => if Nat.eqb j i then a else f j.
Lemma set_at_same {A} (f : nat -> A) i a : set_at f i a i = a.
Proof. unfold set_at. rewrite Nat.eqb_refl. reflexivity. Qed.
Lemma set_at_other {A} (f : nat -> A) i a j : j <> i -> set_at f i a j = f j.
Proof. intros H. unfold set_at. destruct (Nat.eqb_spec j i); tauto. Qed.

Lemma put_represents w s i h F v b : represents w s -> w i = None ->
  grows (cells s) h F -> holds h v b F -> represents (now w i (Some v)) (set_data s h i b).
Proof.
  intros [Fp R] Hi Hg Hh. pose proof R as [r1 r2 r3 r4 r5]. exists (set_at Fp i F).
  assert (Hlow : forall j k, In k (Fp j) -> In k F -> False).
  { intros j k H1 H2. apply (blocks_live _ _ _ _ R), allocated_lt in H1. apply (g_low _ _ _ Hg) in H2. lia. }
  split.
  - intros j u. unfold now, set_data, set_at; simpl. destruct (Nat.eqb_spec j i) as [->|Hj].
    + intros E. injection E as <-. eauto.
    + intros E. destruct (r1 _ _ E) as [a [H1 H2]]. exists a. split; auto. eapply holds_grown; eauto.
  - intros j. unfold now, set_at. destruct (Nat.eqb_spec j i); [discriminate|apply r2].
  - intros j. unfold set_at. destruct (j =? i); auto. apply (g_dup _ _ _ Hg).
  - intros j k x. unfold set_at. destruct (Nat.eqb_spec j i) as [->|], (Nat.eqb_spec k i) as [->|]; intros H1 H2; auto;
      try (exfalso; eauto; fail). eapply r4; eauto.
  - simpl. intros k Hk. destruct (Nat.lt_ge_cases k (length (cells s))) as [H|H].
    + destruct (r5 k) as [j Hj].
      { apply (allocated_same (cells s) h); auto. apply (g_old _ _ _ Hg); auto. }
      exists j. rewrite set_at_other; auto. intros ->. rewrite (r2 _ Hi) in Hj. destruct Hj.
    + exists i. rewrite set_at_same. apply (g_new _ _ _ Hg); auto.
Qed.
Lemma drop_represents w s i v a : represents w s -> w i = Some v -> slots s i = Some a ->
  exists n0 h, represents (now w i None) (Mem h (slots s)) /\ forall n, n0 <= n -> multiz_free n a (cells s) = Ok h.
Proof.
  intros [Fp R] Hi Ha. pose proof R as [r1 r2 r3 r4 r5].
  destruct (r1 _ _ Hi) as [a' [Ha' Hh]]. rewrite Ha in Ha'. injection Ha' as <-.
  destruct (free_holds _ _ _ _ Hh (r3 i)) as (n0&h&Hf&Hr). exists n0, h. split; auto.
  exists (set_at Fp i []). split.
  - intros j u. unfold now, set_at; simpl. destruct (Nat.eqb_spec j i) as [->|Hj]; [discriminate|].
    intros E. destruct (r1 _ _ E) as [b [H1 H2]]. exists b. split; auto. eapply holds_frame; eauto.
    intros k Hk. eapply freed_out; eauto.
  - intros j. unfold now, set_at. destruct (Nat.eqb_spec j i); [auto|apply r2].
  - intros j. unfold set_at. destruct (j =? i); auto. constructor.
  - intros j k x. unfold set_at. destruct (Nat.eqb_spec j i) as [->|], (Nat.eqb_spec k i) as [->|]; simpl; try tauto. apply r4.
  - simpl. intros k Hk. destruct (in_dec Nat.eq_dec k (Fp i)) as [H|H].
    + exfalso. eapply freed_in; eauto.
    + destruct (r5 k) as [j Hj].
      { apply (allocated_same (cells s) h); auto. eapply freed_out; eauto. }
      exists j. rewrite set_at_other; auto. intros ->. tauto.
Qed.
(** The new value is made first, the old one freed afterwards. *)
Lemma replace_represents w s i v0 op v : represents w s -> w i = Some v0 -> yields op (cells s) v ->
  exists n0 s', represents (now w i (Some v)) s' /\
    forall n, n0 <= n -> (p <- op n (cells s) ;; replace n s i p) = Ok s'.
Proof.
  intros [Fp R] Hi (n1&b&h1&F&Hg&Hh&Hr). pose proof R as [r1 r2 r3 r4 r5].
  destruct (r1 _ _ Hi) as [a [Ha Hv]].
  destruct (free_holds _ _ _ _ (holds_grown _ _ _ _ _ _ Hg Hv) (r3 i)) as (n2&h2&Hf&Hr2).
  assert (Hlow : forall j k, In k (Fp j) -> In k F -> False).
  { intros j k H1 H2. apply (blocks_live _ _ _ _ R), allocated_lt in H1. apply (g_low _ _ _ Hg) in H2. lia. }
  exists (Nat.max n1 n2), (set_data s h2 i b). split.
  - exists (set_at Fp i F). split.
    + intros j u. unfold now, set_data, set_at; simpl. destruct (Nat.eqb_spec j i) as [->|Hj].
      * intros E. injection E as <-. exists b. split; auto. eapply holds_frame; eauto.
        intros k Hk. eapply freed_out; eauto.
      * intros E. destruct (r1 _ _ E) as [a' [H1 H2]]. exists a'. split; auto.
        eapply holds_frame; [eapply holds_grown; eauto|]. intros k Hk. eapply freed_out; eauto.
    + intros j. unfold now, set_at. destruct (Nat.eqb_spec j i); [discriminate|apply r2].
    + intros j. unfold set_at. destruct (j =? i); auto. apply (g_dup _ _ _ Hg).
    + intros j k x. unfold set_at. destruct (Nat.eqb_spec j i) as [->|], (Nat.eqb_spec k i) as [->|]; intros H1 H2; auto;
        try (exfalso; eauto; fail). eapply r4; eauto.
    + simpl. intros k Hk. destruct (in_dec Nat.eq_dec k (Fp i)) as [H|H]; [exfalso; eapply freed_in; eauto|].
      apply (allocated_same h1 h2) in Hk; [|eapply freed_out; eauto].
      destruct (Nat.lt_ge_cases k (length (cells s))) as [Hl|Hl].
      * destruct (r5 k) as [j Hj].
        { apply (allocated_same (cells s) h1); auto. apply (g_old _ _ _ Hg); auto. }
        exists j. rewrite set_at_other; auto. intros ->. tauto.
      * exists i. rewrite set_at_same. apply (g_new _ _ _ Hg); auto.
  - intros n Hn. rewrite Hr by lia. cbn [bind]. unfold replace, data. rewrite Ha. cbn [bind fst snd].
    rewrite Hr2 by lia. reflexivity.
Qed.

(** An element given to a list. *)
Lemma append_represents w s i j x d ls v : represents w s -> i <> j ->
  w i = Some (MA ls) -> slots s i = Some x -> w j = Some v -> slots s j = Some d ->
  exists h, append_to (cells s) x d = Ok h /\
    represents (now (now w j None) i (Some (MA (ls ++ [v])))) (Mem h (slots s)).
Proof.
  intros [Fp R] Hij Hi Hx Hj Hd. pose proof R as [r1 r2 r3 r4 r5].
  destruct (r1 _ _ Hi) as [x' [E1 H1]]. rewrite Hx in E1. injection E1 as <-.
  destruct (r1 _ _ Hj) as [d' [E2 H2]]. rewrite Hd in E2. injection E2 as <-.
  apply holds_list in H1. destruct H1 as (l&Fs&EF&Hl&Hls).
  pose proof (live_length _ _ _ Hl) as Hlen.
  pose proof (r3 i) as Hd1. rewrite EF in Hd1. inversion Hd1 as [|? ? Hxn Hd1']; subst.
  assert (Hxi : In x (Fp i)) by (rewrite EF; simpl; auto).
  exists (update (cells s) x (Some (NA (l ++ [d])))). split.
  { unfold append_to, write. rewrite (read_live _ _ _ Hl). reflexivity. }
  assert (Hout : forall k, k <> x -> nth_error (update (cells s) x (Some (NA (l ++ [d])))) k = nth_error (cells s) k).
  { intros k Hk. rewrite nth_update by auto. destruct (Nat.eqb_spec k x); tauto. }
  assert (Hxj : forall k, k <> i -> ~ In x (Fp k)).
  { intros k Hk H. apply Hk. eapply r4; eauto. }
  exists (set_at (set_at Fp j []) i (x :: Fs ++ Fp j ++ [])). split; simpl.
  - intros k u. unfold now, set_at. destruct (Nat.eqb_spec k i) as [->|Hk].
    + intros E. injection E as <-. exists x. split; auto. econstructor.
      * rewrite nth_update, Nat.eqb_refl by auto. reflexivity.
      * apply holds_all_app.
        -- eapply holds_all_frame; eauto. intros k Hk. apply Hout. intros ->. auto.
        -- constructor; [|constructor]. eapply holds_frame; eauto. intros k Hk. apply Hout. intros ->. eapply Hxj; eauto.
    + destruct (Nat.eqb_spec k j) as [->|Hkj]; [discriminate|]. intros E. destruct (r1 _ _ E) as [a [H3 H4]].
      exists a. split; auto. eapply holds_frame; eauto. intros m Hm. apply Hout. intros ->. eapply Hxj; eauto.
  - intros k. unfold now, set_at. destruct (Nat.eqb_spec k i); [discriminate|]. destruct (k =? j); auto.
  - intros k. unfold set_at. destruct (Nat.eqb_spec k i) as [->|].
    + rewrite app_nil_r. constructor.
      * rewrite in_app_iff. intros [H|H]; [auto|eapply Hxj; eauto].
      * apply NoDup_split. conj; auto. intros m Hm1 Hm2. apply Hij. apply (r4 i j m); auto. rewrite EF; simpl; auto.
    + destruct (k =? j); auto. constructor.
  - intros a b k. rewrite app_nil_r. unfold set_at.
    assert (Hmine : forall c, c <> i -> c <> j -> In k (x :: Fs ++ Fp j) -> In k (Fp c) -> False).
    { intros c c1 c2 H3 H4. simpl in H3. rewrite in_app_iff in H3. destruct H3 as [<-|[H3|H3]].
      - eapply Hxj; eauto.
      - apply c1. apply (r4 c i k); auto. rewrite EF; simpl; auto.
      - apply c2. eapply r4; eauto. }
    destruct (Nat.eqb_spec a i) as [->|Ha], (Nat.eqb_spec b i) as [->|Hb]; auto.
    + destruct (Nat.eqb_spec b j) as [->|]; [intros _ []|]. intros H3 H4. exfalso. exact (Hmine b Hb n H3 H4).
    + destruct (Nat.eqb_spec a j) as [->|]; [intros []|]. intros H3 H4. exfalso. exact (Hmine a Ha n H4 H3).
    + destruct (Nat.eqb_spec a j) as [->|]; [intros []|]. destruct (Nat.eqb_spec b j) as [->|]; [intros _ []|]. apply r4.
  - intros k Hk. assert (Hk' : allocated (cells s) k).
    { destruct (Nat.eq_dec k x) as [->|Hn]; [eexists; eauto|]. apply (allocated_same _ _ k (Hout k Hn)); auto. }
    destruct (r5 k Hk') as [c Hc]. destruct (Nat.eq_dec c i) as [->|Hci]; [|destruct (Nat.eq_dec c j) as [->|Hcj]].
    + exists i. rewrite set_at_same. rewrite EF in Hc. simpl in *. rewrite in_app_iff. tauto.
    + exists i. rewrite set_at_same. simpl. rewrite !in_app_iff. tauto.
    + exists c. rewrite !set_at_other; auto.
Qed.
Lemma new_list_represents w s i j d v : represents w s -> w j = Some v -> slots s j = Some d ->
  now w j None i = None ->
  exists h, append_to (cells s ++ [Some (NA [])]) (length (cells s)) d = Ok h /\
    represents (now (now w j None) i (Some (MA [v]))) (set_data s h i (length (cells s))).
Proof.
  intros [Fp R] Hj Hd Hi. pose proof R as [r1 r2 r3 r4 r5].
  destruct (r1 _ _ Hj) as [d' [E2 H2]]. rewrite Hd in E2. injection E2 as <-.
  set (x := length (cells s)). set (h1 := cells s ++ [Some (NA [])]).
  assert (Hx1 : nth_error h1 x = Some (Some (NA []))).
  { unfold h1. rewrite alloc_nth. unfold x. rewrite Nat.eqb_refl. reflexivity. }
  pose proof (grows_alloc (cells s) (NA [])) as Hg. fold h1 in Hg. fold x in Hg.
  set (h := update h1 x (Some (NA [d]))). exists h. split.
  { unfold append_to, write. rewrite (read_live _ _ _ Hx1). reflexivity. }
  assert (Hg2 : grows (cells s) h [x]) by (apply grows_write; simpl; auto).
  assert (Hhx : nth_error h x = Some (Some (NA [d]))).
  { unfold h. rewrite nth_update, Nat.eqb_refl; [reflexivity|]. eapply live_length; eauto. }
  assert (Hxn : forall k, ~ In x (Fp k)).
  { intros k Hk. apply (blocks_live _ _ _ _ R), allocated_lt in Hk. unfold x in Hk. lia. }
  assert (Hi' : i = j \/ w i = None).
  { unfold now in Hi. destruct (Nat.eqb_spec i j); auto. }
  exists (set_at (set_at Fp j []) i (x :: Fp j ++ [])). split; simpl.
  - intros k u. unfold now, set_at. destruct (Nat.eqb_spec k i) as [->|Hk].
    + intros E. injection E as <-. exists x. split; auto. econstructor; eauto.
      constructor; [|constructor]. eapply holds_grown; eauto.
    + destruct (Nat.eqb_spec k j) as [->|Hkj]; [discriminate|]. intros E. destruct (r1 _ _ E) as [a [H3 H4]].
      exists a. split; auto. eapply holds_grown; eauto.
  - intros k. unfold now, set_at. destruct (Nat.eqb_spec k i); [discriminate|]. destruct (k =? j); auto.
  - intros k. unfold set_at. destruct (Nat.eqb_spec k i) as [->|].
    + rewrite app_nil_r. constructor; auto.
    + destruct (k =? j); auto. constructor.
  - intros a b k. rewrite app_nil_r. unfold set_at.
    assert (Hmine : forall c, c <> i -> c <> j -> In k (x :: Fp j) -> In k (Fp c) -> False).
    { intros c c1 c2 H3 H4. destruct H3 as [<-|H3]; [eapply Hxn; eauto|]. apply c2. eapply r4; eauto. }
    destruct (Nat.eqb_spec a i) as [->|Ha], (Nat.eqb_spec b i) as [->|Hb]; auto.
    + destruct (Nat.eqb_spec b j) as [->|]; [intros _ []|]. intros H3 H4. exfalso. exact (Hmine b Hb n H3 H4).
    + destruct (Nat.eqb_spec a j) as [->|]; [intros []|]. intros H3 H4. exfalso. exact (Hmine a Ha n H4 H3).
    + destruct (Nat.eqb_spec a j) as [->|]; [intros []|]. destruct (Nat.eqb_spec b j) as [->|]; [intros _ []|]. apply r4.
  - intros k Hk. destruct (Nat.lt_ge_cases k (length (cells s))) as [Hl|Hl].
    + destruct (r5 k) as [c Hc].
      { apply (allocated_same (cells s) h); auto. apply (g_old _ _ _ Hg2); auto. }
      destruct (Nat.eq_dec c j) as [->|Hcj].
      * exists i. rewrite set_at_same. simpl. rewrite !in_app_iff. auto.
      * destruct (Nat.eq_dec c i) as [->|Hci]; [|exists c; rewrite !set_at_other; auto].
        destruct Hi' as [Hi'|Hi']; [congruence|]. rewrite (r2 _ Hi') in Hc. destruct Hc.
    + apply (g_new _ _ _ Hg2) in Hk; auto. destruct Hk as [<-|[]]. exists i. rewrite set_at_same. simpl; auto.
Qed.
Lemma unchanged_represents w s h : represents w s -> grows (cells s) h [] -> represents w (Mem h (slots s)).
Proof.
  intros [Fp R] Hg. pose proof R as [r1 r2 r3 r4 r5]. exists Fp. split; simpl; auto.
  - intros i v E. destruct (r1 _ _ E) as [a [H1 H2]]. exists a. split; auto. eapply holds_grown; eauto.
  - intros k Hk. apply r5. destruct (Nat.lt_ge_cases k (length (cells s))) as [Hl|Hl].
    + apply (allocated_same (cells s) h); auto. apply (g_old _ _ _ Hg); auto.
    + apply (g_new _ _ _ Hg) in Hk; auto. destruct Hk.
Qed.

Lemma value_of w i v : val w i = Ok v -> w i = Some v.
Proof. unfold val. destruct (w i); congruence. Qed.
Lemma pointer_of w s i v : represents w s -> w i = Some v -> exists a F, slots s i = Some a /\ holds (cells s) v a F.
Proof. intros [Fp [r1 _ _ _ _]] H. destruct (r1 _ _ H) as [a [H1 H2]]. eauto. Qed.

Ltac step_val H :=
  match type of H with
  | bind (val ?w ?i) _ = Ok _ => let v := fresh "v" in let E := fresh "V" in
      destruct (val w i) as [v| | |] eqn:E; try discriminate; apply value_of in E; cbn [bind] in H
  | becomes ?w ?i _ = Ok _ => unfold becomes in H; step_val H
  end.

Lemma step_represents c w w' s : vstep w c = Ok w' -> represents w s ->
  exists n0 s', represents w' s' /\ forall n, n0 <= n -> call_step n s c = Ok s'.
Proof.
  intros H R. destruct c; cbn [vstep] in H.
  - (* init *)
    destruct (w i) eqn:E; [discriminate|]. injection H as <-.
    exists 0, (set_data s (cells s ++ [Some (NZ 0)]) i (length (cells s))). split; [|reflexivity].
    eapply put_represents; eauto using grows_alloc. constructor. rewrite alloc_nth, Nat.eqb_refl. reflexivity.
  - (* clear *)
    step_val H. injection H as <-. destruct (pointer_of _ _ _ _ R V) as (a&F&Ha&_).
    destruct (drop_represents _ _ _ _ _ R V Ha) as (n0&h&Hr&Hf). exists n0, (Mem h (slots s)). split; auto.
    intros n Hn. unfold call_step, data. rewrite Ha. cbn [bind]. rewrite Hf by auto. reflexivity.
  - (* set_si *)
    step_val H. injection H as <-. destruct (pointer_of _ _ _ _ R V) as (a&F&Ha&_).
    destruct (drop_represents _ _ _ _ _ R V Ha) as (n0&h&Hr&Hf).
    exists n0, (set_data s (h ++ [Some (NZ z)]) i (length h)). split.
    + destruct (put_represents (now w i None) (Mem h (slots s)) i (h ++ [Some (NZ z)]) [length h] (MZ z) (length h)) as [Fp' R'].
      * auto.
      * unfold now. rewrite Nat.eqb_refl. reflexivity.
      * apply grows_alloc.
      * constructor. rewrite alloc_nth, Nat.eqb_refl. reflexivity.
      * exists Fp'. destruct R' as [r1 r2 r3 r4 r5]. split; auto.
        -- intros j u E. apply r1. revert E. unfold now. destruct (j =? i); auto.
        -- intros j E. apply r2. revert E. unfold now. destruct (j =? i); auto.
    + intros n Hn. unfold call_step, data. rewrite Ha. cbn [bind]. rewrite Hf by auto. reflexivity.
  - (* set *)
    step_val H. step_val H. injection H as <-. destruct (pointer_of _ _ _ _ R V) as (a&F&Ha&Hh).
    assert (Hu : unary (fun z => z) v = v).
    { clear. induction v as [z|l IH] using mz_induction; simpl; auto. f_equal.
      induction IH as [|x l Hx _ IHl]; simpl; congruence. }
    pose proof (unary_holds (fun z => z) _ _ _ _ Hh) as Hy. rewrite Hu in Hy.
    destruct (replace_represents _ _ _ _ _ _ R V0 Hy) as (n0&s'&Hr&Hs). exists n0, s'. split; auto.
    intros n Hn. unfold call_step, data at 1. rewrite Ha. cbn [bind]. apply Hs; auto.
  - (* add *)
    step_val H. step_val H. destruct (mz_add v v0) as [u| | |] eqn:Hu; try discriminate. cbn [bind] in H. step_val H. injection H as <-.
    destruct (pointer_of _ _ _ _ R V) as (a&F&Ha&Hh). destruct (pointer_of _ _ _ _ R V0) as (b&G&Hb&Hk).
    destruct (replace_represents _ _ _ _ _ _ R V1 (bin_holds _ _ _ _ Hu _ _ _ _ _ Hh Hk)) as (n0&s'&Hr&Hs). exists n0, s'. split; auto.
    intros n Hn. unfold call_step, data. rewrite Ha, Hb. cbn [bind]. apply Hs; auto.
  - (* sub *)
    step_val H. step_val H. destruct (mz_sub v v0) as [u| | |] eqn:Hu; try discriminate. cbn [bind] in H. step_val H. injection H as <-.
    destruct (pointer_of _ _ _ _ R V) as (a&F&Ha&Hh). destruct (pointer_of _ _ _ _ R V0) as (b&G&Hb&Hk).
    destruct (replace_represents _ _ _ _ _ _ R V1 (bin_holds _ _ _ _ Hu _ _ _ _ _ Hh Hk)) as (n0&s'&Hr&Hs). exists n0, s'. split; auto.
    intros n Hn. unfold call_step, data. rewrite Ha, Hb. cbn [bind]. apply Hs; auto.
  - (* mul *)
    step_val H. step_val H. destruct (mz_mul v v0) as [u| | |] eqn:Hu; try discriminate. cbn [bind] in H. step_val H. injection H as <-.
    destruct (pointer_of _ _ _ _ R V) as (a&F&Ha&Hh). destruct (pointer_of _ _ _ _ R V0) as (b&G&Hb&Hk).
    destruct (replace_represents _ _ _ _ _ _ R V1 (mul_holds _ _ _ Hu _ _ _ _ _ Hh Hk)) as (n0&s'&Hr&Hs). exists n0, s'. split; auto.
    intros n Hn. unfold call_step, data. rewrite Ha, Hb. cbn [bind]. apply Hs; auto.
  - (* neg *)
    step_val H. step_val H. injection H as <-. destruct (pointer_of _ _ _ _ R V) as (a&F&Ha&Hh).
    destruct (replace_represents _ _ _ _ _ _ R V0 (unary_holds Z.opp _ _ _ _ Hh)) as (n0&s'&Hr&Hs). exists n0, s'. split; auto.
    intros n Hn. unfold call_step, data at 1. rewrite Ha. cbn [bind]. apply Hs; auto.
  - (* mul_mpz *)
    step_val H. step_val H. injection H as <-. destruct (pointer_of _ _ _ _ R V) as (a&F&Ha&Hh).
    destruct (replace_represents _ _ _ _ _ _ R V0 (unary_holds (fun x => (x * z)%Z) _ _ _ _ Hh)) as (n0&s'&Hr&Hs). exists n0, s'. split; auto.
    intros n Hn. unfold call_step, data at 1. rewrite Ha. cbn [bind]. apply Hs; auto.
  - (* div *)
    step_val H. step_val H. destruct (mz_div v v0) as [u| | |] eqn:Hu; try discriminate. cbn [bind] in H. step_val H. injection H as <-.
    unfold mz_div in Hu. destruct (first_leaf v0) as [d| | |] eqn:Hd; try discriminate. cbn [bind] in Hu.
    destruct (d =? 0)%Z eqn:Hz; [discriminate|]. injection Hu as <-.
    destruct (pointer_of _ _ _ _ R V) as (a&F&Ha&Hh).
    assert (Hb : exists b G, slots s k = Some b /\ holds (cells s) v0 b G /\ NoDup G).
    { destruct R as [Fp [r1 _ r3 _ _]]. destruct (r1 _ _ V0) as [b [H1 H2]]. exists b, (Fp k). auto. }
    destruct Hb as (b&G&Hb&Hk&HG). destruct (leaf_holds _ _ _ _ _ Hk HG Hd) as (n1&p&_&_&Hleaf&_).
    destruct (replace_represents _ _ _ _ _ _ R V1 (unary_holds (fun x => Z.quot x d) _ _ _ _ Hh)) as (n0&s'&Hr&Hs).
    exists (Nat.max n0 n1), s'. split; auto.
    intros n Hn. unfold call_step, data. rewrite Ha, Hb. cbn [bind]. rewrite Hleaf by lia. cbn [bind snd]. rewrite Hz.
    apply Hs; lia.
  - (* new list *)
    step_val H. destruct (now w j None i) eqn:E; [discriminate|]. injection H as <-.
    destruct (pointer_of _ _ _ _ R V) as (d&F&Hd&_).
    set (h := cells s ++ [Some (NZ 0)]).
    assert (Hc : nth_error h (length (cells s)) = Some (Some (NZ 0))).
    { unfold h. rewrite alloc_nth, Nat.eqb_refl. reflexivity. }
    destruct (freed_one _ _ _ Hc) as [f1 f2]. set (h1 := update h (length (cells s)) None) in *.
    assert (Hg : grows (cells s) h1 []) by (eapply grows_freed; [apply (grows_alloc (cells s) (NZ 0))|exact f2]).
    destruct (new_list_represents w (Mem h1 (slots s)) i j d v (unchanged_represents _ _ _ R Hg) V Hd E) as (h3&A&R3).
    exists 1, (set_data s h3 i (length h1)). split; [exact R3|].
    intros n Hn. destruct n; [lia|]. unfold call_step, data. rewrite Hd. cbn [bind alloc]. fold h.
    cbn [multiz_free]. rewrite (read_live _ _ _ Hc). cbn [bind]. rewrite f1. cbn [bind]. cbn [cells] in A. rewrite A. reflexivity.
  - (* append *)
    destruct (Nat.eqb_spec i j) as [->|Hij]; [discriminate|]. step_val H. step_val H.
    destruct v as [|ls]; [discriminate|]. injection H as <-.
    destruct (pointer_of _ _ _ _ R V) as (x&F&Hx&_). destruct (pointer_of _ _ _ _ R V0) as (d&G&Hd&_).
    destruct (append_represents _ _ _ _ _ _ _ _ R Hij V Hx V0 Hd) as (h&A&R').
    exists 0, (Mem h (slots s)). split; auto. intros n _. unfold call_step, data. rewrite Hx, Hd. cbn [bind]. rewrite A. reflexivity.
  - discriminate.
Qed.

Theorem multiz_memory_safe : forall l w w' s, represents w s -> vcalls w l = Ok w' ->
  exists n0 s', represents w' s' /\ forall n, n0 <= n -> calls n s l = Ok s'.
Proof.
  induction l as [|c l IH]; intros w w' s R H; cbn [vcalls] in H.
  - injection H as <-. exists 0, s. auto.
  - destruct (vstep w c) as [w1| | |] eqn:E; try discriminate. cbn [bind] in H.
    destruct (step_represents _ _ _ _ E R) as (n1&s1&R1&S1).
    destruct (IH _ _ _ R1 H) as (n2&s2&R2&S2). exists (Nat.max n1 n2), s2. split; auto.
    intros n Hn. cbn [calls]. rewrite S1 by lia. apply S2; lia.
Qed.
Lemma empty_represents : represents (fun _ => None) empty_mem.
Proof.
  exists (fun _ => []). split; simpl; try discriminate; auto.
  - intros. constructor.
  - intros i j k [].
  - intros k [c H]. destruct k; discriminate.
Qed.
Lemma nothing_leaked l w : vcalls (fun _ => None) l = Ok w -> (forall i, w i = None) ->
  exists n0 s, (forall k, ~ allocated (cells s) k) /\ forall n, n0 <= n -> calls n empty_mem l = Ok s.
Proof.
  intros H Hw. destruct (multiz_memory_safe l _ w _ empty_represents H) as (n0&s&[Fp [r1 r2 r3 r4 r5]]&Hs).
  exists n0, s. split; auto. intros k Hk. destruct (r5 k Hk) as [i Hi]. rewrite r2 in Hi by auto. destruct Hi.
Qed.

(** ** What goes wrong when an element in a list is used on its own *)
Lemma both_cleared n : 2 <= n -> calls n empty_mem [CInit 0; CNewList 1 0; CClear 0; CClear 1] = UB.
Proof. intros H. destruct n as [|[|n]]; try lia. reflexivity. Qed.
Lemma member_set n : 2 <= n -> calls n empty_mem [CInit 0; CNewList 1 0; CSetZ 0 5; CAdd 1 1 1] = UB.
Proof. intros H. destruct n as [|[|n]]; try lia. reflexivity. Qed.
Lemma item_cleared n : 2 <= n -> calls n empty_mem [CInit 0; CNewList 1 0; CItem 2 1 0; CClear 2; CClear 1] = UB.
Proof. intros H. destruct n as [|[|n]]; try lia. reflexivity. Qed.
Lemma appended_to_itself n : 3 <= n -> calls n empty_mem [CInit 0; CNewList 1 0; CAppend 1 1; CClear 1] = UB.
Proof. intros H. destruct n as [|[|[|n]]]; try lia. reflexivity. Qed.
