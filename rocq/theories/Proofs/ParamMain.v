(** Accepted and refused parameter files; the round trip. *)
From Coq Require Import ZArith List Bool Lia String Ascii.
From Verif.Base Require Import Outcome Array.
From Verif.Model Require Import Memory Darray Symtab Param.
From Verif.Spec Require Import ParamText.
From Verif.Proofs Require Import DarrayFacts ParamFacts.
Import ListNotations.
Open Scope Z_scope.

Definition code (T : family) : ptype :=
  match T with A => TA | A1 => TA1 | D => TD | E => TE | F => TF | G => TG | I => TI end.
Definition kind_of (int : bool) : kind := if int then Int else Mpz.

(** all the members of a structure *)
Definition members (T : family) (k : Z) : list member :=
  in_members (code T) ++ match T with D => coeffs (Z.to_nat (Z.quot k 2)) | _ => [] end.

Lemma coeffs_in : forall d key kd, In (key, kd) (coeffs d) <-> kd = Mpz /\ exists i t, 0 <= i < Z.of_nat d /\ is_decimal i t /\ key = chars "coeff" ++ t.
Proof.
  intros d key kd. unfold coeffs. rewrite in_map_iff. split.
  - intros (i & E & H). apply in_seq in H. injection E as <- <-. split; auto. exists (Z.of_nat i), (mpz_out_str (Z.of_nat i)).
    split; [lia|]. split; [apply out_decimal|reflexivity].
  - intros [-> (i & t & B & Ht & ->)]. exists (Z.to_nat i). split; [|apply in_seq; lia].
    unfold coeff_key. rewrite Z2Nat.id by lia. rewrite (decimal_text_unique i t (mpz_out_str i) Ht (out_decimal i)). reflexivity.
Qed.

Lemma plain_in : forall T key int, (exists s, In (s, int) (plain_keys T) /\ key = chars s) <->
  In (key, kind_of int) (map (fun x => (chars (fst x), kind_of (snd x))) (plain_keys T)).
Proof.
  intros T key int. rewrite in_map_iff. split.
  - intros (s & H & ->). exists (s, int). auto.
  - intros ([s i] & E & H). cbn [fst snd] in E. injection E as <- E2. exists s. split; auto.
    destruct i, int; try discriminate; auto.
Qed.

(** the plain members in the order they are looked up *)
Lemma has_key_member : forall T k key int, has_key T k key int <-> In (key, kind_of int) (members T k).
Proof.
  intros T k key int. unfold has_key. rewrite plain_in.
  assert (forall d, (int = false /\ (exists i t, 0 <= i < Z.of_nat d /\ is_decimal i t /\ key = chars "coeff" ++ t)) <-> In (key, kind_of int) (coeffs d)) as C.
  { intros d. rewrite coeffs_in. destruct int; cbn [kind_of]; intuition discriminate. }
  assert (forall n, n <= 0 -> ~ (int = false /\ exists i t, 0 <= i < n /\ is_decimal i t /\ key = chars "coeff" ++ t)) as Z0.
  { intros n Hn (_ & i & t & B & _). lia. }
  unfold members. destruct T; unfold coeff_count.
  - rewrite app_nil_r. specialize (Z0 0 ltac:(lia)). split; [intros [H|H]|intros H; left]; try tauto; revert H; cbn; tauto.
  - rewrite app_nil_r. specialize (Z0 0 ltac:(lia)). split; [intros [H|H]|intros H; left]; try tauto; revert H; cbn; tauto.
  - rewrite in_app_iff, <- C. change (map (fun x => (chars (fst x), kind_of (snd x))) (plain_keys D)) with (in_members (code D)).
    destruct (Z_le_dec 0 (Z.quot k 2)) as [P|N].
    + rewrite Z2Nat.id by exact P. reflexivity.
    + specialize (Z0 (Z.quot k 2) ltac:(lia)). replace (Z.to_nat (Z.quot k 2)) with 0%nat by lia. cbn [Z.of_nat].
      split; [intros [H|H]|intros [H|H]]; auto; try tauto. exfalso. destruct H as (_ & i & t & B & _). lia.
  - rewrite app_nil_r. specialize (Z0 0 ltac:(lia)). split; [intros [H|H]|intros H; left]; try tauto; revert H; cbn; tauto.
  - rewrite app_nil_r. specialize (Z0 0 ltac:(lia)). split; [intros [H|H]|intros H; left]; try tauto; revert H; cbn; tauto.
  - rewrite app_nil_r. cbn [code in_members]. rewrite in_app_iff, <- (C 5%nat). reflexivity.
  - rewrite app_nil_r. specialize (Z0 0 ltac:(lia)). split; [intros [H|H]|intros H; left]; try tauto; revert H; cbn; tauto.
Qed.

Lemma coeffs_nodup : forall d, NoDup (map fst (coeffs d)).
Proof.
  intros d. unfold coeffs. rewrite map_map. cbn [fst].
  assert (forall n s, NoDup (map coeff_key (seq s n))) as K; [|apply K].
  induction n as [|n IH]; intros s; [constructor|]. cbn [seq map]. constructor; [|apply IH].
  intros H. apply in_map_iff in H. destruct H as (i & E & Hi). apply in_seq in Hi. unfold coeff_key in E. apply app_inv_head in E.
  assert (Z.of_nat i = Z.of_nat s) by (apply (decimal_unique _ (mpz_out_str (Z.of_nat s))); [rewrite <- E|]; apply out_decimal). lia.
Qed.
Lemma coeffs_hd : forall d key, In key (map fst (coeffs d)) -> hd 0 key = 99.
Proof. intros d key H. apply in_map_iff in H. destruct H as ([k kd] & <- & H). apply coeffs_in in H. destruct H as (_ & i & t & _ & _ & ->). reflexivity. Qed.

Fixpoint nodupb (l : list (list Z)) : bool :=
  match l with [] => true | x :: l' => negb (existsb (key_eqb x) l') && nodupb l' end.
Lemma nodupb_ok : forall l, nodupb l = true -> NoDup l.
Proof.
  induction l as [|x l IH]; intros H; [constructor|]. cbn in H. apply andb_prop in H. destruct H as [H1 H2]. constructor; auto.
  intros I. apply negb_true_iff in H1. rewrite <- not_true_iff_false in H1. apply H1. apply existsb_exists. exists x. split; auto. apply key_eqb_spec. reflexivity.
Qed.
Lemma nodup_app : forall (a b : list (list Z)), NoDup a -> NoDup b -> (forall x, In x a -> ~ In x b) -> NoDup (a ++ b).
Proof.
  induction a as [|x a IH]; intros b Ha Hb H; auto. inversion Ha; subst. cbn [app]. constructor.
  - rewrite in_app_iff. intros [I|I]; auto. apply (H x); auto. left; auto.
  - apply IH; auto. intros y Hy. apply H. right; auto.
Qed.

Definition no_c (l : list member) : bool := forallb (fun x => negb (hd 0 (fst x) =? 99)) l.
Lemma no_c_ok : forall l key, no_c l = true -> In key (map fst l) -> hd 0 key <> 99.
Proof.
  intros l key H I. apply in_map_iff in I. destruct I as (x & <- & I). unfold no_c in H. rewrite forallb_forall in H. specialize (H x I).
  apply negb_true_iff in H. apply Z.eqb_neq in H. exact H.
Qed.

Lemma members_nodup : forall T k, NoDup (map fst (members T k)).
Proof.
  intros T k. unfold members. rewrite map_app.
  destruct T; try (rewrite app_nil_r; apply nodupb_ok; vm_compute; reflexivity).
  apply nodup_app; [apply nodupb_ok; vm_compute; reflexivity|apply coeffs_nodup|].
  intros x H1 H2. apply coeffs_hd in H2. revert H2. apply (no_c_ok (in_members TD)); [vm_compute; reflexivity|exact H1].
Qed.

Lemma find_type_name : forall T, find_type funtab (chars (family_name T)) = Some (code T).
Proof. destruct T; vm_compute; reflexivity. Qed.
Lemma find_type_none : forall s, (forall T, s <> chars (family_name T)) -> find_type funtab s = None.
Proof.
  intros s H. unfold funtab. cbn [find_type].
  assert (forall T n, n = chars (family_name T) -> key_eqb s n = false) as K.
  { intros T n ->. destruct (key_eqb s (chars (family_name T))) eqn:Q; auto. apply key_eqb_spec in Q. exfalso. apply (H T Q). }
  rewrite (K A), (K D), (K E), (K F), (K G), (K A1), (K I) by reflexivity. reflexivity.
Qed.

Lemma read_members_app : forall tab a b s, read_members tab (a ++ b) s = (s' <- read_members tab a s ;; read_members tab b s').
Proof.
  induction a as [|x a IH]; intros b s; [reflexivity|]. cbn [app read_members].
  destruct (read_member tab x s) as [s'| | |]; cbn [bind]; auto.
Qed.

Definition k_key := chars "k".

Section Tab.
Variables (tab : darray (list Z * list Z)) (m : list Z -> option (list Z)).
Hypothesis HT : table_is tab m.

Lemma accept : forall T k num,
  m (chars "type") = Some (chars (family_name T)) ->
  (forall key int, has_key T k key int -> exists w, m key = Some w /\ is_decimal (num key) w /\ (int = true -> int32 (num key))) ->
  (T = D -> num k_key = k /\ 0 <= k) ->
  exists v, param_set_tab tab = Ok {| ret := 0; ptyp := Some (code T); vals := v |} /\ forall key int, has_key T k key int -> v key = num key.
Proof.
  intros T k num Ht Hk HD.
  assert (forall x, In x (members T k) -> good m x (num (fst x))) as Gd.
  { intros [key kd] H. destruct (Hk key (match kd with Int => true | Mpz => false end)) as (w & W & Hd & R).
    { apply has_key_member. destruct kd; exact H. }
    split. { exists w. auto. } cbn [snd]. intros ->. apply R. reflexivity. }
  assert (Forall (fun x => exists n, good m x n) (members T k)) as FG.
  { apply Forall_forall. intros x H. exists (num (fst x)). auto. }
  destruct (read_members_good tab m HT (members T k) 0 (fun _ => 0) FG) as (v & E & V & _).
  exists v. split.
  - unfold param_set_tab. rewrite HT. cbn [bind]. change (txt "type") with (chars "type"). rewrite Ht, find_type_name.
    assert (param_init (code T) tab = Ok (0, v)) as ->; [|reflexivity].
    unfold members in E. rewrite read_members_app in E. unfold param_init.
    destruct T; cbn [code] in *; try (destruct (read_members tab _ _) as [s| | |]; cbn [bind read_members] in *; congruence).
    destruct (HD eq_refl) as [Ek Pk].
    assert (Forall (fun x => exists n, good m x n) (in_members TD)) as FD.
    { apply Forall_app in FG. exact (proj1 FG). }
    destruct (read_members_good tab m HT (in_members TD) 0 (fun _ => 0) FD) as (v1 & E1 & V1 & _).
    unfold values in *. rewrite E1 in E. rewrite E1. cbn [bind snd] in E |- *.
    change (txt "k") with (fst (mi "k")). rewrite (V1 (mi "k") k).
    + destruct (Z.ltb_spec (Z.quot k 2) 0) as [L|L]; [|exact E]. pose proof (Z.quot_pos k 2 Pk ltac:(lia)). lia.
    + cbn. tauto.
    + rewrite <- Ek. apply (Gd (mi "k")). unfold members. apply in_or_app. left. cbn. tauto.
    + pose proof (members_nodup D 0) as N. unfold members in N. cbn [code] in N. change (coeffs (Z.to_nat (Z.quot 0 2))) with (@nil member) in N. rewrite app_nil_r in N. exact N.
  - intros key int H. apply has_key_member in H. apply (V (key, kind_of int) (num key)); auto.
    + apply (Gd (key, kind_of int)). exact H.
    + apply members_nodup.
Qed.

Lemma total : (exists o, param_set_tab tab = Ok o) \/ param_set_tab tab = Die.
Proof.
  assert (forall r, param_set_tab tab = r -> (exists o, r = Ok o) \/ r = Die) as K; [|apply K; reflexivity].
  intros r Er. unfold param_set_tab in Er. rewrite HT in Er. cbn [bind] in Er.
  destruct (match m (txt "type") with Some s => find_type funtab s | None => None end) as [T|]; [|left; eauto].
  unfold param_init in Er. destruct (read_members_total tab m HT (in_members T) (0, fun _ => 0)) as (s & E & _).
  unfold values in *. rewrite E in Er. cbn [bind] in Er.
  destruct T; try (left; destruct s; eauto; fail).
  destruct (_ <? 0); [right; auto|].
  destruct (read_members_total tab m HT (coeffs (Z.to_nat (Z.quot (snd s (txt "k")) 2))) s) as ([e' v'] & E' & _).
  unfold values in *. rewrite E' in Er. left. eauto.
Qed.

Lemma unknown : (forall T, m (chars "type") <> Some (chars (family_name T))) ->
  exists o, param_set_tab tab = Ok o /\ ret o = 1.
Proof.
  intros H. unfold param_set_tab. rewrite HT. cbn [bind]. change (txt "type") with (chars "type").
  destruct (m (chars "type")) as [s|]; [|eexists; split; reflexivity].
  rewrite find_type_none by (intros T ->; apply (H T); reflexivity). eexists; split; reflexivity.
Qed.

Lemma missing : forall T k key int,
  m (chars "type") = Some (chars (family_name T)) -> has_key T k key int -> m key = None ->
  (T = D -> forall w, m k_key = Some w -> is_decimal k w /\ int32 k) ->
  (exists o, param_set_tab tab = Ok o /\ 0 < ret o) \/ (T = D /\ k < -1 /\ param_set_tab tab = Die).
Proof.
  intros T k key int Ht Hk Hm HD. apply has_key_member in Hk.
  assert (forall r, param_set_tab tab = r -> (exists o, r = Ok o /\ 0 < ret o) \/ (T = D /\ k < -1 /\ r = Die)) as K; [|apply K; reflexivity].
  unfold param_set_tab. rewrite HT. cbn [bind]. change (txt "type") with (chars "type"). rewrite Ht, find_type_name.
  unfold param_init. unfold members in Hk.
  destruct (read_members_total tab m HT (in_members (code T)) (0, fun _ => 0)) as (s & E & L & P). unfold values in *. rewrite E. cbn [bind]. intros r <-.
  destruct T; try (left; destruct s as [e v]; cbn [code fst bind] in *; eexists; split; [reflexivity|]; apply P; exists (key, kind_of int);
    split; [apply in_app_or in Hk; destruct Hk as [Hk|[]]; exact Hk|exact Hm]).
  cbn [code] in *. destruct (m k_key) as [w|] eqn:Ek.
  - destruct (HD eq_refl w eq_refl) as [Dk Rk].
    assert (snd s k_key = k) as Vk.
    { clear P L. unfold in_members in E.
      change ([mz "q"; mz "n"; mz "h"; mz "r"; mz "a"; mz "b"; mi "k"; mz "nk"; mz "hk"; mz "nqr"])
        with ([mz "q"; mz "n"; mz "h"; mz "r"; mz "a"; mz "b"] ++ mi "k" :: [mz "nk"; mz "hk"; mz "nqr"]) in E.
      rewrite read_members_app in E.
      destruct (read_members_total tab m HT [mz "q"; mz "n"; mz "h"; mz "r"; mz "a"; mz "b"] (0, fun _ => 0)) as (s1 & E1 & _).
      unfold values in *. rewrite E1 in E. cbn [bind] in E. set (l := [mz "nk"; mz "hk"; mz "nqr"]) in E. cbn [read_members] in E. unfold read_member in E. destruct s1 as [e1 v1].
      change (fst (mi "k")) with k_key in E. rewrite HT in E. cbn [bind] in E. rewrite Ek in E. cbn [bind] in E. rewrite (set_str_decimal k w Dk) in E.
      change (snd (mi "k")) with Int in E. cbn beta iota in E. rewrite to_int_small in E by exact Rk.
      assert (forall ms e v, (forall x, In x ms -> fst x <> k_key) -> forall s', read_members tab ms (e, v) = Ok s' -> snd s' k_key = v k_key) as KK.
      { clear -HT. induction ms as [|x ms IH]; intros e v H s' E. { injection E as <-. reflexivity. }
        cbn [read_members] in E. unfold read_member in E. rewrite HT in E. cbn [bind] in E. destruct (m (fst x)); cbn [bind] in E.
        - apply IH in E; [|intros y Hy; apply H; right; auto]. rewrite E. destruct (key_eqb k_key (fst x)) eqn:Q; auto.
          apply key_eqb_spec in Q. exfalso. apply (H x); [left; auto|congruence].
        - apply IH in E; [exact E|]. intros y Hy; apply H; right; auto. }
      apply KK in E. { etransitivity; [exact E|reflexivity]. } intros x Hx. cbn [In] in Hx. repeat (destruct Hx as [<-|Hx]; [vm_compute; discriminate|]). destruct Hx. }
    change (txt "k") with k_key. unfold values in *. rewrite Vk. destruct (Z.ltb_spec (Z.quot k 2) 0) as [N|N].
    + right. split; auto. split; [|reflexivity]. destruct (Z_lt_le_dec k (-1)); auto. exfalso.
      destruct (Z.eq_dec k (-1)) as [->|]; [cbn in N; lia|]. pose proof (Z.quot_pos k 2 ltac:(lia) ltac:(lia)). lia.
    + left. destruct (read_members_total tab m HT (coeffs (Z.to_nat (Z.quot k 2))) s) as ([e' v'] & E' & L' & P'). unfold values in *. rewrite E'. eexists. split; [reflexivity|].
      cbn [ret fst] in *. apply in_app_or in Hk. destruct Hk as [Hk|Hk].
      * assert (0 < fst s) by (apply P; exists (key, kind_of int); auto). lia.
      * assert (fst s < e') by (apply P'; exists (key, kind_of int); auto). lia.
  - assert (0 < fst s) as P0. { apply P. exists (mi "k"). split; [cbn; tauto|exact Ek]. }
    destruct (Z.ltb_spec (Z.quot (snd s (txt "k")) 2) 0) as [N|N].
    + exfalso. clear P P0 L. assert (forall ms e v, m k_key = None -> forall s', read_members tab ms (e, v) = Ok s' -> snd s' k_key = v k_key) as KK.
      { clear -HT. induction ms as [|x ms IH]; intros e v H s' E. { injection E as <-. reflexivity. }
        cbn [read_members] in E. unfold read_member in E. rewrite HT in E. cbn [bind] in E. destruct (m (fst x)) eqn:Q0; cbn [bind] in E.
        - apply IH in E; auto. rewrite E. destruct (key_eqb k_key (fst x)) eqn:Q; auto.
          apply key_eqb_spec in Q. congruence.
        - apply IH in E; auto. }
      apply KK in E; auto. change (txt "k") with k_key in N. unfold values in *. rewrite E in N. cbn in N. lia.
    + left. destruct (read_members_total tab m HT (coeffs (Z.to_nat (Z.quot (snd s (txt "k")) 2))) s) as ([e' v'] & E' & L' & P'). unfold values in *. rewrite E'. eexists. split; [reflexivity|].
      cbn [ret fst] in *. lia.
Qed.
End Tab.

(** * Printing *)
Definition sp := [Space 32].
Definition nl := [Space 10].
Definition printed (T : ptype) (v : values) (ms : list member) : file :=
  {| lead := [];
     body := (chars "type", sp) :: (type_name T, nl) :: flat_map (fun x => [(fst x, sp); (mpz_out_str (v (fst x)), nl)]) ms;
     last_comment := None |}.

Lemma printed_text : forall T v ms,
  file_text (printed T v ms) = txt "type " ++ type_name T ++ [10] ++ flat_map (out_member v) ms.
Proof.
  intros T v ms. unfold file_text, printed. cbn [lead body last_comment comment_text layout flat_map fst snd app]. rewrite app_nil_r.
  assert (flat_map (fun wp => fst wp ++ layout (snd wp)) (flat_map (fun x : member => [(fst x, sp); (mpz_out_str (v (fst x)), nl)]) ms) = flat_map (out_member v) ms) as Q.
  { induction ms as [|x ms IH]; [reflexivity|]. cbn [flat_map app fst snd]. rewrite IH. unfold out_member, sp, nl, layout. cbn [flat_map piece_text app].
    rewrite <- !app_assoc. cbn [app]. rewrite <- !app_assoc. reflexivity. }
  unfold member in *. rewrite Q.
  change (txt "type ") with (chars "type" ++ [32]). unfold sp, nl. cbn [flat_map piece_text app]. rewrite <- !app_assoc. reflexivity.
Qed.

Lemma printed_pairs : forall T v ms,
  pairs (words (printed T v ms)) = (chars "type", type_name T) :: map (fun x => (fst x, mpz_out_str (v (fst x)))) ms.
Proof.
  intros T v ms. unfold words, printed. cbn [body map fst]. cbn [pairs]. f_equal.
  induction ms as [|x ms IH]; [reflexivity|]. cbn [flat_map app map fst pairs]. rewrite IH. reflexivity.
Qed.

Lemma value_for_members : forall v ms key, value_for (map (fun x : member => (fst x, mpz_out_str (v (fst x)))) ms) key =
  if in_dec (list_eq_dec Z.eq_dec) key (map fst ms) then Some (mpz_out_str (v key)) else None.
Proof.
  intros v ms key. induction ms as [|x ms IH]; [reflexivity|]. cbn [map value_for fst]. rewrite IH.
  destruct (in_dec _ key (map fst ms)) as [I|I], (in_dec _ key (fst x :: map fst ms)) as [J|J]; auto.
  - exfalso. apply J. right; auto.
  - destruct (list_eq_dec Z.eq_dec key (fst x)) as [->|N]; auto. exfalso. destruct J as [J|J]; auto.
  - destruct (list_eq_dec Z.eq_dec key (fst x)) as [->|N]; auto. exfalso. apply J. left; auto.
Qed.

Definition wordb (w : list Z) : bool :=
  match w with [] => false | c :: _ => negb (c =? 35) && forallb (fun c => negb (c =? 0) && negb (delimiter c)) w end.
Lemma wordb_ok : forall w, wordb w = true -> word_ok w.
Proof.
  intros [|c w] H; [discriminate|]. unfold wordb in H. apply andb_prop in H. destruct H as [H1 H2].
  apply negb_true_iff, Z.eqb_neq in H1. split; [discriminate|]. split; [exact H1|].
  apply Forall_forall. intros x Hx. rewrite forallb_forall in H2. specialize (H2 x Hx). apply andb_prop in H2. destruct H2 as [A B].
  apply negb_true_iff, Z.eqb_neq in A. apply negb_true_iff in B. split; auto. unfold delimiter in B.
  apply orb_false_iff in B. destruct B as [B B3]. apply orb_false_iff in B. destruct B as [B B2]. apply orb_false_iff in B. destruct B as [B B1].
  split. { intros W. apply white_blank in W. congruence. }
  cbn [In]. apply Z.eqb_neq in B1, B2, B3. intuition.
Qed.
Lemma coeff_word : forall d key, In key (map fst (coeffs d)) -> word_ok key.
Proof.
  intros d key H. apply in_map_iff in H. destruct H as ([k kd] & <- & H). apply coeffs_in in H. destruct H as (_ & i & t & _ & Ht & ->). cbn [fst].
  destruct (decimal_word i t Ht) as (_ & _ & W). destruct (wordb_ok (chars "coeff") eq_refl) as (_ & _ & W').
  split; [discriminate|]. split; [cbn; lia|]. apply Forall_app. auto.
Qed.
Lemma printed_ok : forall T v ms, Forall (fun x => word_ok (fst x)) ms -> file_ok (printed T v ms).
Proof.
  assert (Forall piece_ok sp /\ Forall piece_ok nl) as [Hs Hn].
  { split; (constructor; [|constructor]); cbn; unfold white; cbn; tauto. }
  intros T v ms H. split; [constructor|]. split; [|exact Logic.I]. cbn [printed body last_comment].
  split; [apply wordb_ok; reflexivity|]. split; [exact Hs|]. split; [left; eexists; eexists; reflexivity|].
  split; [destruct T; apply wordb_ok; reflexivity|]. split; [exact Hn|]. split; [left; eexists; eexists; reflexivity|].
  induction H as [|x ms Hx _ IH]; [exact Logic.I|]. cbn [flat_map app].
  split; [exact Hx|]. split; [exact Hs|]. split; [left; eexists; eexists; reflexivity|].
  split; [eapply decimal_word, out_decimal|]. split; [exact Hn|]. split; [left; eexists; eexists; reflexivity|]. exact IH.
Qed.

(** what is printed: the same members, possibly in another order *)
Lemma out_members_ok : forall T v, (T = D -> 0 <= v k_key < 202) ->
  exists ms, out_members (code T) v = Ok ms /\ (forall x, In x ms <-> In x (members T (v k_key))) /\
             Forall (fun x => word_ok (fst x)) ms /\ ~ In (chars "type") (map fst ms).
Proof.
  intros T v H.
  assert (forall l, forallb (fun x : member => wordb (fst x)) l = true -> Forall (fun x => word_ok (fst x)) l) as W.
  { intros l Hl. apply Forall_forall. intros x Hx. rewrite forallb_forall in Hl. apply wordb_ok, Hl, Hx. }
  assert (forall (l : list (list Z)), existsb (key_eqb (chars "type")) l = false -> ~ In (chars "type") l) as NT.
  { intros l Hl I. rewrite <- not_true_iff_false in Hl. apply Hl. apply existsb_exists. eexists. split; [exact I|]. apply key_eqb_spec. reflexivity. }
  unfold members.
  destruct T; try (eexists; split; [reflexivity|]; rewrite app_nil_r; split; [|split; [apply W; vm_compute; reflexivity|apply NT; vm_compute; reflexivity]];
    intros x; cbn; tauto).
  cbn [code out_members]. change (txt "k") with k_key. set (k := v k_key) in *. specialize (H eq_refl).
  assert (Z.to_nat (Z.quot k 2) <= 100)%nat as B.
  { rewrite Z.quot_div_nonneg by lia. assert (k / 2 < 101) by (apply Z.div_lt_upper_bound; lia). lia. }
  destruct (Nat.ltb_spec 100 (Z.to_nat (Z.quot k 2))); [lia|]. eexists. split; [reflexivity|]. set (cs := coeffs _). split; [|split].
  - intros x. rewrite !in_app_iff. cbn [In in_members]. tauto.
  - apply Forall_app. split; [apply W; vm_compute; reflexivity|]. apply Forall_app. split; [|apply W; vm_compute; reflexivity].
    apply Forall_forall. intros x Hx. apply (coeff_word (Z.to_nat (Z.quot k 2))). apply in_map. exact Hx.
  - rewrite !map_app, !in_app_iff. intros [I|[I|I]].
    + revert I. apply NT. vm_compute. reflexivity.
    + apply coeffs_hd in I. vm_compute in I. discriminate.
    + revert I. apply NT. vm_compute. reflexivity.
Qed.

(** * Statements *)
Section Final.
Variables (bl : build) (junk : nat -> list (list Z * list Z)).
Hypothesis Hj : forall n, List.length (junk n) = n.
Local Notation parse s := (param_init_set_str bl junk s).
Local Notation parse_buf s n := (param_init_set_buf bl junk s n).

Lemma accepts : forall f t T k num, file_ok f ->
  value_for (pairs (words f)) (chars "type") = Some (chars (family_name T)) ->
  (forall key int, has_key T k key int -> exists w, value_for (pairs (words f)) key = Some w /\ is_decimal (num key) w /\ (int = true -> int32 (num key))) ->
  (T = D -> num (chars "k") = k /\ 0 <= k) ->
  exists v, parse (file_text f ++ 0 :: t) = Ok {| ret := 0; ptyp := Some (code T); vals := v |} /\ forall key int, has_key T k key int -> v key = num key.
Proof.
  intros f t T k num Hf Ht Hk HD. destruct (parse_file bl junk Hj f t Hf) as (tab & -> & HT).
  apply (accept tab _ HT T k num Ht Hk HD).
Qed.

Lemma refuses_missing : forall f t T k key int, file_ok f ->
  value_for (pairs (words f)) (chars "type") = Some (chars (family_name T)) ->
  has_key T k key int -> value_for (pairs (words f)) key = None ->
  (T = D -> forall w, value_for (pairs (words f)) (chars "k") = Some w -> is_decimal k w /\ int32 k) ->
  (exists o, parse (file_text f ++ 0 :: t) = Ok o /\ 0 < ret o) \/ (T = D /\ k < -1 /\ parse (file_text f ++ 0 :: t) = Die).
Proof.
  intros f t T k key int Hf Ht Hk Hm HD. destruct (parse_file bl junk Hj f t Hf) as (tab & -> & HT).
  apply (missing tab _ HT T k key int Ht Hk Hm HD).
Qed.

Lemma refuses_unknown : forall f t, file_ok f ->
  (forall T, value_for (pairs (words f)) (chars "type") <> Some (chars (family_name T))) ->
  exists o, parse (file_text f ++ 0 :: t) = Ok o /\ ret o = 1.
Proof. intros f t Hf H. destruct (parse_file bl junk Hj f t Hf) as (tab & -> & HT). apply (unknown tab _ HT H). Qed.

Lemma round_trip : forall T v t,
  (forall key, has_key T (v (chars "k")) key true -> int32 (v key)) ->
  (T = D -> 0 <= v (chars "k") < 202) ->
  exists text v', param_out_str (code T) v = Ok text /\
    parse (text ++ 0 :: t) = Ok {| ret := 0; ptyp := Some (code T); vals := v' |} /\
    parse_buf (text ++ t) (List.length text) = Ok {| ret := 0; ptyp := Some (code T); vals := v' |} /\
    forall key int, has_key T (v (chars "k")) key int -> v' key = v key.
Proof.
  intros T v t Hi HD. destruct (out_members_ok T v HD) as (ms & E & Hm & Hw & Ht).
  exists (file_text (printed (code T) v ms)).
  assert (forall tab, table_is tab (value_for (pairs (words (printed (code T) v ms)))) ->
    exists v', param_set_tab tab = Ok {| ret := 0; ptyp := Some (code T); vals := v' |} /\ forall key int, has_key T (v (chars "k")) key int -> v' key = v key) as K.
  { intros tab HT. apply (accept tab _ HT T (v (chars "k")) v).
    - rewrite printed_pairs. cbn [value_for]. rewrite value_for_members.
      destruct (in_dec _ (chars "type") (map fst ms)) as [Q|Q]; [contradiction|].
      destruct (list_eq_dec Z.eq_dec (chars "type") (chars "type")) as [|N]; [|congruence]. destruct T; reflexivity.
    - intros key int Hk. exists (mpz_out_str (v key)). split; [|split; [apply out_decimal|intros ->; apply Hi, Hk]].
      rewrite printed_pairs. cbn [value_for]. rewrite value_for_members.
      destruct (in_dec _ key (map fst ms)) as [Q|Q]; auto. exfalso. apply Q. apply has_key_member in Hk. apply Hm in Hk.
      apply (in_map fst) in Hk. exact Hk.
    - intros ->. split; [reflexivity|]. apply HD. reflexivity. }
  destruct (parse_file bl junk Hj (printed (code T) v ms) t (printed_ok _ _ _ Hw)) as (t1 & E1 & T1).
  assert (file_text (printed (code T) v ms) <> []) as NE by (rewrite printed_text; discriminate).
  destruct (parse_file_buf bl junk Hj (printed (code T) v ms) t (printed_ok _ _ _ Hw) NE) as (t2 & E2 & T2).
  destruct (K t1 T1) as (v' & E' & V). exists v'. split.
  - unfold param_out_str. rewrite E. cbn [bind]. rewrite printed_text. reflexivity.
  - rewrite E1, E2. split; [exact E'|]. split; [|exact V].
    rewrite (set_tab_ext t2 t1); [exact E'|]. intros k. rewrite T1, T2. reflexivity.
Qed.

Lemma buffer_total : forall s n, (0 < n <= List.length s)%nat -> (exists o, parse_buf s n = Ok o) \/ parse_buf s n = Die.
Proof. intros s n H. destruct (parse_buffer bl junk Hj s n H) as (tab & -> & HT). apply (total tab _ HT). Qed.
Lemma string_total : forall s t, (exists o, parse (s ++ 0 :: t) = Ok o) \/ parse (s ++ 0 :: t) = Die.
Proof. intros s t. destruct (parse_string bl junk Hj s t) as (tab & -> & HT). apply (total tab _ HT). Qed.
End Final.

Lemma layout_order : forall bl1 bl2 junk1 junk2, (forall n, List.length (junk1 n) = n) -> (forall n, List.length (junk2 n) = n) ->
  forall f1 f2 t1 t2, file_ok f1 -> file_ok f2 ->
  (forall k, value_for (pairs (words f1)) k = value_for (pairs (words f2)) k) ->
  param_init_set_str bl1 junk1 (file_text f1 ++ 0 :: t1) = param_init_set_str bl2 junk2 (file_text f2 ++ 0 :: t2).
Proof.
  intros bl1 bl2 j1 j2 H1 H2 f1 f2 t1 t2 F1 F2 E.
  destruct (parse_file bl1 j1 H1 f1 t1 F1) as (a & -> & T1). destruct (parse_file bl2 j2 H2 f2 t2 F2) as (b & -> & T2).
  apply set_tab_ext. intros k. rewrite T1, T2, E. reflexivity.
Qed.
Lemma buffer_like_string : forall bl1 bl2 junk1 junk2, (forall n, List.length (junk1 n) = n) -> (forall n, List.length (junk2 n) = n) ->
  forall s n t, (0 < n <= List.length s)%nat ->
  param_init_set_buf bl1 junk1 s n = param_init_set_str bl2 junk2 (firstn n s ++ 0 :: t).
Proof.
  intros bl1 bl2 j1 j2 H1 H2 s n t H.
  destruct (parse_buffer bl1 j1 H1 s n H) as (a & -> & T1). destruct (parse_string bl2 j2 H2 (firstn n s) t) as (b & -> & T2).
  apply set_tab_ext. intros k. rewrite T1, T2. reflexivity.
Qed.
Lemma buffer_prefix : forall bl junk, (forall n, List.length (junk n) = n) -> forall s n, (0 < n <= List.length s)%nat ->
  param_init_set_buf bl junk s n = param_init_set_buf bl junk (firstn n s) n.
Proof.
  intros bl junk Hj s n H. rewrite (buffer_like_string bl bl junk junk Hj Hj s n [] H).
  rewrite (buffer_like_string bl bl junk junk Hj Hj (firstn n s) n []).
  - rewrite firstn_firstn, Nat.min_id. reflexivity.
  - rewrite firstn_length. lia.
Qed.
