(** Storage of the tables of pairing_pp_init and element_pp_init, and of parameters. *)
From Coq Require Import List ZArith Bool Arith Lia.
From Verif.Base Require Import Outcome Gmp.
From Verif.Spec Require Import PairingValueD Storage.
From Verif.Model Require Import Mnt Miller PairingD Storage.
From Verif.Proofs Require Import PairingDFacts StorageFacts StoragePairing.
Import ListNotations.
Local Open Scope nat_scope.

Lemma I_ext : forall M m m' B, (forall h, m' h = m h) -> Inits M m B -> Inits M m' B.
Proof. intros M m m' B E H h Hh. destruct (H h Hh) as (h' & Eh & C). exists h'; split; [rewrite E; exact Eh|exact C]. Qed.
Lemma I_temps : forall M N m k c t t' B, Inits M m t -> Inits M k B -> Clears N c t' -> same t t' -> incl N M -> Inits M (m >> k >> c) B.
Proof.
  intros M N m k c t t' B Hm Hk Hc S I. apply (I_temp M N m k t B c Hm Hk); [|exact I].
  eapply C_same; [exact Hc|]. intros q; symmetry; apply S.
Qed.
Lemma assoc : forall a b c h, (a >> b >> c) h = ((a >> b) >> c) h.
Proof. intros a b c h. unfold andthen. destruct (a h); reflexivity. Qed.
Lemma cat_add : forall a b E, cat (a + b) E = cat a E ++ cat b (fun i => E (a + i)).
Proof.
  intros a b E. induction b as [|b IH]; [rewrite Nat.add_0_r; simpl; rewrite app_nil_r; reflexivity|].
  replace (a + S b) with (S (a + b)) by lia. simpl. rewrite IH, app_assoc. reflexivity.
Qed.

Ltac smp := let q := fresh "q" in intros q; repeat rewrite ?count_app, ?count_cons, ?count_nil; unfold path in *; lia.

(** ** Parameters *)
Definition param_cells (p : pinfo) (K : path) : list path :=
  [0 :: K] ++ cat (mpz_count p) (fun i => [S i :: K]) ++ match coeff_count p with Some d => [20 :: K] ++ cat d (fun i => [21 + i :: K]) | None => [] end.
Lemma param_init_ok : forall p K, Inits [] (param_init p K) (param_cells p K).
Proof.
  intros p K. unfold param_init, param_cells. apply I_seq; [apply I_alloc|]. apply I_seq.
  - apply I_upto. intros i _. apply I_alloc.
  - destruct (coeff_count p); [|apply I_skip]. apply I_seq; [apply I_alloc|]. apply (I_upto [] (fun i => alloc (21 + i :: K)) (fun i => [21 + i :: K])). intros i _. apply I_alloc.
Qed.
Lemma param_clear_ok : forall p K, Clears [] (param_clear p K) (param_cells p K).
Proof.
  intros p K. unfold param_clear, param_cells. eapply C_same.
  - apply (C_then [0 :: K]); [apply C_need| |].
    + apply C_seq; [apply C_upto; intros i _; apply (C_release [])|].
      apply (C_seq _ _ _ (match coeff_count p with Some d => cat d (fun i => [21 + i :: K]) ++ [20 :: K] | None => [] end)); [|apply C_release].
      destruct (coeff_count p); [|apply C_skip].
      apply C_seq; [|apply C_release]. apply (C_upto [] (fun i => release (21 + i :: K)) (fun i => [21 + i :: K])). intros i _. apply C_release.
    + intros q [<-|[]]. right. rewrite !in_app_iff. simpl. tauto.
  - destruct (coeff_count p); smp.
Qed.
Lemma text_ok : forall p P K, Inits [] (pairing_init_text p P K true) (pair_cells p P (init_nq p)).
Proof.
  intros p P K. unfold pairing_init_text. apply (I_temps [] [] _ _ _ (param_cells p K) (param_cells p K));
  [apply param_init_ok|apply pairing_init_ok|apply param_clear_ok|intros q; reflexivity|apply incl_refl].
Qed.

(** ** pairing_pp_init *)
Definition e3 (p : pinfo) (P K : path) (i : nat) : list path := flat_map pc [(Fq p P, 1 :: S i :: K); (Fq p P, 2 :: S i :: K); (Fq p P, 3 :: S i :: K)].
Definition ppn (p : pinfo) (P : path) : list path := [c_data P] ++ needs (Fq p P) ++ needs (Eq p P).
Definition pp_cells (p : pinfo) (P : path) (m : method) (K : path) : list path :=
  match ty p, m with
  | TA e1 e2, Miller => [0 :: K] ++ cat (e2 + 1) (e3 p P K)
  | TA _ _, Net | TA1, Net =>
      [0 :: K; 1 :: K] ++ flat_map pc [(Fq p P, 2 :: K); (Fq p P, 3 :: K)] ++ cat (rbits p) (fun i => flat_map pc (entry8 p P K i))
  | TD _, _ | TG, _ => [0 :: K] ++ cat (d_pp_clear_count (rr p)) (e3 p P K)
  | _, _ => []
  end.
Lemma fq_ppn : forall p P, incl (needs (Fq p P)) (ppn p P).
Proof. intros p P. unfold ppn. apply incl_appr, incl_appl, incl_refl. Qed.
Lemma eq_ppn : forall p P, incl (needs (Eq p P)) (ppn p P).
Proof. intros p P. unfold ppn. apply incl_appr, incl_appr, incl_refl. Qed.
Lemma inits_in : forall M l, (forall f e, In (f, e) l -> incl (needs f) M) -> Inits M (inits l) (flat_map pc l).
Proof.
  intros M l H. refine (I_weak _ _ _ _ (inits_ok l) _). intros q Hq. apply in_flat_map in Hq. destruct Hq as ([f e] & I & Q). apply (H f e I q Q).
Qed.
Lemma clears_in : forall M l, (forall f e, In (f, e) l -> incl (cneeds f) M) -> Clears M (clears l) (flat_map pc l).
Proof.
  intros M l H. refine (C_weak _ _ _ _ (clears_ok l) _). intros q Hq. apply in_flat_map in Hq. destruct Hq as ([f e] & I & Q). apply (H f e I q Q).
Qed.
Ltac inl := let f := fresh in let e := fresh in let H := fresh in
  intros f e H; repeat (destruct H as [H|H]; [inversion H; subst; try apply fq_ppn; try apply eq_ppn; try (eapply incl_tran; [apply cneeds_needs|]; (apply fq_ppn || apply eq_ppn))|]); destruct H.
Lemma entry3_ok : forall p P size K i, i < size -> Inits (ppn p P) (entry3 p P size K i) (e3 p P K i).
Proof. intros p P size K i H. unfold entry3. apply Nat.ltb_lt in H. rewrite H. apply inits_in. inl. Qed.
Lemma entry3_clear_ok : forall p P K i, Clears (ppn p P) (entry3_clear p P K i) (e3 p P K i).
Proof. intros p P K i. apply clears_in. inl. Qed.

Fixpoint steps (r : Z) (m : nat) : nat := match m with O => 1 | S m' => (if mpz_tstbit r (Z.of_nat m) then 2 else 1) + steps r m' end.
Lemma steps_nb : forall r m, steps r m = m + 1 + nb r m.
Proof. intros r. induction m as [|m IH]; [reflexivity|]. cbn [steps nb]. rewrite IH. destruct (mpz_tstbit r (Z.of_nat (S m))); lia. Qed.
Lemma d_loop_ok : forall p P size K m i, i + steps (rr p) m <= size ->
  Inits (ppn p P) (d_pp_loop p P size K i m) (cat (steps (rr p) m) (fun j => e3 p P K (i + j))).
Proof.
  intros p P size K. induction m as [|m IH]; intros i H; cbn [d_pp_loop steps] in *.
  - cbn [cat app]. rewrite Nat.add_0_r. eapply I_same; [apply I_seq; [apply entry3_ok; lia|apply I_skip]|sm].
  - destruct (mpz_tstbit (rr p) (Z.of_nat (S m))).
    + eapply I_same; [apply I_seq; [apply entry3_ok; lia|apply I_seq; [apply entry3_ok; lia|apply (IH (S (S i))); lia]]|].
      rewrite cat_add. cbn [cat app]. rewrite Nat.add_0_r. replace (i + 1) with (S i) by lia.
      assert (S : forall q, count q (cat (steps (rr p) m) (fun j => e3 p P K (S (S i) + j))) = count q (cat (steps (rr p) m) (fun j => e3 p P K (i + (2 + j))))).
      { intros q. apply cat_same. intros j _ q'. f_equal. f_equal. lia. }
      intros q. rewrite !count_app, S. lia.
    + eapply I_same; [apply I_seq; [apply entry3_ok; lia|apply (IH (S i)); lia]|].
      rewrite cat_add. cbn [cat app]. rewrite Nat.add_0_r.
      assert (S : forall q, count q (cat (steps (rr p) m) (fun j => e3 p P K (S i + j))) = count q (cat (steps (rr p) m) (fun j => e3 p P K (i + (1 + j))))).
      { intros q. apply cat_same. intros j _ q'. f_equal. f_equal. lia. }
      intros q. rewrite !count_app, S. lia.
Qed.

Lemma data_ppn : forall p P, In (c_data P) (ppn p P).
Proof. intros. left. reflexivity. Qed.
Lemma temps_in : forall p P (l : list (field * path)), (forall f e, In (f, e) l -> f = Fq p P \/ f = Eq p P) ->
  Inits (ppn p P) (inits l) (flat_map pc l) /\ Clears (ppn p P) (clears l) (flat_map pc l).
Proof.
  intros p P l H. split; [apply inits_in|apply clears_in]; intros f e I; destruct (H f e I) as [-> | ->];
  try apply fq_ppn; try apply eq_ppn; (eapply incl_tran; [apply cneeds_needs|]); (apply fq_ppn || apply eq_ppn).
Qed.
Ltac tin := let f := fresh in let e := fresh in let H := fresh in intros f e H; cbn in H; repeat (destruct H as [H|H]; [inversion H; subst; auto; fail|]); destruct H.
Lemma net_temps_in : forall p P f e, In (f, e) (net_temps p P) -> f = Fq p P \/ f = Eq p P.
Proof. intros p P f e H. unfold net_temps in H. apply in_map_iff in H. destruct H as (j & E & _). inversion E; auto. Qed.
Lemma d_temps_in : forall p P f e, In (f, e) (d_temps p P) -> f = Fq p P \/ f = Eq p P.
Proof. intros p P f e H. destruct H as [H|H]; [inversion H; auto|]. apply in_map_iff in H. destruct H as (j & E & _). inversion E; auto. Qed.
Lemma entry8_in : forall p P K i f e, In (f, e) (entry8 p P K i) -> f = Fq p P \/ f = Eq p P.
Proof. intros p P K i f e H. unfold entry8 in H. apply in_map_iff in H. destruct H as (j & E & _). inversion E; auto. Qed.

Lemma a_pp_ok : forall p P e1 e2 K, e1 <= e2 -> Inits (ppn p P) (a_pp_init p P e1 e2 K) ([0 :: K] ++ cat (e2 + 1) (e3 p P K)).
Proof.
  intros p P e1 e2 K H. unfold a_pp_init. apply I_nseq; [apply data_ppn|]. apply I_seq; [apply I_alloc|].
  set (T := [(Eq p P, la P); (Eq p P, lb P); (Fq p P, lc P); (Fq p P, 23 :: P); (Fq p P, 24 :: P); (Fq p P, 25 :: P)]).
  set (T' := [(Fq p P, lc P); (Fq p P, 23 :: P); (Fq p P, 24 :: P); (Fq p P, 25 :: P); (Eq p P, la P); (Eq p P, lb P)]).
  set (k := upto e1 (entry3 p P (e2 + 1) K) >> upto (e2 - e1) (fun i => entry3 p P (e2 + 1) K (e1 + i)) >> entry3 p P (e2 + 1) K (e1 + (e2 - e1))).
  apply (I_ext _ (inits T >> k >> clears T')).
  { intros h. unfold k, andthen. destruct (inits T h); [cbn|reflexivity|reflexivity|reflexivity].
    destruct (upto e1 (entry3 p P (e2 + 1) K) a); [cbn|reflexivity|reflexivity|reflexivity].
    destruct (upto (e2 - e1) (fun i : nat => entry3 p P (e2 + 1) K (e1 + i)) a0); reflexivity. }
  apply (I_temps _ (ppn p P) _ _ _ (flat_map pc T) (flat_map pc T')).
  - apply temps_in. unfold T. tin.
  - unfold k. eapply I_same.
    + apply I_seq; [apply (I_upto _ _ (e3 p P K)); intros i Hi; apply entry3_ok; lia|].
      apply I_seq; [apply (I_upto _ _ (fun i => e3 p P K (e1 + i))); intros i Hi; apply entry3_ok; lia|apply entry3_ok; lia].
    + replace (e2 + 1) with (e1 + (e2 - e1) + 1) by lia. rewrite !cat_add. cbn [cat app]. rewrite Nat.add_0_r. sm.
  - apply temps_in. unfold T'. tin.
  - unfold T, T'. intros q. cbn [flat_map]. unfold pc; cbn [fst snd]. repeat rewrite ?count_app, ?count_nil. lia.
  - apply incl_refl.
Qed.
Lemma a_pp_clear_ok : forall p P e2 K, Clears (ppn p P) (a_pp_clear p P e2 K) ([0 :: K] ++ cat (e2 + 1) (e3 p P K)).
Proof.
  intros p P e2 K. unfold a_pp_clear. apply C_nseq; [apply data_ppn|].
  eapply C_same; [apply C_seq; [apply (C_upto _ _ (e3 p P K)); intros i _; apply entry3_clear_ok|apply C_release]|sm].
Qed.
Lemma net_pp_ok : forall p P K, Inits (ppn p P) (net_pp_init p P K)
  ([0 :: K; 1 :: K] ++ flat_map pc [(Fq p P, 2 :: K); (Fq p P, 3 :: K)] ++ cat (rbits p) (fun i => flat_map pc (entry8 p P K i))).
Proof.
  intros p P K. unfold net_pp_init. eapply I_same.
  - apply I_seq; [apply I_alloc|]. apply I_seq; [apply I_alloc|]. apply I_seq; [apply temps_in; tin|].
    apply I_seq; [apply (I_upto _ _ (fun i => flat_map pc (entry8 p P K i))); intros i _; apply temps_in; intros f e; apply entry8_in|].
    apply (I_ext _ (inits (net_temps p P) >> skip >> clears (net_temps p P))); [intros h; unfold andthen; destruct (inits (net_temps p P) h); reflexivity|].
    apply (I_temps _ (ppn p P) _ _ _ (flat_map pc (net_temps p P)) (flat_map pc (net_temps p P)));
      [apply temps_in, net_temps_in|apply I_skip|apply temps_in, net_temps_in|intros q; reflexivity|apply incl_refl].
  - intros q. repeat rewrite ?count_app, ?count_cons, ?count_nil. lia.
Qed.
Lemma net_pp_clear_ok : forall p P K, Clears (ppn p P) (net_pp_clear p P K)
  ([0 :: K; 1 :: K] ++ flat_map pc [(Fq p P, 2 :: K); (Fq p P, 3 :: K)] ++ cat (rbits p) (fun i => flat_map pc (entry8 p P K i))).
Proof.
  intros p P K. unfold net_pp_clear. eapply C_same.
  - apply (C_then [0 :: K]); [apply C_need| |].
    + apply C_seq; [apply (C_upto _ _ (fun i => flat_map pc (entry8 p P K i))); intros i _; apply temps_in; intros f e; apply entry8_in|].
      apply C_seq; [apply temps_in; tin|]. apply C_seq; [apply C_release|apply C_release].
    + intros q [<-|[]]. right. rewrite !in_app_iff. simpl. tauto.
  - intros q. repeat rewrite ?count_app, ?count_cons, ?count_nil. lia.
Qed.
Lemma d_pp_ok : forall p P K, (3 <= rr p)%Z /\ Z.odd (rr p) = true /\ not_all_ones (rr p) ->
  Inits (ppn p P) (d_pp_init p P K) ([0 :: K] ++ cat (d_pp_clear_count (rr p)) (e3 p P K)).
Proof.
  intros p P K (R & O & A). unfold d_pp_init. apply I_nseq; [apply data_ppn|].
  set (k := alloc (0 :: K) >> d_pp_loop p P (2 * start_bit (rr p)) K 0 (start_bit (rr p))).
  apply (I_ext _ (inits (d_temps p P) >> k >> clears (d_temps p P))).
  { intros h. unfold k, andthen. destruct (inits (d_temps p P) h); reflexivity. }
  assert (R3 : (2 < rr p)%Z) by lia.
  apply (I_temps _ (ppn p P) _ _ _ (flat_map pc (d_temps p P)) (flat_map pc (d_temps p P)));
      [apply temps_in, d_temps_in| |apply temps_in, d_temps_in|intros q; reflexivity|apply incl_refl].
  unfold k. apply I_seq; [apply I_alloc|]. rewrite (clear_count (rr p) R3 O), <- steps_nb.
  apply (d_loop_ok p P _ K (start_bit (rr p)) 0). rewrite steps_nb.
  pose proof (nb_le (rr p) (start_bit (rr p))) as L. assert (N : nb (rr p) (start_bit (rr p)) <> start_bit (rr p)).
  { intros E. apply (all_ones (rr p) R3 O) in E. apply A, E. }
  lia.
Qed.
Lemma d_pp_clear_ok : forall p P K, Clears (ppn p P) (d_pp_clear p P K) ([0 :: K] ++ cat (d_pp_clear_count (rr p)) (e3 p P K)).
Proof.
  intros p P K. unfold d_pp_clear.
  eapply C_same; [apply C_seq; [apply (C_upto _ _ (e3 p P K)); intros i _; apply entry3_clear_ok|apply C_release]|sm].
Qed.
Lemma pp_init_ok : forall p P m K, table_ok p m -> Inits (ppn p P) (pp_init p P m K) (pp_cells p P m K).
Proof.
  intros p P m K. unfold table_ok, pp_init, pp_cells. destruct (ty p), m; intros T; try apply I_skip; try apply net_pp_ok; try (apply a_pp_ok; exact T); try (apply d_pp_ok; exact T).
  destruct T.
Qed.
Lemma pp_clear_ok : forall p P m K, table_ok p m -> Clears (ppn p P) (pp_clear p P m K) (pp_cells p P m K).
Proof.
  intros p P m K. unfold table_ok, pp_clear, pp_cells. destruct (ty p), m; intros T; try apply C_skip; try apply net_pp_clear_ok; try apply a_pp_clear_ok; try apply d_pp_clear_ok.
  destruct T.
Qed.

(** ** element_pp_init *)
Definition tab_cells (f : field) (bits : nat) (K : path) : list path :=
  [0 :: K; 1 :: K] ++ cat (lookups bits) (fun i => [0 :: 3 + i :: K] ++ cat 32 (fun j => cells f (S j :: 3 + i :: K))).
Local Opaque upto cat.
Lemma table_init_ok : forall f bits K, Inits (needs f) (table_init f bits K) (tab_cells f bits K).
Proof.
  intros f bits K. unfold table_init, tab_cells. eapply I_same.
  - apply I_seq; [apply I_alloc|]. apply I_seq; [apply I_alloc|].
    apply (I_temps _ (cneeds f) _ _ _ (cells f (2 :: K)) (cells f (2 :: K))); [apply elem_init_ok| |apply elem_clear_ok|intros q; reflexivity|apply cneeds_needs].
    apply (I_upto _ _ (fun i => [0 :: 3 + i :: K] ++ cat 32 (fun j => cells f (S j :: 3 + i :: K)))). intros i _.
    apply I_seq; [apply I_alloc|]. apply (I_upto (needs f) (fun j => elem_init f (S j :: 3 + i :: K)) (fun j => cells f (S j :: 3 + i :: K))). intros j _. apply elem_init_ok.
  - sm.
Qed.
Lemma table_clear_ok : forall f bits K, Clears (cneeds f) (table_clear f bits K) (tab_cells f bits K).
Proof.
  intros f bits K. unfold table_clear, tab_cells. eapply C_same.
  - apply (C_then [0 :: K]); [apply C_need| |].
    + apply C_seq; [|apply C_seq; apply C_release].
      apply (C_upto _ _ (fun i => cat 32 (fun j => cells f (S j :: 3 + i :: K)) ++ [0 :: 3 + i :: K])). intros i _.
      apply C_seq; [|apply C_release]. apply (C_upto (cneeds f) (fun j => elem_clear f (S j :: 3 + i :: K)) (fun j => cells f (S j :: 3 + i :: K))). intros j _. apply elem_clear_ok.
    + intros q [<-|[]]. right. rewrite !in_app_iff. simpl. tauto.
  - assert (S : same (cat (lookups bits) (fun i => cat 32 (fun j => cells f (S j :: 3 + i :: K)) ++ [0 :: 3 + i :: K]))
                     (cat (lookups bits) (fun i => [0 :: 3 + i :: K] ++ cat 32 (fun j => cells f (S j :: 3 + i :: K))))).
    { apply cat_same. intros i _. sm. }
    intros q. repeat rewrite ?count_app, ?count_cons, ?count_nil. rewrite S. lia.
Qed.
Definition epp_cells (f : field) (bits : nat) (K : path) : list path :=
  match f with MulG _ _ b => [0 :: K] ++ tab_cells b bits (1 :: K) | _ => tab_cells f bits K end.
Lemma home_needs : forall f, incl (hl (home_of f)) (needs f).
Proof. intros f. destruct f; cbn [needs home_of]; apply incl_appl, incl_refl. Qed.
Lemma epp_init_ok : forall f bits K, Inits (needs f) (element_pp_init f bits K) (epp_cells f bits K).
Proof.
  intros f bits K. unfold element_pp_init, epp_cells. apply (I_seq _ _ _ []); [apply I_touch', home_needs|].
  destruct f; try apply table_init_ok. apply I_seq; [apply I_alloc|]. refine (I_weak (needs f) _ _ _ _ (incl_appr _ (incl_refl _))).
  apply (I_seq _ _ _ []); [apply I_touch', home_needs|apply table_init_ok].
Qed.
Lemma epp_clear_ok : forall f bits K, Clears (cneeds f) (element_pp_clear f bits K) (epp_cells f bits K).
Proof.
  intros f bits K. unfold element_pp_clear, epp_cells. apply (C_seq _ _ _ []); [apply C_touch', home_cneeds|].
  destruct f; try apply table_clear_ok. refine (C_weak (cneeds f) _ _ _ _ (incl_appr _ (incl_refl _))).
  apply (C_seq _ _ _ []); [apply C_touch', home_cneeds|]. eapply C_same; [apply C_seq; [apply table_clear_ok|apply C_release]|sm].
Qed.
