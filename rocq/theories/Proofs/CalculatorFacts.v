(** Evaluation in memory agrees with the value semantics on clean programs. *)
From Coq Require Import ZArith List Bool String Lia Arith.
From Verif.Base Require Import Outcome.
From Verif.Spec Require Import Calculator.
From Verif.Model Require Import Calculator.
Import ListNotations.
Open Scope nat_scope.

Lemma at_put : forall A (t : list (string * option A)) a x y,
  at_ (put t a x) y = if String.eqb y x then a else at_ t y.
Proof.
  induction t as [|[z b] t IH]; intros a x y; simpl.
  - reflexivity.
  - destruct (String.eqb_spec x z) as [->|N].
    + simpl. destruct (String.eqb y z) eqn:E; reflexivity.
    + simpl. destruct (String.eqb_spec y z) as [->|M].
      * rewrite (proj2 (String.eqb_neq z x)) by congruence. reflexivity.
      * apply IH.
Qed.

Lemma upd_length : forall A (l : list A) i a, List.length (upd l i a) = List.length l.
Proof. induction l as [|x l IH]; intros [|i] a; simpl; auto. Qed.
Lemma upd_same : forall A (l : list A) i a, i < List.length l -> nth_error (upd l i a) i = Some a.
Proof.
  induction l as [|x l IH]; intros [|i] a H; simpl in *; try lia; auto.
  apply IH. lia.
Qed.
Lemma upd_other : forall A (l : list A) i j a, i <> j -> nth_error (upd l i a) j = nth_error l j.
Proof.
  induction l as [|x l IH]; intros [|i] [|j] a H; simpl in *; try lia; auto.
Qed.

(** The constants of the program are those of the specification. *)
Lemma table_name f : fs_name (table f) = fn_name f.
Proof. destruct f as [[]|[]| | | |[]|[]| | | | | | | | | | |[]]; reflexivity. Qed.
Lemma table_arity f : fs_arity (table f) = arity f.
Proof. destruct f as [[]|[]| | | |[]|[]| | | | | | | | | | |[]]; reflexivity. Qed.
Lemma table_sig f : fs_sig (table f) = sig f.
Proof. destruct f as [[]|[]| | | |[]|[]| | | | | | | | | | |[]]; reflexivity. Qed.
Lemma cmp_test_holds o i : cmp_test o i = order_holds o i.
Proof.
  destruct o; simpl; try reflexivity.
  - destruct (Z.geb_spec i 0), (Z.leb_spec 0 i); auto; lia.
  - destruct (Z.gtb_spec i 0), (Z.ltb_spec 0 i); auto; lia.
Qed.

Notation sim := agree.
Lemma sim_bind : forall A B C D (Q : A -> B -> Prop) (Q' : C -> D -> Prop) m1 m2 k1 k2,
  sim Q m1 m2 -> (forall x y, Q x y -> sim Q' (k1 x) (k2 y)) ->
  sim Q' (bind m1 k1) (bind m2 k2).
Proof. intros A B C D Q Q' [x| | |] [y| | |] k1 k2 H K; simpl in *; auto; contradiction. Qed.
Lemma sim_same : forall A C D (Q' : C -> D -> Prop) (m : res A) k1 k2,
  (forall x, sim Q' (k1 x) (k2 x)) -> sim Q' (bind m k1) (bind m k2).
Proof. intros A C D Q' [x| | |] k1 k2 K; simpl; auto. Qed.

Arguments reserved_vals : simpl never.
Arguments assoc : simpl never.

Section Facts.
  Variable L : lib.
  Notation tree := (tree (elem L)).
  Notation val := (val L).
  Notation state := (state L).
  Notation world := (world L).

  Record wf (s : state) : Prop := {
    wf_res : forall x,
      match at_ (reserved s) x, assoc x (reserved_vals L) with
      | None, None => True
      | Some a, Some v => nth_error (heap s) a = Some v
      | _, _ => False
      end;
    wf_tab : forall x a, at_ (tab s) x = Some a -> a < List.length (heap s);
    wf_def : forall a x ps b, nth_error (heap s) a = Some (VDef x ps b) -> forallb clean b = true
  }.

  Definition R (s : state) (w : world) : Prop :=
    (forall x, look L s x = env w x) /\ rcount s = rnd w /\ sout s = out w.

  Record step (s s' : state) : Prop := {
    st_len : List.length (heap s) <= List.length (heap s');
    st_old : forall a, a < List.length (heap s) -> nth_error (heap s') a = nth_error (heap s) a;
    st_res : reserved s' = reserved s;
    st_tab : forall x a e, at_ (tab s') x = Some a -> nth_error (heap s') a = Some (VElem e) ->
      List.length (heap s) <= a \/ exists y, at_ (tab s) y = Some a
  }.

  Definition own (s : state) (i : nat) : Prop := forall x, at_ (tab s) x <> Some i.
  Definition good (b : bool) (s0 s : state) (a : option nat) (v : option val) : Prop :=
    match a, v with
    | None, None => True
    | Some i, Some x =>
      nth_error (heap s) i = Some x /\
      forall e, x = VElem e -> List.length (heap s0) <= i /\ (b = false -> own s i)
    | _, _ => False
    end.

  Lemma step_refl s : step s s.
  Proof. constructor; auto. intros x a e H _. right. eauto. Qed.
  Lemma nth_lt : forall (l : list val) i v, nth_error l i = Some v -> i < List.length l.
  Proof. intros l i v H. apply nth_error_Some. congruence. Qed.
  Lemma step_trans s0 s1 s2 : wf s1 -> step s0 s1 -> step s1 s2 -> step s0 s2.
  Proof.
    intros W [A1 A2 A3 A4] [B1 B2 B3 B4]. constructor.
    - lia.
    - intros a H. rewrite B2 by lia. apply A2; auto.
    - congruence.
    - intros x a e H1 H2. destruct (B4 x a e H1 H2) as [H|[y Hy]]; [left; lia|].
      pose proof (wf_tab _ W _ _ Hy) as Hl. rewrite B2 in H2 by lia. eapply A4; eauto.
  Qed.

  Lemma good_mono b s0 s1 s2 a v : step s1 s2 -> good b s0 s1 a v -> good b s0 s2 a v.
  Proof.
    intros T. destruct a as [i|], v as [x|]; simpl; auto.
    intros [H1 H2]. pose proof (nth_lt _ _ _ H1) as Hl. split.
    - rewrite (st_old _ _ T) by auto. auto.
    - intros e He. destruct (H2 e He) as [H3 H4]. split; auto.
      intros Hb y Hy. specialize (H4 Hb).
      assert (HE : nth_error (heap s2) i = Some (VElem e))
        by (rewrite (st_old _ _ T) by auto; congruence).
      destruct (st_tab _ _ T y i e Hy HE) as [H5|[z Hz]].
      + lia.
      + exact (H4 z Hz).
  Qed.
  Lemma good_base b s0 s1 s2 a v : List.length (heap s0) <= List.length (heap s1) ->
    good b s1 s2 a v -> good b s0 s2 a v.
  Proof.
    intros Hl. destruct a as [i|], v as [x|]; simpl; auto.
    intros [H1 H2]. split; auto. intros e He. destruct (H2 e He). split; auto. lia.
  Qed.
  Lemma good_weak b s0 s a v : good false s0 s a v -> good b s0 s a v.
  Proof.
    destruct a as [i|], v as [x|]; simpl; auto.
    intros [H1 H2]. split; auto. intros e He. destruct (H2 e He). split; auto.
  Qed.

  (** ** Allocation *)

  Lemma new_facts v s w : wf s -> R s w ->
    (forall x ps b, v = VDef x ps b -> forallb clean b = true) ->
    wf (snd (new L v s)) /\ R (snd (new L v s)) w /\ step s (snd (new L v s)) /\
    good false s (snd (new L v s)) (fst (new L v s)) (Some v).
  Proof.
    intros [W1 W2 W3] [R1 [R2 R3]] D. unfold new; simpl.
    assert (O : forall a, a < List.length (heap s) ->
              nth_error (heap s ++ [v]) a = nth_error (heap s) a)
      by (intros a H; apply nth_error_app1; auto).
    split; [|split; [|split]].
    - constructor; simpl.
      + intros x. generalize (W1 x).
        destruct (at_ (reserved s) x), (assoc x (reserved_vals L)); auto. intros H.
        rewrite O by (eapply nth_lt; eauto). auto.
      + intros x a H. rewrite app_length. simpl. specialize (W2 x a H). lia.
      + intros a x ps b H.
        destruct (Nat.lt_ge_cases a (List.length (heap s))) as [Hl|Hl].
        * rewrite O in H by auto. eauto.
        * rewrite nth_error_app2 in H by auto.
          destruct (a - List.length (heap s)) as [|[|k]]; simpl in H; try congruence.
          injection H as ->. eauto.
    - split; [|auto]. intros x. rewrite <- R1. unfold look; simpl.
      destruct (at_ (tab s) x) as [a|] eqn:E; auto.
      apply O. eauto.
    - constructor; simpl; auto.
      + rewrite app_length. lia.
      + intros x a e H _. right. eauto.
    - split.
      + rewrite nth_error_app2 by lia. rewrite Nat.sub_diag. reflexivity.
      + intros e He. split; [lia|]. intros _ x Hx. simpl in Hx. specialize (W2 _ _ Hx). lia.
  Qed.

  Definition Q (b : bool) (s0 : state) (p : option nat * state) (q : option val * world) : Prop :=
    wf (snd p) /\ R (snd p) (snd q) /\ step s0 (snd p) /\ good b s0 (snd p) (fst p) (fst q).

  Lemma new_Q b s0 s w v : wf s -> R s w -> step s0 s ->
    (forall x ps b, v = VDef x ps b -> forallb clean b = true) ->
    Q b s0 (new L v s) (Some v, w).
  Proof.
    intros W HR T D. destruct (new_facts v s w W HR D) as [A [B [C E]]].
    split; [exact A|]. split; [exact B|]. split.
    - exact (step_trans _ _ _ W T C).
    - apply good_weak. eapply good_base; [apply st_len; exact T|exact E].
  Qed.
  Lemma new_e_Q b s0 s w e : wf s -> R s w -> step s0 s -> Q b s0 (new L (VElem e) s) (Some (VElem e), w).
  Proof. intros. apply new_Q; auto. congruence. Qed.
  Lemma new_f_Q b s0 s w e : wf s -> R s w -> step s0 s -> Q b s0 (new L (VField e) s) (Some (VField e), w).
  Proof. intros. apply new_Q; auto. congruence. Qed.
  Lemma new_m_Q b s0 s w m : wf s -> R s w -> step s0 s ->
    Q b s0 (new_error L m s) (Some (VErr (message m)), w).
  Proof. intros. apply new_Q; auto. congruence. Qed.

  (** ** Overwriting an object of one's own *)

  Lemma store_Q b s0 s w i v e : wf s -> R s w -> step s0 s ->
    good false s0 s (Some i) (Some (VElem v)) ->
    Q b s0 (Some i, store L i (VElem e) s) (Some (VElem e), w).
  Proof.
    intros [W1 W2 W3] [R1 [R2 R3]] T [G1 G2].
    destruct (G2 v eq_refl) as [G3 G4]. specialize (G4 eq_refl).
    pose proof (nth_lt _ _ _ G1) as Hl.
    split; [|split; [|split]]; simpl.
    - constructor; simpl.
      + intros x. generalize (W1 x). clear W1.
        destruct (at_ (reserved s) x) as [a|] eqn:E; auto.
        destruct (assoc x (reserved_vals L)) as [u|] eqn:E2; auto. intros W1.
        destruct (Nat.eq_dec i a) as [->|N]; [|rewrite upd_other; auto].
        exfalso. rewrite G1 in W1. injection W1 as <-.
        revert E2. clear. intros H.
        assert (N : forall l, ~ In (x, VElem v) l -> assoc x l <> Some (VElem v)).
        { induction l as [|[y u] l IH]; simpl; [intros _; discriminate|]. unfold assoc; fold (@assoc val).
          destruct (String.eqb_spec x y) as [->|M].
          - intros N C. apply N. left. congruence.
          - intros N. apply IH. tauto. }
        apply (N _) in H; auto.
        unfold reserved_vals. rewrite in_app_iff, in_map_iff. simpl.
        intros [[f [H1 _]]|[H1|[H1|[]]]]; congruence.
      + intros x a H. rewrite upd_length. eauto.
      + intros a x ps b0 H.
        destruct (Nat.eq_dec i a) as [->|N].
        * rewrite upd_same in H by auto. congruence.
        * rewrite upd_other in H by auto. eauto.
    - split; [|auto]. intros x. rewrite <- R1. unfold look; simpl.
      destruct (at_ (tab s) x) as [a|] eqn:E; auto.
      apply upd_other. intros ->. exact (G4 _ E).
    - destruct T as [T1 T2 T3 T4]. constructor; simpl; auto.
      + rewrite upd_length. auto.
      + intros a H. rewrite upd_other by lia. auto.
      + intros x a u H1 H2.
        destruct (Nat.eq_dec i a) as [->|N]; [exfalso; exact (G4 _ H1)|].
        rewrite upd_other in H2 by auto. eauto.
    - split; [apply upd_same; auto|]. intros u _. split; auto.
  Qed.

  (** ** Binding a name *)

  Lemma set_tab_facts b s0 s w x a v : wf s -> R s w -> step s0 s -> good b s0 s a v ->
    wf (set_tab L x a s) /\ R (set_tab L x a s) (rebind L x v w) /\ step s0 (set_tab L x a s).
  Proof.
    intros [W1 W2 W3] [R1 [R2 R3]] T G. split; [|split].
    - constructor; simpl; auto.
      intros y c. rewrite at_put. destruct (String.eqb y x); eauto.
      intros ->. destruct v as [u|]; simpl in G; [|contradiction].
      destruct G as [G _]. eauto using nth_lt.
    - split; [|auto]. intros y. unfold look, rebind; simpl. rewrite at_put.
      destruct (String.eqb y x); [|apply R1].
      destruct a as [i|], v as [u|]; simpl in G; try contradiction; auto.
      destruct G as [G _]. exact G.
    - destruct T as [T1 T2 T3 T4]. constructor; simpl; auto.
      intros y c e. rewrite at_put. destruct (String.eqb y x); eauto.
      intros -> H. left. destruct v as [u|]; simpl in G; [|contradiction].
      destruct G as [G1 G2]. rewrite H in G1. injection G1 as <-.
      destruct (G2 e eq_refl). auto.
  Qed.

  Lemma print_facts s0 s w l : wf s -> R s w -> step s0 s ->
    wf (print L l s) /\ R (print L l s) (say L l w) /\ step s0 (print L l s).
  Proof.
    intros [W1 W2 W3] [R1 [R2 R3]] T. split; [constructor; auto|]. split.
    - split; [exact R1|]. split; [exact R2|]. simpl. congruence.
    - destruct T as [T1 T2 T3 T4]. constructor; auto.
  Qed.

  Lemma assign_field_facts s0 s w f x : wf s -> R s w -> step s0 s ->
    wf (assign_field L f x s) /\ R (assign_field L f x s) (rebind L x (Some (VField f)) w) /\
    step s0 (assign_field L f x s).
  Proof.
    intros W HR T. destruct (new_f_Q false s0 s w f W HR T) as [A [B [C D]]].
    unfold assign_field. simpl. eapply set_tab_facts; eauto.
  Qed.

  (** ** Built-in functions *)

  Lemma deref_good b s0 s a v : good b s0 s a v ->
    deref L a s = match v with Some x => Ok x | None => UB end.
  Proof.
    destruct a as [i|], v as [x|]; simpl; try contradiction; auto.
    intros [H _]. rewrite H. reflexivity.
  Qed.

  Lemma elem_good b s0 s a v : good b s0 s a v ->
    get_elem L a s = match v with Some (VElem e) => Ok e | _ => UB end.
  Proof.
    intros G. unfold get_elem. rewrite (deref_good _ _ _ _ _ G).
    destruct v as [[]|]; reflexivity.
  Qed.
  Lemma field_good b s0 s a v : good b s0 s a v ->
    get_field L a s = match v with Some (VField e) => Ok e | _ => UB end.
  Proof.
    intros G. unfold get_field. rewrite (deref_good _ _ _ _ _ G).
    destruct v as [[]|]; reflexivity.
  Qed.

  Lemma in_place_sim s0 s w op a v : wf s -> R s w -> step s0 s -> good false s0 s a v ->
    sim (Q false s0) (in_place L op a s)
      match v with
      | Some (VElem x) => e <- op x ;; Ok (Some (VElem e), w)
      | _ => UB
      end.
  Proof.
    intros W HR T G. unfold in_place. rewrite (elem_good _ _ _ _ _ G).
    destruct v as [[x| | | |]|]; simpl; auto.
    apply sim_same. intros e. destruct a as [i|]; [|contradiction]. simpl.
    eapply store_Q; eauto.
  Qed.

  Lemma run_sim s0 s w f addrs vals : wf s -> R s w -> step s0 s ->
    Forall2 (good false s0 s) addrs vals ->
    sim (Q false s0) (run L f addrs s) (value_of L f vals w).
  Proof.
    intros W HR T F.
    assert (CH : forall m (k : elem L -> res (option nat * state)) (k' : elem L -> res (option val * world)),
      (forall e, sim (Q false s0) (k e) (k' e)) -> sim (Q false s0) (bind m k) (bind m k'))
      by (intros; apply sim_same; auto).
    destruct F as [|a v as_ vs G F]; [destruct f; simpl; auto|].
    { (* init *)
      destruct (assign_field_facts s0 s w (l_group L k "G1") "G1" W HR T) as [W1 [R1 T1]].
      destruct (assign_field_facts s0 _ _ (l_group L k "G2") "G2" W1 R1 T1) as [W2 [R2 T2]].
      destruct (assign_field_facts s0 _ _ (l_group L k "GT") "GT" W2 R2 T2) as [W3 [R3 T3]].
      destruct (assign_field_facts s0 _ _ (l_group L k "Zr") "Zr" W3 R3 T3) as [W4 [R4 T4]].
      split; [exact W4|]. split; [exact R4|]. split; [exact T4|]. exact I. }
    destruct F as [|b u bs us G2 F].
    - (* one argument *)
      destruct f; simpl; auto; try (destruct v as [[]|]; exact I);
        try (apply in_place_sim; assumption).
      + (* ord *) rewrite (field_good _ _ _ _ _ G). destruct v as [[]|]; simpl; auto.
        apply new_e_Q; auto.
      + (* random *) rewrite (field_good _ _ _ _ _ G). destruct v as [[]|]; simpl; auto.
        destruct HR as [R1 [R2 R3]]. rewrite R2.
        apply new_e_Q.
        * destruct W; constructor; auto.
        * split; [exact R1|]. split; [simpl; congruence|exact R3].
        * destruct T; constructor; auto.
      + (* type *) rewrite (deref_good _ _ _ _ _ G). destruct v as [v|]; simpl; auto.
        destruct (print_facts s0 s w (Word (type_name (type_of v))) W HR T) as [A [B C]].
        assert (E : vtype_name (type_of v) = type_name (type_of v)) by (destruct v; reflexivity).
        rewrite E. split; [exact A|]. split; [exact B|]. split; [exact C|].
        destruct a as [i|]; [|contradiction]. exact G.
      + rewrite (elem_good _ _ _ _ _ G). destruct v as [[]|]; simpl; auto.
        apply sim_same. intros k. apply new_f_Q; auto.
      + rewrite (field_good _ _ _ _ _ G). destruct v as [[]|]; simpl; auto.
        apply sim_same. intros k. apply new_f_Q; auto.
      + rewrite (elem_good _ _ _ _ _ G). destruct v as [[]|]; simpl; auto.
        apply sim_same. intros k. apply new_f_Q; auto.
      + rewrite (elem_good _ _ _ _ _ G). destruct v as [[]|]; simpl; auto.
      + rewrite (elem_good _ _ _ _ _ G). destruct v as [[]|]; simpl; auto.
        apply sim_same. intros [|]; simpl; auto.
        split; [exact W|]. split; [exact HR|]. split; [exact T|exact G].
    - destruct F as [|c z cs zs G3 F].
      + (* two arguments *)
        destruct f; simpl; auto;
          try (destruct v as [[]|]; exact I);
          rewrite (elem_good _ _ _ _ _ G);
          (destruct v as [[x| | | |]|]; simpl; auto);
          rewrite (elem_good _ _ _ _ _ G2);
          (destruct u as [[y| | | |]|]; simpl; auto);
          (destruct a as [i|]; [|contradiction]);
          apply sim_same; intros e; simpl.
        * eapply store_Q; eauto.
        * rewrite cmp_test_holds. eapply store_Q; eauto.
        * apply new_e_Q; auto.
        * apply new_e_Q; auto.
      + (* three or more *)
        destruct f; simpl; auto;
          (destruct v as [[]|]; auto; destruct u as [[]|]; exact I).
  Qed.

  (** ** Trees *)

  Lemma Q_lift b s0 s p q : wf s -> step s0 s -> Q b s p q -> Q b s0 p q.
  Proof.
    intros W T [A [B [C D]]]. split; [exact A|]. split; [exact B|]. split.
    - exact (step_trans _ _ _ W T C).
    - eapply good_base; [apply st_len; exact T|exact D].
  Qed.
  Lemma Q_weak b s0 p q : Q false s0 p q -> Q b s0 p q.
  Proof. intros [A [B [C D]]]. repeat split; auto; try apply A; try apply B; try apply C. apply good_weak; auto. Qed.
  Lemma sim_weaken A B (P1 P2 : A -> B -> Prop) m1 m2 :
    (forall x y, P1 x y -> P2 x y) -> sim P1 m1 m2 -> sim P2 m1 m2.
  Proof. intros H. destruct m1, m2; simpl; auto. Qed.
  Lemma sim_lift b s0 s m1 m2 : wf s -> step s0 s -> sim (Q b s) m1 m2 -> sim (Q b s0) m1 m2.
  Proof. intros W T. apply sim_weaken. intros. eapply Q_lift; eauto. Qed.

  Section Step.
    Variable ev : tree -> state -> res (option nat * state).
    Variable ev' : tree -> world -> res (option val * world).
    Hypothesis Hev : forall t s w, clean t = true -> wf s -> R s w ->
      sim (Q (exposes t) s) (ev t s) (ev' t w).

    Definition QA (s0 : state) (p : (option nat + list (option nat)) * state)
                  (q : (string + list (option val)) * world) : Prop :=
      wf (snd p) /\ R (snd p) (snd q) /\ step s0 (snd p) /\
      match fst p, fst q with
      | inl a, inl m => good false s0 (snd p) a (Some (VErr m))
      | inr l, inr l' => Forall2 (good false s0 (snd p)) l l'
      | _, _ => False
      end.

    Definition ok_arg (x : tree) : bool := clean x && negb (exposes x).

    Lemma Hev_arg t s w : ok_arg t = true -> wf s -> R s w ->
      sim (Q false s) (ev t s) (ev' t w).
    Proof.
      unfold ok_arg. rewrite andb_true_iff, negb_true_iff. intros [H1 H2] W HR.
      rewrite <- H2. apply Hev; auto.
    Qed.

    Lemma args_sim f : forall ts i s w, forallb ok_arg ts = true -> wf s -> R s w ->
      sim (QA s) (eval_args L ev (table f) i ts s) (values L ev' f i ts w).
    Proof.
      induction ts as [|t ts IH]; intros i s w H W HR; cbn [eval_args values].
      { split; [exact W|]. split; [exact HR|]. split; [apply step_refl|]. constructor. }
      simpl in H. apply andb_true_iff in H. destruct H as [H1 H2].
      eapply sim_bind; [apply Hev_arg; eauto|].
      intros [a s1] [v w1] [W1 [R1 [T1 G1]]]; simpl in W1, R1, T1, G1.
      rewrite table_sig, table_name.
      assert (K : sim (QA s)
        (q <- eval_args L ev (table f) (S i) ts s1 ;;
         let '(r, s2) := q in
         Ok (match r with inl e => inl e | inr l => inr (a :: l) end, s2))
        (q <- values L ev' f (S i) ts w1 ;;
         let '(r, w2) := q in
         Ok (match r with inl m => inl m | inr l => inr (v :: l) end, w2))).
      { eapply sim_bind; [apply IH; eauto|].
        intros [r s2] [r' w2] [W2 [R2 [T2 G2]]]; simpl in W2, R2, T2, G2.
        split; [exact W2|]. split; [exact R2|]. split; [exact (step_trans _ _ _ W1 T1 T2)|].
        destruct r as [e|l], r' as [m|l']; simpl; try contradiction.
        - eapply good_base; [apply st_len; exact T1|exact G2].
        - constructor.
          + eapply good_mono; eauto.
          + clear - G2 T1. induction G2 as [|x y l l' G F IH]; constructor; auto.
            eapply good_base; [apply st_len; exact T1|exact G]. }
      destruct (nth i (sig f) None) as [ty|]; [|exact K].
      rewrite (deref_good _ _ _ _ _ G1). destruct v as [v0|]; simpl; [|exact I].
      destruct (vtype_eqb (type_of v0) ty); simpl; [exact K|].
      destruct (new_m_Q false s s1 w1
                  (fn_name f ++ ": argument " ++ (if i =? 0 then "1" else "2") ++ " type mismatch")
                  W1 R1 T1) as [A [B [C D]]].
      split; [exact A|]. split; [exact B|]. split; [exact C|].
      unfold type_error, digit. destruct i; exact D.
    Qed.

    Lemma builtin_sim f ts s w : forallb ok_arg ts = true -> wf s -> R s w ->
      sim (Q false s) (v_builtin L ev f ts s)
        (if List.length ts =? arity f then
           q <- values L ev' f 0 ts w ;;
           let '(r, w2) := q in
           match r with
           | inl m => Ok (Some (VErr m), w2)
           | inr l => value_of L f l w2
           end
         else Ok (Some (VErr (arity_error (fn_name f))), w)).
    Proof.
      intros H W HR. unfold v_builtin. rewrite table_arity, table_name.
      rewrite (Nat.eqb_sym (List.length ts)).
      change (1 + arity f =? 1 + List.length ts) with (arity f =? List.length ts).
      destruct (arity f =? List.length ts).
      - eapply sim_bind; [apply args_sim; eauto|].
        intros [r s1] [r' w1] [W1 [R1 [T1 G1]]]; simpl in W1, R1, T1, G1.
        destruct r as [e|l], r' as [m|l']; simpl; try contradiction.
        + split; [exact W1|]. split; [exact R1|]. split; [exact T1|exact G1].
        + apply run_sim; auto.
      - apply new_m_Q; auto. apply step_refl.
    Qed.

    Definition QS (s0 s : state) (w : world) : Prop := wf s /\ R s w /\ step s0 s.

    Lemma body_sim : forall ts s w, forallb clean ts = true -> wf s -> R s w ->
      sim (QS s) (eval_body L ev ts s) (run_all L ev' ts w).
    Proof.
      induction ts as [|t ts IH]; intros s w H W HR; cbn [eval_body run_all].
      { split; [exact W|]. split; [exact HR|apply step_refl]. }
      simpl in H. apply andb_true_iff in H. destruct H as [H1 H2].
      eapply sim_bind; [apply Hev; eauto|].
      intros [a s1] [v w1] [W1 [R1 [T1 G1]]]; simpl in W1, R1, T1, G1. simpl.
      eapply sim_weaken; [|apply IH; eauto].
      intros s2 w2 [A [B C]]. split; [exact A|]. split; [exact B|].
      exact (step_trans _ _ _ W1 T1 C).
    Qed.

    Lemma parms_sim : forall ps ts s w, forallb ok_arg ts = true -> wf s -> R s w ->
      sim (QS s) (eval_parms L ev ps ts s) (bind_all L ev' ps ts w).
    Proof.
      induction ps as [|p ps IH]; intros [|t ts] s w H W HR; cbn [eval_parms bind_all];
        try (split; [exact W|]; split; [exact HR|apply step_refl]).
      simpl in H. apply andb_true_iff in H. destruct H as [H1 H2].
      eapply sim_bind; [apply Hev_arg; eauto|].
      intros [a s1] [v w1] [W1 [R1 [T1 G1]]]; simpl in W1, R1, T1, G1.
      destruct (set_tab_facts false s s1 w1 p a v W1 R1 T1 G1) as [W2 [R2 T2]].
      eapply sim_weaken; [|apply IH; eauto].
      intros s3 w3 [A [B C]]. split; [exact A|]. split; [exact B|].
      exact (step_trans _ _ _ W2 T2 C).
    Qed.

    Lemma def_call_sim x ps body ts s w : forallb ok_arg ts = true ->
      forallb clean body = true -> wf s -> R s w ->
      sim (Q false s) (v_def_call L ev x ps body ts s)
        (if List.length ts =? List.length ps then
           w2 <- bind_all L ev' ps ts w ;;
           w3 <- run_all L ev' body w2 ;;
           Ok (None, w3)
         else Ok (Some (VErr (arity_error x)), w)).
    Proof.
      intros H HB W HR. unfold v_def_call.
      rewrite (Nat.eqb_sym (List.length ts)).
      change (1 + List.length ps =? 1 + List.length ts) with (List.length ps =? List.length ts).
      destruct (List.length ps =? List.length ts).
      - eapply sim_bind; [apply parms_sim; eauto|]. intros s1 w1 [W1 [R1 T1]].
        eapply sim_bind; [apply body_sim; eauto|]. intros s2 w2 [W2 [R2 T2]].
        split; [exact W2|]. split; [exact R2|]. split; [exact (step_trans _ _ _ W1 T1 T2)|exact I].
      - apply new_m_Q; auto. apply step_refl.
    Qed.

    Lemma cast_sim k ts s w : forallb ok_arg ts = true -> wf s -> R s w ->
      sim (Q false s) (v_field_cast L ev k ts s)
        match ts with
        | [] => UB
        | t1 :: _ =>
          q <- ev' t1 w ;;
          match q with
          | (Some (VElem e), w2) => e' <- convert L k e ;; Ok (Some (VElem e'), w2)
          | _ => UB
          end
        end.
    Proof.
      intros H W HR. destruct ts as [|t ts]; [exact I|].
      simpl in H. apply andb_true_iff in H. destruct H as [H1 H2].
      unfold v_field_cast. eapply sim_bind; [apply Hev_arg; eauto|].
      intros [a s1] [v w1] [W1 [R1 [T1 G1]]]; simpl in W1, R1, T1, G1.
      rewrite (elem_good _ _ _ _ _ G1).
      destruct v as [[e| | | |]|]; simpl; try exact I.
      destruct a as [i|]; [|contradiction]. unfold convert.
      assert (K : Q false s (Some i, s1) (Some (VElem e), w1))
        by (split; [exact W1|]; split; [exact R1|]; split; [exact T1|exact G1]).
      assert (K2 : forall e2, Q false s (Some i, store L i (VElem e2) s1) (Some (VElem e2), w1))
        by (intros; eapply store_Q; eauto).
      destruct (l_is_int L (l_field L e)), (l_is_int L k); simpl; auto.
      - destruct (l_is0 L e) as [[|]| | |]; simpl; auto.
        destruct (l_is1 L e) as [[|]| | |]; simpl; auto.
        destruct (l_convert L k e); simpl; auto.
      - destruct (l_to_int L e); simpl; auto.
    Qed.

    Lemma list_sim : forall ts e s0 s w, forallb ok_arg ts = true -> wf s -> R s w -> step s0 s ->
      sim (Q false s0) (eval_list L ev e ts s) (collect L ev' e ts w).
    Proof.
      induction ts as [|t ts IH]; intros e s0 s w H W HR T; cbn [eval_list collect].
      { destruct e as [l|]; simpl; auto. apply new_e_Q; auto. }
      simpl in H. apply andb_true_iff in H. destruct H as [H1 H2].
      eapply sim_bind; [apply Hev_arg; eauto|].
      intros [a s1] [v w1] [W1 [R1 [T1 G1]]]; simpl in W1, R1, T1, G1.
      pose proof (step_trans _ _ _ W T T1) as T2.
      rewrite (deref_good _ _ _ _ _ G1).
      destruct v as [[y|k|g|y ps b|m]|]; simpl; auto; try (apply new_m_Q; auto).
      - destruct e as [l|].
        + destruct (l_append L l y); simpl; auto.
        + destruct (l_list1 L y); simpl; auto.
      - split; [exact W1|]. split; [exact R1|]. split; [exact T2|].
        eapply good_base; [apply st_len; exact T|exact G1].
    Qed.
  End Step.

  Lemma v_eval_sim b s w a v : wf s -> R s w -> nth_error (heap s) a = Some v ->
    sim (Q b s) (v_eval L (Some a) s) (Ok (Some v, w)).
  Proof.
    intros W HR H. unfold v_eval, deref. rewrite H. simpl.
    destruct v as [e|k|g|y ps bd|m]; simpl; try (apply new_e_Q; auto; apply step_refl);
      (split; [exact W|]; split; [exact HR|]; split; [apply step_refl|];
       split; [exact H|]; intros; congruence).
  Qed.

  Theorem eval_sim : forall n t s w, clean t = true -> wf s -> R s w ->
    sim (Q (exposes t) s) (eval L n t s) (meaning L n t w).
  Proof.
    induction n as [|n IH]; intros t s w C W HR; [exact I|].
    destruct t as [e|l|c a b|x|f args|f|x t|x ps body]; cbn [eval meaning].
    - apply new_e_Q; auto. apply step_refl.
    - apply list_sim; auto. apply step_refl.
    - simpl in C. apply andb_true_iff in C. destruct C as [C C3].
      apply andb_true_iff in C. destruct C as [C1 C2].
      eapply sim_bind; [apply IH; eauto|].
      intros [i s1] [v w1] [W1 [R1 [T1 G1]]]; simpl in W1, R1, T1, G1.
      rewrite (deref_good _ _ _ _ _ G1).
      destruct v as [[y|k|g|y ps bd|m]|]; simpl; auto;
        try (apply Q_weak; apply new_m_Q; auto).
      + apply sim_same. intros z.
        assert (KA : sim (Q (exposes a || exposes b) s) (eval L n a s1) (meaning L n a w1)).
        { eapply sim_weaken; [|eapply sim_lift; [exact W1|exact T1|apply IH; eauto]].
          intros p q [A [B [D G]]]. split; [exact A|]. split; [exact B|]. split; [exact D|].
          destruct (exposes a) eqn:EA; [exact G|]. apply good_weak. exact G. }
        assert (KB : sim (Q (exposes a || exposes b) s) (eval L n b s1) (meaning L n b w1)).
        { eapply sim_weaken; [|eapply sim_lift; [exact W1|exact T1|apply IH; eauto]].
          intros p q [A [B [D G]]]. split; [exact A|]. split; [exact B|]. split; [exact D|].
          destruct (exposes b) eqn:EB; [rewrite orb_true_r; exact G|]. apply good_weak. exact G. }
        destruct z; simpl; assumption.
      + split; [exact W1|]. split; [exact R1|]. split; [exact T1|].
        destruct i as [i|]; [|contradiction]. destruct G1 as [G1 _].
        split; [exact G1|]. intros; congruence.
    - unfold lookup. generalize (wf_res _ W x).
      destruct (at_ (reserved s) x) as [a|], (assoc x (reserved_vals L)) as [v|];
        try contradiction.
      + intros H. apply v_eval_sim; auto.
      + intros _. destruct HR as [R1 R2]. rewrite <- R1. unfold look.
        destruct (at_ (tab s) x) as [a|] eqn:E.
        * pose proof (wf_tab _ W _ _ E) as Hl. apply nth_error_Some in Hl.
          destruct (nth_error (heap s) a) as [v|] eqn:E2; [|congruence].
          apply v_eval_sim; auto. split; auto.
        * apply new_m_Q; auto; [split; auto|apply step_refl].
    - simpl in C. apply andb_true_iff in C. destruct C as [C1 C2].
      eapply sim_bind; [apply IH; eauto|].
      intros [i s1] [v w1] [W1 [R1 [T1 G1]]]; simpl in W1, R1, T1, G1.
      rewrite (deref_good _ _ _ _ _ G1).
      destruct v as [[y|k|g|y ps bd|m]|]; simpl; auto.
      + eapply sim_lift; [exact W1|exact T1|]. apply cast_sim; auto.
      + eapply sim_lift; [exact W1|exact T1|]. apply builtin_sim; auto.
      + eapply sim_lift; [exact W1|exact T1|]. apply def_call_sim; auto.
        destruct i as [i|]; [|contradiction]. destruct G1 as [G1 _].
        exact (wf_def _ W1 _ _ _ _ G1).
      + split; [exact W1|]. split; [exact R1|]. split; [exact T1|].
        destruct i as [i|]; [|contradiction]. destruct G1 as [G1 _].
        split; [exact G1|]. intros; congruence.
    - apply new_Q; auto; [apply step_refl|congruence].
    - simpl in C. eapply sim_bind; [apply IH; eauto|].
      intros [i s1] [v w1] [W1 [R1 [T1 G1]]]; simpl in W1, R1, T1, G1.
      generalize (wf_res _ W1 x).
      destruct (at_ (reserved s1) x) as [a|], (assoc x (reserved_vals L)) as [u|];
        try contradiction; intros _.
      + apply new_m_Q; auto.
      + destruct (set_tab_facts _ s s1 w1 x i v W1 R1 T1 G1) as [W2 [R2 T2]].
        split; [exact W2|]. split; [exact R2|]. split; [exact T2|].
        destruct i as [i|], v as [v|]; simpl in G1 |- *; auto.
        destruct G1 as [G1 G2]. split; [exact G1|]. intros e He.
        destruct (G2 e He). split; auto. discriminate.
    - simpl in C.
      assert (NQ : Q false s (new L (VDef x ps body) s) (Some (VDef x ps body), w)).
      { apply new_Q; auto; [apply step_refl|]. intros x0 ps0 b0 E. injection E as <- <- <-. exact C. }
      destruct NQ as [A [B [D G]]].
      destruct (set_tab_facts false s _ w x _ _ A B D G) as [W2 [R2 T2]].
      split; [exact W2|]. split; [exact R2|]. split; [exact T2|].
      destruct G as [G1 G2]. split; [exact G1|]. intros; congruence.
  Qed.

  (** ** Statements and programs *)

  Lemma stmt_sim n t s w : clean t = true -> wf s -> R s w ->
    sim (QS s) (eval_stmt L n t s) (stmt_meaning L n t w).
  Proof.
    intros C W HR. unfold eval_stmt, stmt_meaning.
    eapply sim_bind; [apply eval_sim; eauto|].
    intros [i s1] [v w1] [W1 [R1 [T1 G1]]]; simpl in W1, R1, T1, G1.
    destruct i as [i|].
    - rewrite (deref_good _ _ _ _ _ G1). destruct v as [v|]; [|contradiction].
      assert (K : forall l, QS s (print L l s1) (say L l w1))
        by (intros l; destruct (print_facts s s1 w1 l W1 R1 T1) as [A [B D]]; repeat split;
            try apply A; try apply B; try apply D).
      assert (K2 : QS s s1 w1) by (split; [exact W1|]; split; [exact R1|exact T1]).
      simpl. destruct v; unfold is_assign; destruct t; simpl; first [apply K|exact K2].
    - destruct v as [v|]; [contradiction|].
      split; [exact W1|]. split; [exact R1|exact T1].
  Qed.

  Theorem program_sim : forall n ts s w, forallb clean ts = true -> wf s -> R s w ->
    sim (QS s) (eval_program L n ts s) (program_meaning L n ts w).
  Proof.
    induction ts as [|t ts IH]; intros s w H W HR; cbn [eval_program program_meaning].
    { split; [exact W|]. split; [exact HR|apply step_refl]. }
    simpl in H. apply andb_true_iff in H. destruct H as [H1 H2].
    eapply sim_bind; [apply stmt_sim; eauto|]. intros s1 w1 [W1 [R1 T1]].
    eapply sim_weaken; [|apply IH; eauto].
    intros s2 w2 [A [B D]]. split; [exact A|]. split; [exact B|].
    exact (step_trans _ _ _ W1 T1 D).
  Qed.

  Lemma boot_wf : wf (boot L).
  Proof.
    constructor.
    - intros x. unfold reserved_vals, assoc, boot. cbn.
      repeat (match goal with |- context [String.eqb x ?y] => destruct (String.eqb x y) end;
              [reflexivity|]).
      exact I.
    - intros x a. unfold boot. cbn.
      repeat (match goal with |- context [String.eqb x ?y] => destruct (String.eqb x y) end;
              [intros E; injection E as <-; lia|]).
      discriminate.
    - intros a x ps b. unfold boot. cbn.
      repeat (destruct a as [|a]; cbn; [discriminate|]).
      destruct a; discriminate.
  Qed.

  Lemma boot_R : R (boot L) (start L).
  Proof.
    split; [|split; reflexivity].
    intros x. unfold look, boot, start. cbn.
    destruct (String.eqb_spec x "G1") as [->|]; [reflexivity|].
    destruct (String.eqb_spec x "G2") as [->|]; [reflexivity|].
    destruct (String.eqb_spec x "GT") as [->|]; [reflexivity|].
    destruct (String.eqb_spec x "Zr") as [->|]; reflexivity.
  Qed.
End Facts.
