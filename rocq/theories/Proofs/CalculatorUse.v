(** Consequences for expressions, reserved names and ill-typed calls. *)
From Coq Require Import ZArith List Bool String Lia Arith.
From Verif.Base Require Import Outcome.
From Verif.Spec Require Import Calculator.
From Verif.Model Require Import Calculator.
From Verif.Proofs Require Import CalculatorFacts.
Import ListNotations.
Open Scope nat_scope.

Section TreeInd.
  Variable E : Type.
  Variable P : tree E -> Prop.
  Hypothesis Hlit : forall e, P (Lit e).
  Hypothesis Hlist : forall l, Forall P l -> P (ListOf l).
  Hypothesis Htern : forall c a b, P c -> P a -> P b -> P (Tern c a b).
  Hypothesis Hid : forall x, P (Id x).
  Hypothesis Hcall : forall f l, P f -> Forall P l -> P (Call f l).
  Hypothesis Hfn : forall f, P (Fn f).
  Hypothesis Hassign : forall x t, P t -> P (Assign x t).
  Hypothesis Hdef : forall x ps l, Forall P l -> P (Define x ps l).
  Fixpoint tree_ind' (t : tree E) : P t :=
    let all := fix all (l : list (tree E)) : Forall P l :=
      match l with [] => Forall_nil P | x :: r => Forall_cons x (tree_ind' x) (all r) end in
    match t with
    | Lit e => Hlit e
    | ListOf l => Hlist l (all l)
    | Tern c a b => Htern c a b (tree_ind' c) (tree_ind' a) (tree_ind' b)
    | Id x => Hid x
    | Call f l => Hcall f l (tree_ind' f) (all l)
    | Fn f => Hfn f
    | Assign x t1 => Hassign x t1 (tree_ind' t1)
    | Define x ps l => Hdef x ps l (all l)
    end.
End TreeInd.

Section Use.
  Variable L : lib.
  Notation tree := (tree (elem L)).
  Notation val := (val L).
  Notation state := (state L).
  Notation world := (world L).

  (** ** Expressions *)

  Lemma computes_clean en : forall t : tree, computes en t = true -> clean t = true /\ exposes t = false.
  Proof.
    assert (HL : forall l, Forall (fun t : tree => computes en t = true -> clean t = true /\ exposes t = false) l ->
      forallb (computes en) l = true -> forallb (fun x => clean x && negb (exposes x)) l = true).
    { induction 1 as [|t l Ht Hl IH]; simpl; auto.
      rewrite !andb_true_iff. intros [A B]. destruct (Ht A) as [-> ->]. auto. }
    induction t using tree_ind'; simpl; auto; try discriminate.
    - rewrite !andb_true_iff. intros [[A B] C].
      destruct (IHt1 A), (IHt2 B), (IHt3 C). rewrite H, H1, H3, H2, H4. auto.
    - destruct t; try discriminate; rewrite !andb_true_iff; intros [A B]; auto.
  Qed.

  Section Env.
    Variable en : string -> option val.
    Variable ev : tree -> world -> res (option val * world).
    Hypothesis Hev : forall t w v w', computes en t = true -> env w = en ->
      ev t w = Ok (v, w') -> env w' = en.

    Lemma values_env f : forall ts i w r w', forallb (computes en) ts = true -> env w = en ->
      values L ev f i ts w = Ok (r, w') -> env w' = en.
    Proof.
      induction ts as [|t ts IH]; intros i w r w' H HE; cbn [values].
      { intros K. injection K as <- <-. auto. }
      simpl in H. apply andb_true_iff in H. destruct H as [H1 H2].
      intros K. apply bind_ok in K. destruct K as [[v w1] [K1 K2]].
      pose proof (Hev _ _ _ _ H1 HE K1) as E1.
      assert (KK : (q <- values L ev f (S i) ts w1 ;;
         let '(r, w2) := q in
         Ok (match r with inl m => inl m | inr l => inr (v :: l) end, w2)) = Ok (r, w') ->
         env w' = en).
      { intros K. apply bind_ok in K. destruct K as [[r2 w2] [K3 K4]].
        injection K4 as <- <-. eapply IH; eauto. }
      destruct (nth i (sig f) None) as [ty|]; [|auto].
      destruct v as [v0|]; [|discriminate].
      destruct (vtype_eqb (type_of v0) ty); [auto|].
      injection K2 as <- <-. auto.
    Qed.

    Lemma collect_env : forall ts acc w v w', forallb (computes en) ts = true -> env w = en ->
      collect L ev acc ts w = Ok (v, w') -> env w' = en.
    Proof.
      induction ts as [|t ts IH]; intros acc w v w' H HE; cbn [collect].
      { destruct acc; [|discriminate]. intros K. injection K as <- <-. auto. }
      simpl in H. apply andb_true_iff in H. destruct H as [H1 H2].
      intros K. apply bind_ok in K. destruct K as [[u w1] [K1 K2]].
      pose proof (Hev _ _ _ _ H1 HE K1) as E1.
      destruct u as [[e|k|g|y ps b|m]|]; try discriminate;
        try (injection K2 as <- <-; auto).
      apply bind_ok in K2. destruct K2 as [l [K3 K4]]. eapply IH; eauto.
    Qed.
  End Env.

  Lemma value_of_env f l w v w' : harmless_fn f = true -> value_of L f l w = Ok (v, w') ->
    env w' = env w.
  Proof.
    intros H K.
    destruct f; try discriminate H; simpl in K;
      repeat match type of K with
      | match ?x with _ => _ end = _ => destruct x; try discriminate K
      end;
      try (apply bind_ok in K; destruct K as [? [_ K]];
           repeat match type of K with
           | match ?x with _ => _ end = _ => destruct x; try discriminate K
           end);
      first [discriminate K|injection K as <- <-; reflexivity].
  Qed.

  Lemma meaning_env : forall n t w v w', computes (env w) t = true ->
    meaning L n t w = Ok (v, w') -> env w' = env w.
  Proof.
    induction n as [|n IH]; intros t w v w' C; [discriminate|].
    assert (Hev : forall t0 w0 v0 w1, computes (env w) t0 = true -> env w0 = env w ->
      meaning L n t0 w0 = Ok (v0, w1) -> env w1 = env w).
    { intros t0 w0 v0 w1 C0 E0 K. rewrite <- E0. rewrite <- E0 in C0. eapply IH; eauto. }
    destruct t as [e|l|c a b|x|f args|f|x t|x ps body]; cbn [meaning]; try discriminate C.
    - intros K; injection K as <- <-; auto.
    - intros K. eapply collect_env; eauto.
    - simpl in C. apply andb_true_iff in C. destruct C as [C C3].
      apply andb_true_iff in C. destruct C as [C1 C2].
      intros K. apply bind_ok in K. destruct K as [[u w1] [K1 K2]].
      pose proof (Hev _ _ _ _ C1 eq_refl K1) as E1.
      destruct u as [[y|k|g|y ps bd|m]|]; try discriminate; try (injection K2 as <- <-; auto).
      apply bind_ok in K2. destruct K2 as [[|] [_ K2]];
        [exact (Hev _ _ _ _ C3 E1 K2)|exact (Hev _ _ _ _ C2 E1 K2)].
    - intros K; injection K as <- <-; auto.
    - intros K. apply bind_ok in K. destruct K as [[u w1] [K1 K2]].
      assert (E1 : env w1 = env w /\ forallb (computes (env w)) args = true /\ harmless_val u = true).
      { destruct n as [|n]; [discriminate K1|].
        destruct f; try discriminate C; cbn [meaning] in K1; injection K1 as <- <-;
          simpl in C; apply andb_true_iff in C; destruct C as [C1 C2]; split; auto; split; auto.
        unfold lookup. unfold harmless_val in C1.
        destruct (assoc x (reserved_vals L)); [exact C1|].
        destruct (env w x); [exact C1|reflexivity]. }
      destruct E1 as [E1 [C2 C3]].
      destruct u as [[y|k|g|y ps bd|m]|]; try discriminate.
      + destruct args as [|t1 ts]; [discriminate|].
        simpl in C2. apply andb_true_iff in C2. destruct C2 as [C4 C5].
        apply bind_ok in K2. destruct K2 as [[u w2] [K3 K4]].
        pose proof (Hev _ _ _ _ C4 E1 K3) as E2.
        destruct u as [[e|k2|g|y ps bd|m]|]; try discriminate.
        apply bind_ok in K4. destruct K4 as [e' [_ K4]]. injection K4 as <- <-. auto.
      + destruct (List.length args =? arity g)%nat.
        * apply bind_ok in K2. destruct K2 as [[r w2] [K3 K4]].
          assert (E2 : env w2 = env w) by (eapply values_env; [exact Hev|exact C2|exact E1|exact K3]).
          destruct r as [m|l].
          -- injection K4 as <- <-. auto.
          -- rewrite <- E2. eapply value_of_env; eauto.
        * injection K2 as <- <-. auto.
      + injection K2 as <- <-. auto.
    - intros K; injection K as <- <-; auto.
  Qed.

  Definition view (s : state) : world := W (look L s) (rcount s) (sout s).
  Lemma R_view s : R L s (view s).
  Proof. repeat split; auto. Qed.

  Lemma stmt_env n t w w' : computes (env w) t = true -> stmt_meaning L n t w = Ok w' ->
    env w' = env w.
  Proof.
    intros C K. unfold stmt_meaning in K. apply bind_ok in K. destruct K as [[v w1] [K1 K2]].
    pose proof (meaning_env _ _ _ _ _ C K1) as E. injection K2 as <-.
    destruct v as [[]|]; simpl; auto; destruct (is_assign L t); simpl; auto.
  Qed.

  Lemma reach n prog s : forallb clean prog = true ->
    eval_program L n prog (boot L) = Ok s -> wf L s.
  Proof.
    intros C K. pose proof (program_sim L n prog _ _ C (boot_wf L) (boot_R L)) as S.
    rewrite K in S. destruct (program_meaning L n prog (start L)); simpl in S; try contradiction.
    apply S.
  Qed.

  Theorem value_semantics n prog : forallb clean prog = true ->
    agree (fun s w => (forall x, look L s x = env w x) /\ sout s = out w)
      (eval_program L n prog (boot L)) (program_meaning L n prog (start L)).
  Proof.
    intros C. eapply sim_weaken; [|exact (program_sim L n prog _ _ C (boot_wf L) (boot_R L))].
    intros s w [_ [[A [_ B]] _]]. auto.
  Qed.

  Theorem expression_keeps n prog s m t s' : forallb clean prog = true ->
    eval_program L n prog (boot L) = Ok s -> computes (look L s) t = true ->
    eval_stmt L m t s = Ok s' -> forall x, look L s' x = look L s x.
  Proof.
    intros C K CT K2 x. pose proof (reach _ _ _ C K) as W.
    destruct (computes_clean _ _ CT) as [CC _].
    pose proof (stmt_sim L m t s (view s) CC W (R_view s)) as S. rewrite K2 in S.
    destruct (stmt_meaning L m t (view s)) as [w'| | |] eqn:E; simpl in S; try contradiction.
    destruct S as [_ [[S _] _]]. rewrite S.
    rewrite (stmt_env m t (view s) w' CT E). reflexivity.
  Qed.

  (** ** Integer expressions *)

  Section Int.
    Variable num : Z -> elem L.
    Hypothesis HI : integers L num.
    Variable rho : string -> option Z.

    Definition reads (w : world) : Prop := forall x,
      match rho x with
      | Some z => lookup L x w = Some (VElem (num z))
      | None => forall e, lookup L x w <> Some (VElem e)
      end.
    Definition fits (o : option Z) (v : val) : Prop :=
      match o with Some z => v = VElem (num z) | None => type_of v <> TElem end.

    Lemma fits_check o v : fits o v ->
      vtype_eqb (type_of v) TElem = match o with Some _ => true | None => false end.
    Proof.
      unfold fits. destruct o as [z|]; [intros ->; reflexivity|].
      destruct v; simpl; congruence.
    Qed.

    Lemma relation_sgn o x y : order_holds o (Z.sgn (x - y)) = relation_z o x y.
    Proof.
      destruct (Z.sgn_spec (x - y)) as [[A ->]|[[A ->]|[A ->]]]; destruct o; simpl;
        repeat match goal with
        | |- context [Z.eqb ?a ?b] => destruct (Z.eqb_spec a b)
        | |- context [Z.leb ?a ?b] => destruct (Z.leb_spec a b)
        | |- context [Z.ltb ?a ?b] => destruct (Z.ltb_spec a b)
        end; simpl; auto; lia.
    Qed.

    Lemma two_args n f (a b : tree) w va vb oa ob :
      sig f = [Some TElem; Some TElem] ->
      meaning L n a w = Ok (Some va, w) -> meaning L n b w = Ok (Some vb, w) ->
      fits oa va -> fits ob vb ->
      match oa, ob with
      | Some x, Some y =>
        values L (meaning L n) f 0 [a; b] w = Ok (inr [Some (VElem (num x)); Some (VElem (num y))], w)
      | _, _ => exists m, values L (meaning L n) f 0 [a; b] w = Ok (inl m, w)
      end.
    Proof.
      intros HS Ha Hb Fa Fb. cbn [values]. rewrite HS. cbn [nth]. rewrite Ha. cbn [bind].
      rewrite (fits_check _ _ Fa).
      destruct oa as [x|]; [|eauto]. rewrite Hb. cbn [bind]. rewrite (fits_check _ _ Fb).
      destruct ob as [y|]; simpl; eauto.
      unfold fits in *. subst. reflexivity.
    Qed.

    Lemma call_fn n f (args : list tree) w : 0 < n ->
      meaning L (S n) (Call (Fn f) args) w =
      if (List.length args =? arity f)%nat then
        q <- values L (meaning L n) f 0 args w ;;
        let '(r, w2) := q in
        match r with
        | inl s => Ok (Some (VErr s), w2)
        | inr l => value_of L f l w2
        end
      else Ok (Some (VErr (arity_error (fn_name f))), w).
    Proof. destruct n; [lia|reflexivity]. Qed.
    Lemma height_pos e : 0 < height e.
    Proof. destruct e; simpl; lia. Qed.

    Lemma int_meaning : forall e n w, height e <= n -> reads w ->
      exists v, meaning L n (itree num e) w = Ok (Some v, w) /\ fits (ivalue rho e) v.
    Proof.
      destruct HI as [I1 I2 I3 I4 I5].
      induction e as [z|x|a IHa|o a IHa b IHb|o a IHa b IHb|c IHc a IHa b IHb];
        intros [|n] w Hn Hr; simpl in Hn; try lia.
      - exists (VElem (num z)). split; reflexivity.
      - cbn [itree meaning ivalue]. pose proof (Hr x) as K. destruct (rho x) as [z|].
        + rewrite K. eexists; split; reflexivity.
        + eexists; split; [reflexivity|].
          destruct (lookup L x w) as [[e|k|g|y ps b|m]|]; simpl; try discriminate.
          exfalso. exact (K e eq_refl).
      - destruct (IHa n w ltac:(lia) Hr) as [v [Kv Fv]].
        pose proof (height_pos a) as Hp.
        cbn [itree ivalue]. rewrite call_fn by lia. cbn [arity List.length Nat.eqb].
        cbn [values]. cbn [sig nth]. rewrite Kv. simpl. rewrite (fits_check _ _ Fv).
        destruct (ivalue rho a) as [z|]; simpl.
        + unfold fits in Fv. subst v. simpl. rewrite I2. simpl.
          eexists; split; reflexivity.
        + eexists; split; [reflexivity|]. simpl. discriminate.
      - destruct (IHa n w ltac:(lia) Hr) as [va [Ka Fa]].
        destruct (IHb n w ltac:(lia) Hr) as [vb [Kb Fb]].
        pose proof (two_args n (Arith (iop_fn o)) _ _ w _ _ _ _ eq_refl Ka Kb Fa Fb) as T.
        pose proof (height_pos a) as Hp.
        cbn [itree ivalue]. rewrite call_fn by lia. cbn [arity List.length Nat.eqb].
        destruct (ivalue rho a) as [x|], (ivalue rho b) as [y|].
        + rewrite T. cbn [bind value_of]. rewrite I1. cbn [bind]. eexists; split; reflexivity.
        + destruct T as [m ->]. eexists; split; [reflexivity|]. simpl. discriminate.
        + destruct T as [m ->]. eexists; split; [reflexivity|]. simpl. discriminate.
        + destruct T as [m ->]. eexists; split; [reflexivity|]. simpl. discriminate.
      - destruct (IHa n w ltac:(lia) Hr) as [va [Ka Fa]].
        destruct (IHb n w ltac:(lia) Hr) as [vb [Kb Fb]].
        pose proof (two_args n (Order o) _ _ w _ _ _ _ eq_refl Ka Kb Fa Fb) as T.
        pose proof (height_pos a) as Hp.
        cbn [itree ivalue]. rewrite call_fn by lia. cbn [arity List.length Nat.eqb].
        destruct (ivalue rho a) as [x|], (ivalue rho b) as [y|].
        + rewrite T. cbn [bind value_of]. rewrite I3. cbn [bind].
          rewrite relation_sgn, I5. eexists; split; reflexivity.
        + destruct T as [m ->]. eexists; split; [reflexivity|]. simpl. discriminate.
        + destruct T as [m ->]. eexists; split; [reflexivity|]. simpl. discriminate.
        + destruct T as [m ->]. eexists; split; [reflexivity|]. simpl. discriminate.
      - destruct (IHc n w ltac:(lia) Hr) as [vc [Kc Fc]].
        destruct (IHa n w ltac:(lia) Hr) as [va [Ka Fa]].
        destruct (IHb n w ltac:(lia) Hr) as [vb [Kb Fb]].
        cbn [itree meaning ivalue]. rewrite Kc. cbn [bind].
        destruct (ivalue rho c) as [z|]; unfold fits in Fc.
        + subst vc. rewrite I4. cbn [bind]. destruct (z =? 0)%Z; eauto.
        + destruct vc as [e|k|g|y ps bd|m]; simpl in Fc; try congruence;
            (eexists; split; [reflexivity|]; simpl; discriminate).
    Qed.

    Lemma itree_clean : forall e, clean (itree num e) = true /\ exposes (itree num e) = false /\
      is_assign L (itree num e) = false.
    Proof.
      induction e as [z|x|a IHa|o a IHa b IHb|o a IHa b IHb|c IHc a IHa b IHb]; simpl; auto.
      - destruct IHa as [-> [-> _]]. auto.
      - destruct IHa as [-> [-> _]]. destruct IHb as [-> [-> _]]. auto.
      - destruct IHa as [-> [-> _]]. destruct IHb as [-> [-> _]]. auto.
      - destruct IHc as [-> _]. destruct IHa as [-> [-> _]]. destruct IHb as [-> [-> _]]. auto.
    Qed.

    Theorem int_stmt n prog s e m : forallb clean prog = true ->
      eval_program L n prog (boot L) = Ok s -> height e <= m -> reads (view s) ->
      exists s' v, eval_stmt L m (itree num e) s = Ok s' /\
        sout s' = Shown v :: sout s /\ (forall x, look L s' x = look L s x) /\
        match ivalue rho e with
        | Some z => v = VElem (num z)
        | None => type_of v <> TElem
        end.
    Proof.
      intros C K Hm Hr. pose proof (reach _ _ _ C K) as W.
      destruct (itree_clean e) as [CE [_ NA]].
      pose proof (stmt_sim L m (itree num e) s (view s) CE W (R_view s)) as S.
      destruct (int_meaning e m (view s) Hm Hr) as [v [Kv Fv]].
      unfold stmt_meaning in S. rewrite Kv in S. cbn [bind] in S.
      destruct (eval_stmt L m (itree num e) s) as [s'| | |] eqn:E; simpl in S; try contradiction.
      destruct S as [_ [[S1 [S2 S3]] _]].
      exists s', v. split; [reflexivity|].
      rewrite NA in S1, S3.
      split; [|split; [|exact Fv]].
      - rewrite S3. destruct v; reflexivity.
      - intros x. rewrite S1. destruct v; reflexivity.
    Qed.
  End Int.

  (** ** All programs: what is not an element never changes *)

  Definition keeps (s s' : state) : Prop :=
    reserved s' = reserved s /\
    forall a v, nth_error (heap s) a = Some v -> type_of v <> TElem ->
      nth_error (heap s') a = Some v.

  Lemma keeps_refl s : keeps s s.
  Proof. split; auto. Qed.
  Lemma keeps_trans s1 s2 s3 : keeps s1 s2 -> keeps s2 s3 -> keeps s1 s3.
  Proof. intros [A B] [C D]. split; [congruence|auto]. Qed.
  Lemma keeps_new v s : keeps s (snd (new L v s)).
  Proof.
    split; [reflexivity|]. simpl. intros a u H _.
    rewrite nth_error_app1; eauto using nth_lt.
  Qed.
  Lemma keeps_tab s x a : keeps s (set_tab L x a s).
  Proof. split; auto. Qed.
  Lemma keeps_print s l : keeps s (print L l s).
  Proof. split; auto. Qed.
  Lemma keeps_store s a e e' s' : get_elem L a s = Ok e -> set_elem L a e' s = Ok s' -> keeps s s'.
  Proof.
    unfold get_elem, set_elem, deref. destruct a as [i|]; [|discriminate].
    destruct (nth_error (heap s) i) as [v|] eqn:E; [|discriminate]. simpl.
    destruct v; try discriminate. intros _ K. injection K as <-.
    split; [reflexivity|]. simpl. intros a v H T.
    rewrite upd_other; auto. intros ->. rewrite E in H. injection H as <-. apply T. reflexivity.
  Qed.

  Lemma keeps_assign_field s f x : keeps s (assign_field L f x s).
  Proof.
    unfold assign_field. simpl. eapply keeps_trans; [apply (keeps_new (VField f))|apply keeps_tab].
  Qed.

  Lemma run_keeps f l s r s' : run L f l s = Ok (r, s') -> keeps s s'.
  Proof.
    assert (NE : forall e s1 r s2, new L e s1 = (r, s2) -> keeps s1 s2)
      by (intros e s1 r1 s2 H; pose proof (keeps_new e s1) as K; rewrite H in K; exact K).
    assert (IP : forall op a, in_place L op a s = Ok (r, s') -> keeps s s').
    { intros op a K. unfold in_place in K.
      apply bind_ok in K. destruct K as [e [K1 K]].
      apply bind_ok in K. destruct K as [e' [K2 K]].
      apply bind_ok in K. destruct K as [s1 [K3 K]]. injection K as <- <-.
      eapply keeps_store; eauto. }
    assert (NK : forall e s1, keeps s s1 -> Ok (new L e s1) = Ok (r, s') -> keeps s s').
    { intros e s1 K1 H. apply (keeps_trans _ s1); [exact K1|]. apply (NE e s1 r s'). congruence. }
    pose proof (keeps_refl s) as KR.
    intros K. unfold run in K.
    destruct f; destruct l as [|a [|b [|c l]]]; try discriminate K;
      try (eapply IP; exact K);
      try (repeat (let e := fresh "e" in let H := fresh "H" in
              apply bind_ok in K; destruct K as [e [H K]]);
           first [eapply NK; [|exact K]; exact KR
                 |injection K as <- <-; eapply keeps_store; [|eassumption]; eassumption
                 |discriminate K
                 |injection K as <- <-; apply keeps_print]).
    - (* CHECK *)
      apply bind_ok in K. destruct K as [e [H K]].
      apply bind_ok in K. destruct K as [[|] [H2 K]]; [discriminate|].
      injection K as <- <-. exact KR.
    - injection K as <- <-. unfold init_pairing.
      repeat (eapply keeps_trans; [|apply keeps_assign_field]). exact KR.
  Qed.

  Section AllStep.
    Variable ev : tree -> state -> res (option nat * state).
    Hypothesis Hev : forall t s r s', ev t s = Ok (r, s') -> keeps s s'.

    Lemma new_error_keeps m s r s' : new_error L m s = (r, s') -> keeps s s'.
    Proof.
      intros H. pose proof (keeps_new (VErr (substring 0 79 m)) s) as K.
      unfold new_error in H. rewrite H in K. exact K.
    Qed.
    Lemma new_keeps v s r s' : new L v s = (r, s') -> keeps s s'.
    Proof. intros H. pose proof (keeps_new v s) as K. rewrite H in K. exact K. Qed.

    Lemma args_keeps f : forall ts i s r s', eval_args L ev f i ts s = Ok (r, s') -> keeps s s'.
    Proof.
      induction ts as [|t ts IH]; intros i s r s'; cbn [eval_args].
      { intros K. injection K as <- <-. apply keeps_refl. }
      intros K. apply bind_ok in K. destruct K as [[a s1] [K1 K]].
      apply bind_ok in K. destruct K as [bad [_ K]].
      apply (keeps_trans _ s1); [eauto|].
      destruct bad.
      - match type of K with context [new_error L ?m s1] =>
          destruct (new_error L m s1) as [e s2] eqn:E end.
        injection K as <- <-. exact (new_error_keeps _ _ _ _ E).
      - apply bind_ok in K. destruct K as [[r2 s2] [K2 K]]. injection K as <- <-. eauto.
    Qed.
    Lemma body_keeps : forall ts s s', eval_body L ev ts s = Ok s' -> keeps s s'.
    Proof.
      induction ts as [|t ts IH]; intros s s'; cbn [eval_body].
      { intros K. injection K as <-. apply keeps_refl. }
      intros K. apply bind_ok in K. destruct K as [[a s1] [K1 K]].
      apply (keeps_trans _ s1); eauto.
    Qed.
    Lemma parms_keeps : forall ps ts s s', eval_parms L ev ps ts s = Ok s' -> keeps s s'.
    Proof.
      induction ps as [|p ps IH]; intros [|t ts] s s'; cbn [eval_parms];
        try (intros K; injection K as <-; apply keeps_refl).
      intros K. apply bind_ok in K. destruct K as [[a s1] [K1 K]].
      apply (keeps_trans _ s1); [eauto|].
      apply (keeps_trans _ (set_tab L p a s1)); [apply keeps_tab|eauto].
    Qed.
    Lemma list_keeps : forall ts e s r s', eval_list L ev e ts s = Ok (r, s') -> keeps s s'.
    Proof.
      induction ts as [|t ts IH]; intros e s r s'; cbn [eval_list].
      { destruct e as [l|]; [|discriminate]. intros K.
        apply (new_keeps (VElem l) s r s'). congruence. }
      intros K. apply bind_ok in K. destruct K as [[a s1] [K1 K]].
      apply (keeps_trans _ s1); [eauto|].
      apply bind_ok in K. destruct K as [x [_ K]].
      destruct x as [y|k|g|y ps b|m].
      - apply bind_ok in K. destruct K as [l [_ K]]. eauto.
      - apply (new_error_keeps "element expected in list" s1 r s'). congruence.
      - apply (new_error_keeps "element expected in list" s1 r s'). congruence.
      - apply (new_error_keeps "element expected in list" s1 r s'). congruence.
      - injection K as <- <-. apply keeps_refl.
    Qed.
    Lemma cast_keeps k ts s r s' : v_field_cast L ev k ts s = Ok (r, s') -> keeps s s'.
    Proof.
      unfold v_field_cast. destruct ts as [|t ts]; [discriminate|].
      intros K. apply bind_ok in K. destruct K as [[x s1] [K1 K]].
      apply (keeps_trans _ s1); [eauto|].
      apply bind_ok in K. destruct K as [e [KE K]].
      destruct (l_is_int L (l_field L e)), (l_is_int L k).
      - injection K as <- <-. apply keeps_refl.
      - apply bind_ok in K. destruct K as [z [_ K]].
        apply bind_ok in K. destruct K as [e2 [_ K]].
        apply bind_ok in K. destruct K as [s2 [K2 K]]. injection K as <- <-.
        eapply keeps_store; eauto.
      - apply bind_ok in K. destruct K as [e2 [_ K]].
        apply bind_ok in K. destruct K as [s2 [K2 K]]. injection K as <- <-.
        eapply keeps_store; eauto.
      - injection K as <- <-. apply keeps_refl.
    Qed.
    Lemma builtin_keeps f ts s r s' : v_builtin L ev f ts s = Ok (r, s') -> keeps s s'.
    Proof.
      unfold v_builtin. destruct (_ =? _).
      - intros K. apply bind_ok in K. destruct K as [[x s1] [K1 K]].
        apply (keeps_trans _ s1); [eapply args_keeps; eauto|].
        destruct x as [e|l].
        + injection K as <- <-. apply keeps_refl.
        + eapply run_keeps; eauto.
      - intros K. apply (new_error_keeps (fs_name (table f) ++ ": wrong number of arguments") s r s').
        congruence.
    Qed.
    Lemma def_call_keeps x ps body ts s r s' :
      v_def_call L ev x ps body ts s = Ok (r, s') -> keeps s s'.
    Proof.
      unfold v_def_call. destruct (_ =? _).
      - intros K. apply bind_ok in K. destruct K as [s1 [K1 K]].
        apply bind_ok in K. destruct K as [s2 [K2 K]]. injection K as <- <-.
        apply (keeps_trans _ s1); [eapply parms_keeps; eauto|eapply body_keeps; eauto].
      - intros K. apply (new_error_keeps (x ++ ": wrong number of arguments") s r s').
        congruence.
    Qed.
    Lemma v_eval_keeps a s r s' : v_eval L a s = Ok (r, s') -> keeps s s'.
    Proof.
      unfold v_eval. intros K. apply bind_ok in K. destruct K as [x [_ K]].
      destruct x as [e|k|g|y ps b|m]; try (injection K as <- <-; apply keeps_refl).
      apply (new_keeps (VElem e) s r s'). congruence.
    Qed.
  End AllStep.

  Theorem eval_keeps : forall n t s r s', eval L n t s = Ok (r, s') -> keeps s s'.
  Proof.
    induction n as [|n IH]; intros t s r s'; [discriminate|].
    destruct t as [e|l|c a b|x|f args|f|x t|x ps body]; cbn [eval].
    - intros K. apply (new_keeps (VElem e) s r s'). congruence.
    - intros K. eapply list_keeps; eauto.
    - intros K. apply bind_ok in K. destruct K as [[x s1] [K1 K]].
      apply (keeps_trans _ s1); [eauto|].
      apply bind_ok in K. destruct K as [v [_ K]].
      destruct v as [e|k|g|y ps bd|m];
        try (apply (new_error_keeps "element expected in ternary operator" s1 r s'); congruence).
      + apply bind_ok in K. destruct K as [[|] [_ K]]; eapply IH; exact K.
      + injection K as <- <-. apply keeps_refl.
    - destruct (at_ (reserved s) x) as [a|]; [apply v_eval_keeps|].
      destruct (at_ (tab s) x) as [a|]; [apply v_eval_keeps|].
      intros K. apply (new_error_keeps ("undefined variable " ++ x) s r s'). congruence.
    - intros K. apply bind_ok in K. destruct K as [[x s1] [K1 K]].
      apply (keeps_trans _ s1); [eauto|].
      apply bind_ok in K. destruct K as [v [_ K]].
      destruct v as [e|k|g|y ps bd|m]; try discriminate.
      + eapply cast_keeps; eauto.
      + eapply builtin_keeps; eauto.
      + eapply def_call_keeps; eauto.
      + injection K as <- <-. apply keeps_refl.
    - intros K. apply (new_keeps (VFun f) s r s'). congruence.
    - intros K. apply bind_ok in K. destruct K as [[a s1] [K1 K]].
      apply (keeps_trans _ s1); [eauto|].
      destruct (at_ (reserved s1) x).
      + apply (new_error_keeps (x ++ " is reserved") s1 r s'). congruence.
      + injection K as <- <-. apply keeps_tab.
    - intros K. injection K as <- <-.
      eapply keeps_trans; [apply (keeps_new (VDef x ps body))|apply keeps_tab].
  Qed.

  Lemma program_keeps n : forall ts s s', eval_program L n ts s = Ok s' -> keeps s s'.
  Proof.
    induction ts as [|t ts IH]; intros s s'; cbn [eval_program].
    { intros K. injection K as <-. apply keeps_refl. }
    intros K. apply bind_ok in K. destruct K as [s1 [K1 K]].
    apply (keeps_trans _ s1); [|eauto].
    unfold eval_stmt in K1. apply bind_ok in K1. destruct K1 as [[a s2] [K2 K1]].
    apply (keeps_trans _ s2); [eapply eval_keeps; eauto|].
    destruct a as [a|]; [|injection K1 as <-; apply keeps_refl].
    apply bind_ok in K1. destruct K1 as [v [_ K1]].
    destruct v; try (destruct t); injection K1 as <-; first [apply keeps_print|apply keeps_refl].
  Qed.

  Lemma assoc_in A x (v : A) : forall l, assoc x l = Some v -> In (x, v) l.
  Proof.
    induction l as [|[y u] l IH]; [discriminate|]. unfold assoc; fold (@assoc A).
    destruct (String.eqb_spec x y) as [->|M]; [|right; auto].
    intros E. left. congruence.
  Qed.

  (** A reserved name means the same after every program. *)
  Theorem reserved_fixed n prog s x v : eval_program L n prog (boot L) = Ok s ->
    assoc x (reserved_vals L) = Some v ->
    forall m, exists a, eval L (S m) (Id x) s = Ok (Some a, s) /\ nth_error (heap s) a = Some v.
  Proof.
    intros K HA m. destruct (program_keeps _ _ _ _ K) as [K1 K2].
    pose proof (wf_res _ _ (boot_wf L) x) as B. rewrite HA in B.
    assert (NE : type_of v <> TElem).
    { intros T.
      apply assoc_in in HA. unfold reserved_vals in HA. rewrite in_app_iff, in_map_iff in HA.
      destruct HA as [[f [H1 _]]|[H1|[H1|[]]]]; injection H1 as _ <-; discriminate. }
    destruct (at_ (reserved (boot L)) x) as [a|] eqn:E; [|contradiction].
    exists a. pose proof (K2 _ _ B NE) as H. split; [|exact H].
    cbn [eval]. rewrite K1, E. unfold v_eval, deref. rewrite H. simpl.
    destruct v; try reflexivity. exfalso. apply NE. reflexivity.
  Qed.

  (** Assigning to a reserved name reports an error and binds nothing. *)
  Theorem reserved_assign n prog s x v m t r s' : eval_program L n prog (boot L) = Ok s ->
    assoc x (reserved_vals L) = Some v -> eval L (S m) (Assign x t) s = Ok (r, s') ->
    exists a u s1, r = Some a /\ eval L m t s = Ok (u, s1) /\ tab s' = tab s1 /\
      nth_error (heap s') a = Some (VErr (message (x ++ " is reserved"))).
  Proof.
    intros K HA KE. cbn [eval] in KE. apply bind_ok in KE. destruct KE as [[u s1] [KE K3]].
    destruct (program_keeps _ _ _ _ K) as [K1 _].
    destruct (eval_keeps _ _ _ _ _ KE) as [K4 _].
    pose proof (wf_res _ _ (boot_wf L) x) as B. rewrite HA in B.
    rewrite K4, K1 in K3.
    destruct (at_ (reserved (boot L)) x) as [a|]; [|contradiction].
    unfold new_error, new in K3. injection K3 as <- <-.
    exists (List.length (heap s1)), u, s1. split; [reflexivity|]. split; [exact KE|].
    split; [reflexivity|]. simpl. rewrite nth_error_app2 by lia. rewrite Nat.sub_diag. reflexivity.
  Qed.

  (** [extend] never succeeds. *)
  Theorem extend_fails n s args r s' : eval L n (Call (Fn Extend) args) s = Ok (r, s') ->
    exists a m, r = Some a /\ nth_error (heap s') a = Some (VErr m).
  Proof.
    destruct n as [|[|n]]; [discriminate|discriminate|].
    remember (S n) as k. cbn [eval]. subst k.
    change (eval L (S n) (Fn Extend) s) with (Ok (new L (VFun Extend) s)).
    remember (eval L (S n)) as ev. cbn [bind]. unfold new at 1.
    set (s1 := St (heap s ++ [VFun Extend]) _ _ _ _).
    assert (D : deref L (Some (List.length (heap s))) s1 = Ok (VFun Extend)).
    { unfold deref, s1. simpl. rewrite nth_error_app2 by lia. rewrite Nat.sub_diag. reflexivity. }
    rewrite D. cbn [bind]. unfold v_builtin.
    assert (NE : forall m s2 r2 s3, new_error L m s2 = (r2, s3) ->
      exists a m, r2 = Some a /\ nth_error (heap s3) a = Some (VErr m)).
    { intros m s2 r2 s3 H. unfold new_error, new in H. injection H as <- <-.
      eexists. eexists. split; [reflexivity|]. simpl.
      rewrite nth_error_app2 by lia. rewrite Nat.sub_diag. reflexivity. }
    destruct (_ =? _).
    - intros K. apply bind_ok in K. destruct K as [[x s2] [K1 K]].
      destruct x as [e|l]; [|destruct l as [|? [|? [|? ?]]]; discriminate K].
      injection K as <- <-.
      assert (GA : forall ts i s3, eval_args L ev (table Extend) i ts s3 = Ok (inl e, s2) ->
        exists a m, e = Some a /\ nth_error (heap s2) a = Some (VErr m)).
      { induction ts as [|t ts IH]; intros i s3; cbn [eval_args]; [discriminate|].
        intros K. apply bind_ok in K. destruct K as [[a s4] [_ K]].
        apply bind_ok in K. destruct K as [bad [_ K]].
        destruct bad.
        - match type of K with context [new_error L ?m s4] =>
            destruct (new_error L m s4) as [e2 s5] eqn:E end.
          injection K as <- <-. exact (NE _ _ _ _ E).
        - apply bind_ok in K. destruct K as [[r2 s5] [K2 K]].
          destruct r2 as [e2|l]; injection K; [intros <- <-|discriminate]. eauto. }
      eapply GA; eauto.
    - intros K. apply (NE (fs_name (table Extend) ++ ": wrong number of arguments")%string s1 r s').
      injection K as <- <-. reflexivity.
  Qed.
End Use.
