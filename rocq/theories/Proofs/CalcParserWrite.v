(** The parser of the calculator reads back what is written with the
    parentheses its precedences call for. *)
From Coq Require Import ZArith List Bool String Arith Lia.
From Verif.Base Require Import Outcome.
From Verif.Spec Require Import Calculator CalcSyntax.
From Verif.Model Require Import CalcParser.
From Verif.Proofs Require Import CalcParserFacts.
Import ListNotations.
Open Scope list_scope.
Open Scope nat_scope.

Section Write.
  Context {E : Type}.
  Notation tok := (tok E).
  Notation tree := (tree E).
  Notation src := (src E).
  Notation stmt := (stmt E).
  Notation sym := (@sym E).

  Section Induction.
    Variable P : src -> Prop.
    Hypothesis HNum : forall e, P (SNum e).
    Hypothesis HId : forall x, P (SId x).
    Hypothesis HList : forall a l, P a -> Forall P l -> P (SList a l).
    Hypothesis HCall : forall f l, P f -> Forall P l -> P (SCall f l).
    Hypothesis HItem : forall a i, P a -> P i -> P (SItem a i).
    Hypothesis HBin : forall o a b, P a -> P b -> P (SBin o a b).
    Hypothesis HNeg : forall a, P a -> P (SNeg a).
    Hypothesis HGroup : forall a, P a -> P (SGroup a).
    Hypothesis HAssign : forall x a, P a -> P (SAssign x a).
    Hypothesis HTern : forall c a b, P c -> P a -> P b -> P (STern c a b).
    Fixpoint src_induction (a : src) : P a :=
      let all := fix all (l : list src) : Forall P l :=
        match l with
        | [] => Forall_nil P
        | b :: r => Forall_cons b (src_induction b) (all r)
        end in
      match a with
      | SNum e => HNum e
      | SId x => HId x
      | SList a l => HList a l (src_induction a) (all l)
      | SCall f l => HCall f l (src_induction f) (all l)
      | SItem a i => HItem a i (src_induction a) (src_induction i)
      | SBin o a b => HBin o a b (src_induction a) (src_induction b)
      | SNeg a => HNeg a (src_induction a)
      | SGroup a => HGroup a (src_induction a)
      | SAssign x a => HAssign x a (src_induction a)
      | STern c a b => HTern c a b (src_induction c) (src_induction a) (src_induction b)
      end.
  End Induction.

  (** What follows binds at most as tightly as [f]. *)
  Definition follows (f : nat) (la : tok) : Prop :=
    match infix (Some la) with Some m => m <= f | None => True end.
  Lemma follows_stops n f la : n = 3 \/ n = 6 -> f <= n -> plain la -> follows f la -> stops n la.
  Proof.
    unfold follows, stops, reduces. intros Hn Hf Hp H. split; auto. destruct la; auto; simpl in *.
    - apply orb_true_iff; left. apply Nat.ltb_lt. unfold prec_question in *. lia.
    - assert (op_prec o <> n) by (destruct Hn; subst; destruct o as [[]|[]]; simpl; lia).
      apply orb_true_iff; left. apply Nat.ltb_lt. lia.
  Qed.
  Definition Reads (a : src) : Prop := forall p f s la rest,
    place p s -> needs p f a = false -> plain la -> follows f la ->
    (prefixed a = false -> stops (level a) la) ->
    steps (s, wr 0 f a ++ la :: rest) (Ex (tree_of a) :: s, la :: rest).
  Definition ReadsOperand (a : src) : Prop := level a = 9 -> forall p f s la rest,
    place p s -> la <> ASSIGN ->
    steps (s, wr 0 f a ++ la :: rest) (Mo (tree_of a) :: s, la :: rest).

  Lemma shift s (t : tok) rest c : act s (Some t) = Shift -> steps (T t :: s, rest) c ->
    steps (s, t :: rest) c.
  Proof. intros H. apply s_step. unfold next; simpl. rewrite H. reflexivity. Qed.
  Lemma reduce s s' (la : tok) rest c : act s (Some la) = Reduce s' -> steps (s', la :: rest) c ->
    steps (s, la :: rest) c.
  Proof. intros H. apply s_step. unfold next; simpl. rewrite H. reflexivity. Qed.

  Lemma operand_done s m (la : tok) rest : plain la ->
    steps (Mo m :: s, la :: rest) (Ex m :: s, la :: rest).
  Proof. intros H. apply reduce with (Ex m :: s); [|apply s_refl]. destruct la; simpl in *; tauto. Qed.

  Lemma in_parens a : Reads a -> forall p s la rest, place p s ->
    steps (s, paren true (wr 0 0 a) ++ la :: rest) (Mo (tree_of a) :: s, la :: rest).
  Proof.
    intros Ha p s la rest Hp. simpl. rewrite <- app_assoc. simpl.
    apply shift; [eapply place_starts; eauto|].
    eapply steps_trans; [apply (Ha 0 0); [eapply p_paren; eauto|apply needs_0|exact I|exact I|split; simpl; auto]|].
    apply shift; [|].
    { destruct Hp; reflexivity. }
    eapply reduce; [reflexivity|]. apply s_refl.
  Qed.

  Lemma reads_at a : Reads a -> forall p q f s la rest, place p s -> p <= q -> stops q la -> follows f la ->
    steps (s, wr q f a ++ la :: rest) (Ex (tree_of a) :: s, la :: rest).
  Proof.
    intros Ha p q f s la rest Hp Hq Hl Hf. rewrite wr_paren. destruct (needs q f a) eqn:Hn.
    - eapply steps_trans; [eapply in_parens; eauto|]. apply operand_done, Hl.
    - apply (Ha p); auto; [|apply Hl|].
      + revert Hn. unfold needs. destruct (prefixed a); auto. rewrite !Nat.ltb_ge. lia.
      + intros Hpr. apply (stops_more q); auto. revert Hn. unfold needs. rewrite Hpr, Nat.ltb_ge. auto.
  Qed.
  Lemma reads_in a : Reads a -> forall s la rest, place 0 s -> plain la -> infix (Some la) = None ->
    steps (s, wr 0 0 a ++ la :: rest) (Ex (tree_of a) :: s, la :: rest).
  Proof.
    intros Ha s la rest Hp Hl Hi. apply (reads_at a Ha 0 0); auto.
    - split; auto. unfold reduces. rewrite Hi. reflexivity.
    - unfold follows. rewrite Hi. exact I.
  Qed.
  Lemma reads_operand_at a : Reads a -> ReadsOperand a -> forall p s la rest, place p s -> la <> ASSIGN ->
    steps (s, wr 9 9 a ++ la :: rest) (Mo (tree_of a) :: s, la :: rest).
  Proof.
    intros Ha Hm p s la rest Hp Hl. rewrite wr_paren. destruct (needs 9 9 a) eqn:Hn.
    - eapply in_parens; eauto.
    - eapply Hm; eauto. destruct a as [| | | | |[[]|[]]| | | |]; simpl in *; try discriminate; auto.
  Qed.

  Definition tails (l : list src) : list tok :=
    List.concat (map (fun b => COMMA :: b) (map (wr 0 0) l)).
  Lemma tails_next l (close : tok) rest : stops 0 close -> infix (Some close) = None ->
    exists la rest', tails l ++ close :: rest = la :: rest' /\ stops 0 la /\ infix (Some la) = None.
  Proof. intros H1 H2. destruct l; simpl; eexists _, _; repeat split; auto; apply H1. Qed.

  Lemma reads_tails (mk : list tree -> sym) (close : tok) :
    stops 0 close -> infix (Some close) = None ->
    (forall ts s, act (mk ts :: s) (Some COMMA) = Shift) ->
    (forall ts s, place 0 (T COMMA :: mk ts :: s)) ->
    (forall ts s e la, infix (E:=E) (Some la) = None ->
       on_expr e (T COMMA :: mk ts :: s) (Some la) = Reduce (mk (ts ++ [e]) :: s)) ->
    forall l, Forall Reads l -> forall acc s rest,
    steps (mk acc :: s, tails l ++ close :: rest) (mk (acc ++ map tree_of l) :: s, close :: rest).
  Proof.
    intros Hc1 Hc2 H1 H2 H3 l. induction 1 as [|a l Ha _ IH]; intros acc s rest.
    - simpl. rewrite app_nil_r. apply s_refl.
    - unfold tails. simpl. fold (tails l). rewrite <- app_assoc. apply shift; [apply H1|].
      destruct (tails_next l close rest Hc1 Hc2) as (la&rest'&Hk&Hl1&Hl2).
      rewrite Hk.
      eapply steps_trans; [eapply (reads_in a Ha); [apply H2|apply Hl1|exact Hl2]|].
      eapply reduce; [apply H3; exact Hl2|]. rewrite <- Hk.
      replace (acc ++ tree_of a :: map tree_of l) with ((acc ++ [tree_of a]) ++ map tree_of l)
        by (rewrite <- app_assoc; reflexivity).
      apply IH.
  Qed.

  Lemma commas_tails a l : commas (map (wr 0 0) (a :: l)) = wr 0 0 a ++ tails l.
  Proof. reflexivity. Qed.

  Lemma reads_args m l s rest : Forall Reads l ->
    steps (T LPAR :: Mo m :: s, commas (map (wr 0 0) l) ++ RPAR :: rest)
          (Mo (Call m (map tree_of l)) :: s, rest).
  Proof.
    intros H. destruct H as [|a l Ha Hl].
    - simpl. eapply reduce; [reflexivity|]. apply shift; [reflexivity|].
      apply steps_one. unfold next; simpl. reflexivity.
    - rewrite commas_tails, <- app_assoc.
      destruct (tails_next l RPAR rest) as (la&rest'&Hk&Hl1&Hl2); [split; simpl; auto|auto|].
      rewrite Hk.
      eapply steps_trans; [eapply (reads_in a Ha); [apply p_arg|apply Hl1|exact Hl2]|].
      eapply reduce.
      { simpl. unfold is_infix. rewrite Hl2. reflexivity. }
      rewrite <- Hk. eapply steps_trans; [apply (reads_tails Args1 RPAR); auto|].
      + split; simpl; auto.
      + intros; constructor.
      + intros. simpl. unfold is_infix. rewrite H. reflexivity.
      + eapply reduce; [reflexivity|]. apply shift; [reflexivity|].
        apply steps_one. unfold next; simpl. reflexivity.
  Qed.
  Lemma reads_seq p a l s rest : place p s -> Reads a -> Forall Reads l ->
    steps (T LSQU :: s, commas (map (wr 0 0) (a :: l)) ++ RSQU :: rest)
          (Ex (ListOf (map tree_of (a :: l))) :: s, rest).
  Proof.
    intros Hp Ha Hl. rewrite commas_tails, <- app_assoc.
    destruct (tails_next l RSQU rest) as (la&rest'&Hk&Hl1&Hl2); [split; simpl; auto|auto|].
    rewrite Hk.
    eapply steps_trans; [eapply (reads_in a Ha); [eapply p_list; eauto|apply Hl1|exact Hl2]|].
    apply reduce with (Seq [tree_of a] :: T LSQU :: s).
    { simpl. unfold is_infix. rewrite Hl2. destruct Hp; reflexivity. }
    rewrite <- Hk. eapply steps_trans; [apply (reads_tails Seq RSQU); auto|].
    - split; simpl; auto.
    - intros; constructor.
    - intros. simpl. unfold is_infix. rewrite H. reflexivity.
    - apply shift; [reflexivity|].
      apply steps_one. unfold next; simpl. reflexivity.
  Qed.

  Lemma op_stops o : stops (left_level o) (OP o : tok).
  Proof. split; [exact I|]. destruct o as [[]|[]]; reflexivity. Qed.
  Lemma level_left p o : p <= bop_level o -> p <= left_level o.
  Proof. destruct o as [[]|[]]; simpl; lia. Qed.
  Lemma level_right o (la : tok) : stops (bop_level o) la -> stops (right_level o) la.
  Proof. apply stops_more. destruct o as [[]|[]]; simpl; lia. Qed.

  Lemma reads_both a : Reads a /\ ReadsOperand a.
  Proof.
    induction a as [e|x|a l [Ha _] Hl|f l [Hf Hf'] Hl|a i [Ha Ha'] [Hi _]|o a b [Ha _] [Hb _]
                   |a [Ha _]|a [Ha _]|x a [Ha _]|c a b [Hc _] [Ha _] [Hb _]] using src_induction.
    - split; [|discriminate]. intros p f s la rest Hp _ Hl _ _. simpl.
      apply shift; [eapply place_starts; eauto|]. eapply reduce; [reflexivity|]. apply s_refl.
    - assert (H : ReadsOperand (SId x)).
      { intros _ p f s la rest Hp Hl. simpl. apply shift; [eapply place_starts; eauto|].
        eapply reduce; [|apply s_refl]. simpl. rewrite (place_id p) by auto.
        destruct la; congruence. }
      split; auto. intros p f s la rest Hp _ Hl _ _. eapply steps_trans; [apply (H eq_refl p); auto|].
      + intros ->. destruct Hl.
      + apply operand_done, Hl.
    - split; [|discriminate]. intros p f s la rest Hp _ H _ _. simpl.
      apply shift; [eapply place_starts; eauto|]. rewrite <- app_assoc.
      apply (reads_seq p a l); auto. eapply Forall_impl; [|exact Hl]. simpl; tauto.
    - assert (H : ReadsOperand (SCall f l)).
      { intros _ p f' s la rest Hp H. simpl wr. simpl paren. rewrite <- app_assoc. simpl app.
        eapply steps_trans; [eapply (reads_operand_at f Hf Hf'); eauto; discriminate|].
        apply shift; [reflexivity|]. rewrite <- app_assoc. apply reads_args.
        eapply Forall_impl; [|exact Hl]. simpl; tauto. }
      split; auto. intros p f' s la rest Hp _ Hs _ _. eapply steps_trans; [apply (H eq_refl p); auto|].
      + intros ->. destruct Hs.
      + apply operand_done, Hs.
    - split; [|discriminate]. intros p f s la rest Hp _ H _ _. simpl wr. simpl paren.
      rewrite <- app_assoc. simpl app.
      eapply steps_trans; [eapply (reads_operand_at a Ha Ha'); eauto; discriminate|].
      apply shift; [reflexivity|]. rewrite <- app_assoc. simpl app.
      eapply steps_trans; [eapply (reads_in i Hi); [apply p_item|exact I|reflexivity]|].
      apply shift; [reflexivity|]. eapply reduce; [reflexivity|]. apply s_refl.
    - split; [|destruct o as [[]|[]]; discriminate].
      intros p f s la rest Hp Hn Hla Hf Hl. specialize (Hl eq_refl). simpl level in *.
      assert (Hle : p <= bop_level o) by (apply Nat.ltb_ge; exact Hn). simpl wr. simpl paren.
      rewrite <- app_assoc. simpl app.
      eapply steps_trans; [eapply (reads_at a Ha p (left_level o)); eauto using level_left, op_stops|].
      { unfold follows. destruct o as [[]|[]]; simpl; lia. }
      apply shift; [apply (place_op p); auto; rewrite <- bop_levels; auto|].
      eapply steps_trans; [eapply (reads_at b Hb (right_level o) (right_level o)); eauto using level_right|].
      { constructor. }
      eapply reduce; [|apply s_refl]. simpl. rewrite bop_levels in Hl. destruct Hl as [_ ->]. reflexivity.
    - split; [|discriminate]. intros p f s la rest Hp Hn Hla Hf _.
      assert (Hf6 : f <= 6) by (apply Nat.ltb_ge; exact Hn).
      assert (Hl : stops 6 la) by (apply (follows_stops 6 f); auto).
      cbn [wr]. change (needs 0 f (SNeg a)) with (6 <? f).
      rewrite (proj2 (Nat.ltb_ge 6 f) Hf6). simpl paren.
      simpl app. apply shift; [eapply place_starts; eauto|].
      eapply steps_trans; [eapply (reads_at a Ha 6 6); eauto|].
      { eapply p_neg; eauto. }
      eapply reduce; [|apply s_refl]. simpl. destruct Hl as [_ Hl]. unfold prec_uminus. rewrite Hl.
      destruct Hp; reflexivity.
    - assert (H : ReadsOperand (SGroup a)).
      { intros _ p f s la rest Hp Hl. exact (in_parens a Ha p s la rest Hp). }
      split; auto. intros p f s la rest Hp _ Hl _ _. eapply steps_trans; [apply (H eq_refl p); auto|].
      + intros ->. destruct Hl.
      + apply operand_done, Hl.
    - split; [|discriminate]. intros p f s la rest Hp Hn Hla Hf _.
      assert (Hf3 : f <= 3) by (apply Nat.ltb_ge; exact Hn).
      assert (Hl : stops 3 la) by (apply (follows_stops 3 f); auto).
      cbn [wr]. change (needs 0 f (SAssign x a)) with (3 <? f).
      rewrite (proj2 (Nat.ltb_ge 3 f) Hf3). simpl paren.
      simpl app. apply shift; [eapply place_starts; eauto|].
      apply shift; [simpl; rewrite (place_id p); auto|].
      eapply steps_trans; [eapply (reads_at a Ha 3 3); eauto|].
      { eapply p_assign; eauto. }
      eapply reduce; [|apply s_refl]. simpl. destruct Hl as [_ Hl]. unfold prec_assign. rewrite Hl.
      reflexivity.
    - split; [|discriminate]. intros p f s la rest Hp Hn Hla Hf Hl. specialize (Hl eq_refl). simpl level in *.
      assert (Hle : p <= 1) by (apply Nat.ltb_ge; exact Hn). simpl wr. simpl paren.
      rewrite <- app_assoc. simpl app.
      eapply steps_trans; [eapply (reads_at c Hc p 2); eauto; [split; simpl; auto|unfold follows; simpl; auto]|].
      apply shift; [apply (place_question p); auto|]. rewrite <- app_assoc. simpl app.
      eapply steps_trans; [eapply (reads_in a Ha); [apply p_question|exact I|reflexivity]|].
      apply shift; [reflexivity|].
      eapply steps_trans; [eapply (reads_at b Hb 1 1); [apply p_colon|lia|auto|auto]|].
      eapply reduce; [|apply s_refl]. simpl. destruct Hl as [_ Hl]. unfold prec_question. rewrite Hl.
      reflexivity.
  Qed.
  Lemma reads_all a : Reads a. Proof. apply reads_both. Qed.

  (** Statements *)
  Section StmtInduction.
    Variable P : stmt -> Prop.
    Hypothesis HExpr : forall a, P (SExpr a).
    Hypothesis HDef : forall x ps body, Forall P body -> P (SDef x ps body).
    Fixpoint stmt_induction (a : stmt) : P a :=
      match a with
      | SExpr a => HExpr a
      | SDef x ps body => HDef x ps body
          ((fix all (l : list stmt) : Forall P l :=
              match l with
              | [] => Forall_nil P
              | b :: r => Forall_cons b (stmt_induction b) (all r)
              end) body)
      end.
  End StmtInduction.

  Definition block (s : list sym) : Prop :=
    match s with In _ :: _ | Stmts _ :: _ => True | _ => False end.
  Lemma block_place s : block s -> place 0 s.
  Proof. destruct s as [|[] s]; simpl; try tauto; constructor. Qed.

  Lemma reads_stmt_parms ps (s : list sym) (rest : list tok) x :
    steps (T LPAR :: T (ID x) :: T DEFINE :: s, commas (map (fun p => [ID p : tok]) ps) ++ RPAR :: rest)
          (Parms ps :: T LPAR :: T (ID x) :: T DEFINE :: s, RPAR :: rest).
  Proof.
    destruct ps as [|y ps].
    - simpl. eapply reduce; [reflexivity|]. apply s_refl.
    - simpl. apply shift; [reflexivity|]. 
      assert (H : forall acc (s : list sym), steps (Parms1 acc :: s, List.concat (map (fun b => COMMA :: b) (map (fun p => [ID p : tok]) ps)) ++ RPAR :: rest)
        (Parms1 (acc ++ ps) :: s, RPAR :: rest)).
      { induction ps as [|z ps IH]; intros acc s'; simpl.
        - rewrite app_nil_r. apply s_refl.
        - apply shift; [reflexivity|]. apply shift; [reflexivity|].
          destruct (List.concat (map (fun b => COMMA :: b) (map (fun p => [ID p : tok]) ps)) ++ RPAR :: rest) as [|la r'] eqn:Hk.
          + destruct ps; discriminate Hk.
          + eapply reduce; [reflexivity|].
            replace (acc ++ z :: ps) with ((acc ++ [z]) ++ ps) by (rewrite <- app_assoc; reflexivity).
            apply IH. }
      eapply steps_trans; [|eapply steps_trans; [apply (H [y])|]].
      + destruct (List.concat (map (fun b => COMMA :: b) (map (fun p => [ID p : tok]) ps)) ++ RPAR :: rest) as [|la r'] eqn:Hk.
        { destruct ps; discriminate Hk. }
        eapply reduce; [reflexivity|]. apply s_refl.
      + eapply reduce; [reflexivity|]. apply s_refl.
  Qed.

  Lemma reads_stmt_all st : forall s rest, block s ->
    steps (s, wr_stmt st ++ rest) (Stm (stmt_tree st) :: s, rest).
  Proof.
    induction st as [a|x ps body IH] using stmt_induction; intros s rest Hs.
    - simpl. rewrite <- app_assoc. simpl.
      eapply steps_trans; [eapply (reads_in a (reads_all a)); [apply block_place; auto|exact I|reflexivity]|].
      apply shift; [destruct s as [|[] s]; simpl in *; tauto|].
      apply steps_one. unfold next. simpl. reflexivity.
    - simpl. apply shift; [destruct s as [|[] s]; simpl in *; tauto|].
      apply shift; [reflexivity|]. apply shift; [reflexivity|]. rewrite <- app_assoc. simpl.
      eapply steps_trans; [apply reads_stmt_parms|].
      apply shift; [reflexivity|]. apply shift; [reflexivity|].
      assert (H : forall acc, steps
        (Stmts acc :: T LBRACE :: T RPAR :: Parms ps :: T LPAR :: T (ID x) :: T DEFINE :: s, (List.concat (map wr_stmt body) ++ [RBRACE]) ++ rest)
        (Stmts (acc ++ map stmt_tree body) :: T LBRACE :: T RPAR :: Parms ps :: T LPAR :: T (ID x) :: T DEFINE :: s, RBRACE :: rest)).
      { induction IH as [|b body Hb _ IHb]; intros acc; simpl.
        - rewrite app_nil_r. apply s_refl.
        - rewrite <- !app_assoc. eapply steps_trans; [apply Hb; exact I|].
          replace (acc ++ stmt_tree b :: map stmt_tree body) with ((acc ++ [stmt_tree b]) ++ map stmt_tree body)
            by (rewrite <- app_assoc; reflexivity).
          eapply steps_trans; [|apply IHb]. rewrite <- app_assoc.
          apply steps_one. unfold next. simpl. reflexivity. }
      eapply steps_trans; [apply steps_one; unfold next; simpl; reflexivity|].
      eapply steps_trans; [apply H|]. apply shift; [reflexivity|].
      apply steps_one. unfold next. simpl. reflexivity.
  Qed.

  Lemma reads_program (prog : list stmt) :
    steps ([], List.concat (map wr_stmt prog)) ([In (map stmt_tree prog)], []).
  Proof.
    eapply steps_trans; [apply steps_one; reflexivity|].
    change (map stmt_tree prog) with ([] ++ map stmt_tree prog). simpl snd.
    generalize (@nil tree). induction prog as [|b prog IH]; intros acc; simpl.
    - rewrite app_nil_r. apply s_refl.
    - eapply steps_trans; [apply reads_stmt_all; exact I|].
      replace (acc ++ stmt_tree b :: map stmt_tree prog) with ((acc ++ [stmt_tree b]) ++ map stmt_tree prog)
        by (rewrite <- app_assoc; reflexivity).
      eapply steps_trans; [|apply IH].
      apply steps_one. unfold next. simpl. reflexivity.
  Qed.

  Lemma parse_written (prog : list stmt) n :
    11 * List.length (List.concat (map wr_stmt prog)) + 6 <= n ->
    parse n (List.concat (map wr_stmt prog)) = Ok (Some (map stmt_tree prog)).
  Proof.
    intros Hn. destruct (steps_drive _ _ (reads_program prog)) as [k Hk].
    specialize (Hk 1). simpl in Hk.
    destruct (parse_total _ n Hn) as [r Hr]. rewrite Hr. unfold parse in Hr.
    destruct (Nat.le_ge_cases (k + 1) n) as [H|H].
    - apply (drive_ge _ n) in Hk; auto. congruence.
    - apply (drive_ge _ (k + 1)) in Hr; auto. congruence.
  Qed.
End Write.
