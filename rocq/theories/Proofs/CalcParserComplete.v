(** Every text that has a reading is the writing of a program: operators and
    operands are regrouped by precedence.  So the parser accepts it. *)
From Coq Require Import ZArith List Bool String Arith Lia.
From Verif.Base Require Import Outcome.
From Verif.Spec Require Import Calculator CalcSyntax.
From Verif.Model Require Import CalcParser.
From Verif.Proofs Require Import CalcParserFacts CalcParserWrite.
Import ListNotations.
Open Scope list_scope.
Open Scope nat_scope.

Section Complete.
  Context {E : Type}.
  Notation tok := (tok E).
  Notation tree := (tree E).
  Notation src := (src E).
  Notation stmt := (stmt E).

  (** Operators waiting for their right operand, the last one first. *)
  Inductive frame := FNeg | FAssign (x : string) | FOp (o : bop) (a : src) | FTern (c a : src).
  Definition build (fr : frame) (b : src) : src :=
    match fr with FNeg => SNeg b | FAssign x => SAssign x b | FOp o a => SBin o a b | FTern c a => STern c a b end.
  Definition ftext (fr : frame) : list tok :=
    match fr with
    | FNeg => [OP (BArith Sub)]
    | FAssign x => [ID x; ASSIGN]
    | FOp o a => wr (left_level o) (bop_level o) a ++ [OP o]
    | FTern c a => wr 2 1 c ++ QUESTION :: wr 0 0 a ++ [COLON]
    end.
  Definition spot (z : list frame) : nat :=
    match z with
    | [] => 0
    | FNeg :: _ => 6
    | FAssign _ :: _ => 3
    | FOp o _ :: _ => right_level o
    | FTern _ _ :: _ => 1
    end.
  Fixpoint ztext (z : list frame) : list tok :=
    match z with [] => [] | fr :: r => ztext r ++ ftext fr end.
  Fixpoint sorted (z : list frame) : Prop :=
    match z with
    | [] => True
    | fr :: r => sorted r /\ match fr with FOp o _ => spot r <= bop_level o | FTern _ _ => spot r <= 1 | _ => True end
    end.
  Definition lvl (la : option tok) : nat := match infix la with Some m => m | None => 0 end.
  (** [b] may stand above [z], before [la]. *)
  Definition fits (z : list frame) (b : src) (la : option tok) : Prop :=
    (prefixed b = true \/ spot z <= level b) /\ reduces (level b) la = true.

  Lemma spot_7 z : spot z <= 7.
  Proof. destruct z as [|[|x|[[]|[]] a|c a] z]; simpl; lia. Qed.
  Lemma reduces_lvl n la : reduces (E:=E) n la = true -> lvl la <= n.
  Proof.
    unfold reduces, lvl. destruct (infix la) as [m|]; [|lia].
    rewrite orb_true_iff, andb_true_iff, Nat.ltb_lt, Nat.eqb_eq. lia.
  Qed.
  Lemma fits_needs z b la : fits z b la -> needs (spot z) (lvl la) b = false.
  Proof.
    intros [H1 H2]. unfold needs. destruct (prefixed b) eqn:Hp; apply Nat.ltb_ge.
    - apply reduces_lvl; auto.
    - destruct H1; [discriminate|auto].
  Qed.
  Lemma wr_at p q (a : src) : needs p q a = false -> wr p q a = wr 0 q a.
  Proof. intros H. rewrite wr_paren, H. reflexivity. Qed.

  Lemma build_text fr z b la : sorted (fr :: z) -> fits (fr :: z) b la -> reduces (level (build fr b)) la = true ->
    fits z (build fr b) la /\ wr 0 (lvl la) (build fr b) = ftext fr ++ wr 0 (lvl la) b.
  Proof.
    intros [Hz Hfr] Hb Hr. pose proof (fits_needs _ _ _ Hb) as Hn. pose proof (reduces_lvl _ _ Hr) as Hl.
    split.
    - split; auto. destruct fr; simpl in *; auto.
    - rewrite <- (wr_at _ _ _ Hn). destruct fr; cbn [build ftext spot].
      + cbn [wr]. replace (needs 0 (lvl la) (SNeg b)) with false; [reflexivity|].
        symmetry. apply Nat.ltb_ge. exact Hl.
      + cbn [wr]. replace (needs 0 (lvl la) (SAssign x b)) with false; [reflexivity|].
        symmetry. apply Nat.ltb_ge. exact Hl.
      + cbn [wr]. change (needs 0 (lvl la) (SBin o a b)) with false. simpl paren. rewrite <- app_assoc. reflexivity.
      + cbn [wr]. change (needs 0 (lvl la) (STern c a b)) with false. simpl paren.
        rewrite <- app_assoc. simpl. rewrite <- app_assoc. reflexivity.
  Qed.

  Lemma before_infix (la : option tok) m : infix la = Some m ->
    forall z b, sorted z -> fits z b la -> exists z' b', sorted z' /\ fits z' b' la /\ spot z' <= m /\
    ztext z ++ wr 0 (lvl la) b = ztext z' ++ wr 0 (lvl la) b'.
  Proof.
    intros Hi z. induction z as [|fr z IH]; intros b Hz Hb.
    - exists [], b. simpl. repeat split; auto with arith; apply Hb.
    - destruct (reduces (level (build fr b)) la) eqn:Hr.
      + destruct (build_text fr z b la Hz Hb Hr) as [H1 H2].
        destruct (IH (build fr b) (proj1 Hz) H1) as (z'&b'&G1&G2&G3&G4). exists z', b'.
        simpl. rewrite <- app_assoc, <- H2. auto.
      + exists (fr :: z), b. split; auto. split; auto. split; auto.
        revert Hr. unfold reduces. rewrite Hi.
        rewrite orb_false_iff, Nat.ltb_ge, andb_false_iff, Nat.eqb_neq, negb_false_iff.
        intros [H1 H2]. destruct fr; simpl in *; auto.
        destruct o as [[]|[]]; simpl in *; try lia; destruct H2 as [H2|H2]; try discriminate; lia.
  Qed.
  Lemma before_close (la : option tok) : infix la = None ->
    forall z b, sorted z -> fits z b la -> exists b', ztext z ++ wr 0 0 b = wr 0 0 b'.
  Proof.
    intros Hi. assert (Hr : forall n, reduces n la = true) by (intros; unfold reduces; rewrite Hi; reflexivity).
    assert (Hl : lvl la = 0) by (unfold lvl; rewrite Hi; reflexivity).
    induction z as [|fr z IH]; intros b Hz Hb; [exists b; reflexivity|].
    destruct (build_text fr z b la Hz Hb (Hr _)) as [H1 H2]. rewrite Hl in H2.
    destruct (IH _ (proj1 Hz) H1) as [b' Hb']. exists b'. simpl. rewrite <- app_assoc, <- H2. exact Hb'.
  Qed.

  Scheme reads_rec := Minimality for reads Sort Prop
  with operand_rec := Minimality for reads_operand Sort Prop
  with list_rec := Minimality for reads_list Sort Prop.
  Combined Scheme reading_rec from reads_rec, operand_rec, list_rec.

  Definition Regroups (l : list tok) (_ : tree) : Prop := forall z la, sorted z ->
    exists z' b, sorted z' /\ fits z' b la /\ ztext z ++ l = ztext z' ++ wr 0 (lvl la) b.
  Definition IsOperand (l : list tok) (_ : tree) : Prop :=
    exists m : src, level m = 9 /\ forall f, wr 0 f m = l.
  Definition IsList (l : list tok) (_ : list tree) : Prop :=
    exists (a : src) r, l = commas (map (wr 0 0) (a :: r)).

  Lemma fits_high z b la : 8 <= level b -> fits z b la.
  Proof.
    intros H. split; [right; pose proof (spot_7 z); lia|]. unfold reduces.
    destruct (infix la) as [m|] eqn:Hi; auto. apply orb_true_iff; left. apply Nat.ltb_lt.
    assert (Hm : m <= 7); [|lia].
    destruct la as [[]|]; simpl in Hi; try discriminate; injection Hi as <-; unfold prec_question; auto with arith.
    destruct o as [[]|[]]; simpl; auto with arith.
  Qed.
  Lemma regroups_closed l t : Regroups l t -> exists b : src, wr 0 0 b = l.
  Proof.
    intros H. destruct (H [] None I) as (z&b&H1&H2&H3). simpl in H3. change (lvl None) with 0 in H3.
    destruct (before_close None eq_refl z b H1 H2) as [b' H4]. exists b'. congruence.
  Qed.
  Lemma regroups_infix l t (la : tok) m : Regroups l t -> infix (Some la) = Some m -> forall z, sorted z ->
    exists z' b, sorted z' /\ fits z' b (Some la) /\ spot z' <= m /\ ztext z ++ l = ztext z' ++ wr 0 m b.
  Proof.
    intros H Hi z Hz. destruct (H z (Some la) Hz) as (z1&b1&H1&H2&H3).
    destruct (before_infix _ _ Hi z1 b1 H1 H2) as (z2&b2&G1&G2&G3&G4). exists z2, b2.
    assert (Hl : lvl (Some la) = m) by (unfold lvl; rewrite Hi; reflexivity).
    rewrite Hl in *. repeat split; auto; try apply G2. congruence.
  Qed.
  Lemma wr_9 (m : src) q l : level m = 9 -> (forall f, wr 0 f m = l) -> wr 9 q m = l.
  Proof.
    intros H H1. rewrite wr_at; auto. unfold needs. destruct m; simpl in *; try discriminate; auto.
    destruct o as [[]|[]]; discriminate.
  Qed.

  Lemma regroups_all :
    (forall (l : list tok) t, reads l t -> Regroups l t) /\
    (forall (l : list tok) t, reads_operand l t -> IsOperand l t) /\
    (forall (l : list tok) ts, reads_list l ts -> IsList l ts).
  Proof.
    apply (reading_rec E Regroups IsOperand IsList).
    - intros e z la Hz. exists z, (SNum e). repeat split; auto; apply (fits_high z (SNum e)); auto.
    - intros l ts _ (a&r&->) z la Hz. exists z, (SList a r). split; auto. split; [apply fits_high; simpl; lia|]. reflexivity.
    - intros l t _ (m&H1&H2) z la Hz. exists z, m. split; auto. split; [apply fits_high; lia|]. rewrite H2. reflexivity.
    - intros l m k i _ (m'&H1&H2) _ IH z la Hz. destruct (regroups_closed k i IH) as [b Hb].
      exists z, (SItem m' b). split; auto. split; [apply fits_high; simpl; lia|].
      cbn [wr]. change (needs 0 (lvl la) (SItem m' b)) with false. simpl paren.
      rewrite (wr_9 m' 9 l) by auto. rewrite Hb. reflexivity.
    - intros o l a k b _ IHl _ IHk z la Hz.
      destruct (regroups_infix l a (OP o) _ IHl eq_refl z Hz) as (z1&a1&H1&H2&H3&H4).
      destruct (IHk (FOp o a1 :: z1) la) as (z2&b2&G1&G2&G3); [split; auto; rewrite bop_levels; auto|].
      exists z2, b2. split; auto. split; auto. rewrite <- G3. simpl ztext. rewrite bop_levels.
      rewrite wr_at.
      + change (OP o :: k) with ([OP o] ++ k). rewrite !app_assoc, H4. reflexivity.
      + destruct H2 as [_ H2]. unfold needs. destruct (prefixed a1); apply Nat.ltb_ge.
        * apply reduces_lvl in H2. exact H2.
        * revert H2. unfold reduces. cbn [infix]. rewrite orb_true_iff, andb_true_iff, Nat.ltb_lt, Nat.eqb_eq.
          intros [H2|[H2 H5]]; [destruct o as [[]|[]]; simpl in *; lia|].
          rewrite <- H2 in H5. destruct o as [[]|[]]; simpl in *; try discriminate; lia.
    - intros l a _ IH z la Hz. destruct (IH (FNeg :: z) la) as (z2&b2&G1&G2&G3); [split; auto|].
      exists z2, b2. split; auto. split; auto. rewrite <- G3. simpl. rewrite <- app_assoc. reflexivity.
    - intros x l a _ IH z la Hz. destruct (IH (FAssign x :: z) la) as (z2&b2&G1&G2&G3); [split; auto|].
      exists z2, b2. split; auto. split; auto. rewrite <- G3. simpl. rewrite <- app_assoc. reflexivity.
    - intros l c k a j b _ IHl _ IHk _ IHj z la Hz.
      destruct (regroups_infix l c QUESTION _ IHl eq_refl z Hz) as (z1&c1&H1&H2&H3&H4).
      destruct (regroups_closed k a IHk) as [a1 Ha].
      destruct (IHj (FTern c1 a1 :: z1) la) as (z2&b2&G1&G2&G3); [split; auto|].
      exists z2, b2. split; auto. split; auto. rewrite <- G3. simpl ztext. rewrite wr_at.
      + rewrite Ha. replace (QUESTION :: k ++ COLON :: j) with ((QUESTION :: k ++ [COLON]) ++ j)
          by (simpl; rewrite <- app_assoc; reflexivity).
        rewrite !app_assoc. rewrite H4. reflexivity.
      + destruct H2 as [_ H2]. unfold needs. destruct (prefixed c1); apply Nat.ltb_ge.
        * apply reduces_lvl in H2. exact H2.
        * revert H2. unfold reduces. cbn [infix]. rewrite orb_true_iff, andb_true_iff, Nat.ltb_lt, Nat.eqb_eq.
          intros [H2|[H2 H5]]; [unfold prec_question in *; lia|]. rewrite <- H2 in H5. discriminate.
    - intros x. exists (SId x). auto.
    - intros l t _ IH. destruct (regroups_closed l t IH) as [b Hb]. exists (SGroup b). split; auto.
      intros f. cbn [wr]. change (needs 0 f (SGroup b)) with false. rewrite Hb. reflexivity.
    - intros l f _ (m&H1&H2). exists (SCall m []). split; auto. intros g.
      cbn [wr]. change (needs 0 g (SCall m [])) with false. rewrite (wr_9 m 9 l) by auto. reflexivity.
    - intros l f k ts _ (m&H1&H2) _ (a&r&->). exists (SCall m (a :: r)). split; auto. intros g.
      cbn [wr]. change (needs 0 g (SCall m (a :: r))) with false. rewrite (wr_9 m 9 l) by auto. reflexivity.
    - intros l t _ IH. destruct (regroups_closed l t IH) as [b Hb]. exists b, []. simpl. rewrite app_nil_r. auto.
    - intros l ts k t _ (a&r&->) _ IH. destruct (regroups_closed k t IH) as [b Hb]. exists a, (r ++ [b]).
      rewrite app_comm_cons, map_app. change (map (wr 0 0) [b]) with [wr 0 0 b].
      rewrite commas_snoc by discriminate. rewrite Hb. reflexivity.
  Qed.

  Scheme stmt_rec' := Minimality for reads_stmt Sort Prop
  with stmts_rec' := Minimality for reads_stmts Sort Prop.
  Combined Scheme statement_rec from stmt_rec', stmts_rec'.

  Lemma statements_written :
    (forall (l : list tok) t, reads_stmt l t -> exists st : stmt, wr_stmt st = l) /\
    (forall (l : list tok) ts, reads_stmts l ts -> exists prog : list stmt, List.concat (map wr_stmt prog) = l).
  Proof.
    apply (statement_rec E).
    - intros l t H. destruct (regroups_closed l t (proj1 regroups_all l t H)) as [b Hb].
      exists (SExpr b). simpl. rewrite Hb. reflexivity.
    - intros x ps l ts _ [prog H]. exists (SDef x ps prog). simpl. rewrite H. reflexivity.
    - exists []. reflexivity.
    - intros l ts k t _ [prog H] _ [st H2]. exists (prog ++ [st]). rewrite map_app, concat_app. simpl.
      rewrite app_nil_r. congruence.
  Qed.

  Theorem parse_complete (l : list tok) ts n : 11 * List.length l + 6 <= n -> reads_stmts l ts ->
    exists prog : list stmt, List.concat (map wr_stmt prog) = l /\ parse n l = Ok (Some (map stmt_tree prog)).
  Proof.
    intros Hn H. destruct (proj2 statements_written l ts H) as [prog <-]. exists prog. split; auto.
    apply parse_written. exact Hn.
  Qed.
  Theorem parse_decides (l : list tok) n : 11 * List.length l + 6 <= n ->
    (forall trees, parse n l = Ok (Some trees) <->
       exists prog : list stmt, List.concat (map wr_stmt prog) = l /\ map stmt_tree prog = trees) /\
    (parse n l = Ok None <-> ~ exists trees, reads_stmts l trees).
  Proof.
    intros Hn. split.
    - intros us. split.
      + intros H. destruct (parse_complete l us n Hn (parse_sound _ _ _ H)) as (prog&H1&H2). exists prog. split; auto. congruence.
      + intros (prog&<-&<-). apply parse_written. exact Hn.
    - split.
      + intros H [ts Hts]. destruct (parse_complete l ts n Hn Hts) as (prog&H1&H2). congruence.
      + intros H. destruct (parse_total l n Hn) as [[us|] Hr]; auto. destruct H. eauto using parse_sound.
  Qed.
End Complete.
