(** The parser of the calculator: it terminates, what it accepts is a reading
    of the text, and it reads back what is written. *)
From Coq Require Import ZArith List Bool String Arith Lia.
From Verif.Base Require Import Outcome.
From Verif.Spec Require Import Calculator CalcSyntax.
From Verif.Model Require Import CalcParser.
Import ListNotations.
Open Scope list_scope.
Open Scope nat_scope.

Section Facts.
  Context {E : Type}.
  Notation tok := (tok E).
  Notation tree := (tree E).
  Notation src := (src E).
  Notation stmt := (stmt E).
  Notation sym := (@sym E).
  Notation state := (list sym * list tok)%type.

  (** ** One action, many actions *)
  Definition next (c : state) : option state :=
    match act (fst c) (hd_error (snd c)) with
    | Shift => match snd c with t :: rest => Some (T t :: fst c, rest) | [] => None end
    | Reduce s' => Some (s', snd c)
    | _ => None
    end.
  Inductive steps : state -> state -> Prop :=
  | s_refl c : steps c c
  | s_step c d e : next c = Some d -> steps d e -> steps c e.

  Lemma steps_trans c d e : steps c d -> steps d e -> steps c e.
  Proof. induction 1; eauto using steps. Qed.
  Lemma steps_one c d : next c = Some d -> steps c d.
  Proof. eauto using steps. Qed.

  Lemma next_drive c d n : next c = Some d -> drive (S n) (fst c) (snd c) = drive n (fst d) (snd d).
  Proof.
    unfold next; simpl. destruct (act _ _); try discriminate.
    - destruct (snd c); intros H; inversion H; subst; reflexivity.
    - intros H; inversion H; subst; reflexivity.
  Qed.
  Lemma steps_drive c d : steps c d -> exists n, forall m,
    drive (n + m) (fst c) (snd c) = drive m (fst d) (snd d).
  Proof.
    induction 1 as [c|c d e H _ [n IH]].
    - exists 0. reflexivity.
    - exists (S n). intros m. change (S n + m) with (S (n + m)). rewrite (next_drive _ _ _ H). apply IH.
  Qed.

  (** ** Termination *)
  Definition weight (s : sym) : nat :=
    match s with
    | T _ => 5 | Mo _ => 4 | Ex _ => 3 | Args1 _ | Parms1 _ => 2 | _ => 1
    end.
  Definition weights (s : list sym) : nat := list_sum (map weight s).
  Definition bonus (s : list sym) : nat :=
    match s with [] | T LPAR :: _ | T LBRACE :: _ => 5 | _ => 0 end.
  Definition measure (c : state) : nat :=
    11 * List.length (snd c) + weights (fst c) + bonus (fst c).

  Lemma bonus_le s : bonus s <= 5.
  Proof. destruct s as [|[[]| | | | | | | | | |] s]; simpl; lia. Qed.

  Ltac cases :=
    repeat match goal with
    | H : shift_if ?b = _ |- _ => unfold shift_if in H; destruct b; try discriminate H
    | H : (if ?b then _ else _) = _ |- _ => destruct b eqn:?; try discriminate H
    | H : (match ?x with _ => _ end) = _ |- _ => is_var x; destruct x; try discriminate H
    end.
  (** The reductions. *)
  Inductive red : list sym -> list sym -> Prop :=
  | d_start : red [] [In []]
  | d_in t l r : red (Stm t :: In l :: r) (In (l ++ [t]) :: r)
  | d_stmts t l r : red (Stm t :: Stmts l :: r) (Stmts (l ++ [t]) :: r)
  | d_mo m r : red (Mo m :: r) (Ex m :: r)
  | d_args l r : red (Args1 l :: r) (Args l :: r)
  | d_parms l r : red (Parms1 l :: r) (Parms l :: r)
  | d_num e r : red (T (NUM e) :: r) (Ex (Lit e) :: r)
  | d_term e r : red (T TERMINATOR :: Ex e :: r) (Stm e :: r)
  | d_lbrace r : red (T LBRACE :: r) (Stmts [] :: T LBRACE :: r)
  | d_parms0 r : red (T LPAR :: r) (Parms [] :: T LPAR :: r)
  | d_args0 r : red (T LPAR :: r) (Args [] :: T LPAR :: r)
  | d_bin o a e r : red (Ex e :: T (OP o) :: Ex a :: r) (Ex (Call (Fn (bop_fn o)) [a; e]) :: r)
  | d_neg e r : red (Ex e :: T (OP (BArith Sub)) :: r) (Ex (Call (Fn Neg) [e]) :: r)
  | d_assign e x r : red (Ex e :: T ASSIGN :: T (ID x) :: r) (Ex (Assign x e) :: r)
  | d_tern e a c r : red (Ex e :: T COLON :: Ex a :: T QUESTION :: Ex c :: r) (Ex (Tern c a e) :: r)
  | d_argn e l r : red (Ex e :: T COMMA :: Args1 l :: r) (Args1 (l ++ [e]) :: r)
  | d_seqn e l r : red (Ex e :: T COMMA :: Seq l :: r) (Seq (l ++ [e]) :: r)
  | d_arg1 e r : red (Ex e :: r) (Args1 [e] :: r)
  | d_seq1 e r : red (Ex e :: r) (Seq [e] :: r)
  | d_parm1 x r : red (T (ID x) :: r) (Parms1 [x] :: r)
  | d_parmn x l r : red (T (ID x) :: T COMMA :: Parms1 l :: r) (Parms1 (l ++ [x]) :: r)
  | d_id x r : red (T (ID x) :: r) (Mo (Id x) :: r)
  | d_call l m r : red (T RPAR :: Args l :: T LPAR :: Mo m :: r) (Mo (Call m l) :: r)
  | d_paren e r : red (T RPAR :: Ex e :: T LPAR :: r) (Mo e :: r)
  | d_item i m r : red (T RSQU :: Ex i :: T LSQU :: Mo m :: r) (Ex (Call (Fn Item) [m; i]) :: r)
  | d_list l r : red (T RSQU :: Seq l :: T LSQU :: r) (Ex (ListOf l) :: r)
  | d_def x ps body r :
      red (T RBRACE :: Stmts body :: T LBRACE :: T RPAR :: Parms ps :: T LPAR :: T (ID x) :: T DEFINE :: r)
          (Stm (Define x ps body) :: r).

  Lemma act_red s la s' : act s la = Reduce s' -> red s s'.
  Proof.
    unfold act, on_expr, on_id, on_rpar, on_rsqu, on_rbrace.
    destruct s as [|[t|e|m|ts|ts|ts|ps|ps|ts|t|ts] r]; intros H.
    3-12: cases; inversion H; subst; constructor.
    1: inversion H; constructor.
    destruct t; cases; inversion H; subst; constructor.
  Qed.
  Lemma reduce_less s la s' : act s la = Reduce s' ->
    weights s' + bonus s' < weights s + bonus s.
  Proof.
    intros H. apply act_red in H. unfold weights.
    destruct H; simpl map; unfold list_sum; simpl fold_right; simpl bonus; try lia.
    all: try (pose proof (bonus_le r); lia).
  Qed.

  Lemma next_less c d : next c = Some d -> measure d < measure c.
  Proof.
    unfold next, measure. destruct c as [s i]; simpl fst; simpl snd.
    destruct (act s (hd_error i)) eqn:Ha; try discriminate.
    - destruct i as [|t i]; intros H; inversion H; subst. simpl fst; simpl snd.
      unfold weights. simpl map. unfold list_sum. simpl fold_right.
      pose proof (bonus_le (T t :: s)). simpl List.length. lia.
    - intros H; inversion H; subst; simpl fst; simpl snd.
      pose proof (reduce_less _ _ _ Ha). lia.
  Qed.
  Lemma drive_total n c : measure c < n -> exists r, drive n (fst c) (snd c) = Ok r.
  Proof.
    revert c. induction n as [|n IH]; intros c H; [lia|].
    destruct (next c) as [d|] eqn:Hd.
    - rewrite (next_drive _ _ _ Hd). apply IH. pose proof (next_less _ _ Hd). lia.
    - unfold next in Hd. simpl. destruct (act _ _); eauto; [|discriminate].
      destruct (snd c); [eauto|discriminate].
  Qed.
  Lemma drive_more n (s : list sym) i r : drive n s i = Ok r -> drive (S n) s i = Ok r.
  Proof.
    revert s i. induction n as [|n IH]; intros s i; [discriminate|].
    intros H. simpl in H. change (drive (S (S n)) s i) with
      (match act s (hd_error i) with
       | Shift => match i with t :: rest => drive (S n) (T t :: s) rest | [] => Ok None end
       | Reduce s' => drive (S n) s' i
       | Accept l => Ok (Some l)
       | Error => Ok None
       end).
    destruct (act s (hd_error i)); auto. destruct i; auto.
  Qed.
  Lemma drive_ge n m (s : list sym) i r : n <= m -> drive n s i = Ok r -> drive m s i = Ok r.
  Proof. induction 1; auto using drive_more. Qed.

  Lemma parse_total (i : list tok) n : 11 * List.length i + 6 <= n -> exists r, parse n i = Ok r.
  Proof. intros H. apply (drive_total n ([], i)). unfold measure, weights. simpl. lia. Qed.

  (** ** What is accepted is a reading of the text *)
  Definition spells (x : sym) (l : list tok) : Prop :=
    match x with
    | T t => l = [t]
    | Ex e => reads l e
    | Mo m => reads_operand l m
    | Args ts => (ts = [] /\ l = []) \/ reads_list l ts
    | Args1 ts | Seq ts => reads_list l ts
    | Parms ps => l = commas (map (fun p => [ID p]) ps)
    | Parms1 ps => ps <> [] /\ l = commas (map (fun p => [ID p]) ps)
    | Stmts ts | In ts => reads_stmts l ts
    | Stm t => reads_stmt l t
    end.
  Fixpoint spelled (s : list sym) (l : list tok) : Prop :=
    match s with
    | [] => l = []
    | x :: r => exists l1 l2, l = l1 ++ l2 /\ spelled r l1 /\ spells x l2
    end.

  Lemma commas_snoc (l : list (list tok)) a : l <> [] -> commas (l ++ [a]) = commas l ++ COMMA :: a.
  Proof.
    destruct l as [|b l]; [congruence|intros _]. simpl. rewrite map_app, concat_app. simpl.
    rewrite app_nil_r, <- app_assoc. reflexivity.
  Qed.

  Lemma red_spelled s s' l : red s s' -> spelled s l -> spelled s' l.
  Proof.
    Ltac open := repeat match goal with
      | H : spelled (_ :: _) _ |- _ => destruct H as (?&?&?&?&?); subst
      | H : spells (T _) _ |- _ => simpl in H; subst
      end.
    destruct 1; intros Hs; open.
    all: try (simpl in *; eexists _, _; split; [|split]; [|eassumption|]; [rewrite <- ?app_assoc; simpl; reflexivity|]; eauto using @reads, @reads_operand, @reads_list, @reads_stmt, @reads_stmts; fail).
    - simpl in Hs; subst. exists [], []. repeat split. constructor.
    - exists x, x0. repeat split; auto. apply H1.
    - eexists _, []. split; [symmetry; apply app_nil_r|split]; [|constructor].
      exists x, [LBRACE]. repeat split; auto.
    - eexists _, []. split; [symmetry; apply app_nil_r|split]; [|reflexivity].
      exists x, [LPAR]. repeat split; auto.
    - eexists _, []. split; [symmetry; apply app_nil_r|split]; [|left; auto].
      exists x, [LPAR]. repeat split; auto.
    - exists x0, [ID x]. repeat split; auto. congruence.
    - match goal with H : spells (Parms1 _) _ |- _ => destruct H as [Hn ->] end. eexists x0, _. split; [rewrite <- !app_assoc; reflexivity|].
      split; auto. split; [destruct l0; simpl; congruence|].
      rewrite map_app. simpl. rewrite commas_snoc by (destruct l0; simpl; congruence).
      reflexivity.
    - eexists x1, _. split; [rewrite <- !app_assoc; reflexivity|]. split; auto.
      simpl in *. match goal with H : _ \/ _ |- _ => destruct H as [[-> ->]|H] end; [apply r_call0|apply r_call]; auto.
    - simpl in *. subst. eexists x2, _. split; [rewrite <- !app_assoc; simpl; reflexivity|]. split; auto.
      apply r_def. auto.
  Qed.

  Fixpoint rooted (s : list sym) : Prop :=
    match s with
    | [] => True
    | In _ :: r => r = []
    | _ :: r => rooted r
    end.
  Lemma red_rooted s s' : red s s' -> rooted s -> rooted s'.
  Proof. destruct 1; simpl; auto. Qed.

  Lemma drive_spelled n s i l ts : rooted s -> spelled s l -> drive n s i = Ok (Some ts) ->
    reads_stmts (l ++ i) ts.
  Proof.
    revert s i l. induction n as [|n IH]; intros s i l Hr Hs H; [discriminate|]. simpl in H.
    destruct (act s (hd_error i)) eqn:Ha.
    - destruct i as [|t i]; [discriminate|].
      assert (H1 : reads_stmts ((l ++ [t]) ++ i) ts).
      { apply (IH (T t :: s)); [exact Hr|exists l, [t]; simpl; auto|auto]. }
      rewrite <- app_assoc in H1. exact H1.
    - apply act_red in Ha.
      eapply IH; [| |eassumption]; [eapply red_rooted|eapply red_spelled]; eassumption.
    - inversion H; subst. unfold act in Ha.
      destruct s as [|[t|e|m|l0|l0|l0|l0|l0|l0|t|l0] r].
      all: try (unfold on_expr, on_id, on_rpar, on_rsqu, on_rbrace, shift_if in Ha; exfalso; revert Ha; clear;
        repeat match goal with |- context [match ?x with _ => _ end] => destruct x end; discriminate).
      destruct i as [|t i]; simpl in Ha; [|exfalso; unfold shift_if in Ha; match type of Ha with (if ?b then _ else _) = _ => destruct b end; discriminate].
      inversion Ha; subst. rewrite app_nil_r. simpl in Hr. subst r.
      destruct Hs as (l1&l2&->&H1&H2). simpl in H1. subst. exact H2.
    - discriminate.
  Qed.
  Lemma parse_sound n (i : list tok) ts : parse n i = Ok (Some ts) -> reads_stmts i ts.
  Proof. intros H. apply (drive_spelled n [] i []); simpl; auto. Qed.

  (** ** What is written is read back *)
  (** Places where an expression binding at least as tightly as [p] starts. *)
  Inductive place : nat -> list sym -> Prop :=
  | p_in l r : place 0 (In l :: r)
  | p_stmts l r : place 0 (Stmts l :: r)
  | p_paren p s : place p s -> place 0 (T LPAR :: s)
  | p_arg m s : place 0 (T LPAR :: Mo m :: s)
  | p_argn l s : place 0 (T COMMA :: Args1 l :: s)
  | p_list p s : place p s -> place 0 (T LSQU :: s)
  | p_seqn l s : place 0 (T COMMA :: Seq l :: s)
  | p_item m s : place 0 (T LSQU :: Mo m :: s)
  | p_question c s : place 0 (T QUESTION :: Ex c :: s)
  | p_colon a c s : place 1 (T COLON :: Ex a :: T QUESTION :: Ex c :: s)
  | p_assign x p s : place p s -> place 3 (T ASSIGN :: T (ID x) :: s)
  | p_op o a s : place (right_level o) (T (OP o) :: Ex a :: s)
  | p_neg p s : place p s -> place 6 (T (OP (BArith Sub)) :: s).

  Definition plain (la : tok) : Prop :=
    match la with LPAR | LSQU | ASSIGN => False | _ => True end.
  Definition stops (n : nat) (la : tok) : Prop := plain la /\ reduces n (Some la) = true.

  Lemma stops_more n m la : n <= m -> stops n la -> stops m la.
  Proof.
    intros H [H1 H2]. split; auto. revert H2. unfold reduces. destruct (infix _) as [k|]; auto.
    rewrite !orb_true_iff, !andb_true_iff, !Nat.ltb_lt, !Nat.eqb_eq.
    intros [H2|[-> H2]]; [left; lia|]. destruct (Nat.eq_dec n m) as [<-|]; auto. left; lia.
  Qed.

  Lemma place_starts p s la : place p s -> starts_expr (Some la) = true -> act s (Some la) = Shift.
  Proof.
    intros H Hl. assert (Hs : starts_stmt (Some la) = true).
    { destruct la; simpl in *; auto. }
    destruct H; unfold act; rewrite ?Hl, ?Hs; auto.
    - destruct H; unfold shift_if; rewrite ?Hl; auto.
    - destruct la; auto; discriminate.
  Qed.
  Lemma place_id p s x la : place p s ->
    on_id x s la = match la with Some ASSIGN => Shift | _ => Reduce (Mo (Id x) :: s) end.
  Proof. destruct 1; try reflexivity. destruct H; reflexivity. Qed.

  (** An operator at least as tight as the place continues the expression. *)
  Lemma place_op p s e o : place p s -> p <= op_prec o -> on_expr e s (Some (OP o)) = Shift.
  Proof.
    intros H Hp. destruct H; simpl; auto.
    - destruct H; reflexivity.
    - destruct H; reflexivity.
    - assert (reduces (E:=E) prec_question (Some (OP o)) = false) as ->; auto.
      destruct o as [[]|[]]; reflexivity.
    - assert (reduces (E:=E) prec_assign (Some (OP o)) = false) as ->; auto.
      destruct o as [[]|[]]; simpl in Hp; try reflexivity; lia.
    - assert (reduces (E:=E) (op_prec o0) (Some (OP o)) = false) as ->; auto.
      destruct o as [[]|[]], o0 as [[]|[]]; simpl in Hp; try reflexivity; lia.
    - assert (reduces (E:=E) prec_uminus (Some (OP o)) = false) as H1.
      { destruct o as [[]|[]]; simpl in Hp; try reflexivity; lia. }
      rewrite H1. destruct H; reflexivity.
  Qed.
  Lemma place_question p s e : place p s -> p <= 1 -> on_expr e s (Some QUESTION) = Shift.
  Proof.
    intros H Hp. destruct H; simpl; auto; try lia.
    - destruct H; reflexivity.
    - destruct H; reflexivity.
    - destruct o as [[]|[]]; simpl in Hp; lia.
  Qed.

  Lemma bop_levels o : bop_level o = op_prec o.
  Proof. destruct o as [[]|[]]; reflexivity. Qed.
  Lemma needs_0 (a : src) : needs 0 0 a = false.
  Proof. unfold needs. destruct (prefixed a); reflexivity. Qed.
  Lemma needs_less p q (a : src) : needs p q a = false -> needs 0 q a = false.
  Proof. unfold needs. destruct (prefixed a); auto. Qed.
  Lemma wr_paren p q (a : src) : wr p q a = if needs p q a then paren true (wr 0 0 a) else wr 0 q a.
  Proof.
    pose proof (needs_0 a) as H0. pose proof (needs_less p q a) as H1.
    destruct (needs p q a) eqn:H.
    - destruct a; cbn [wr]; rewrite H, H0; reflexivity.
    - specialize (H1 eq_refl). destruct a; cbn [wr]; rewrite H, H1; reflexivity.
  Qed.
End Facts.
