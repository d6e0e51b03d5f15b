(** The scanner of the calculator splits a text into the tokens it was laid out
    from; with the parser, a program is read back from any layout. *)
From Coq Require Import ZArith List Bool String Ascii Arith Lia.
From Verif.Base Require Import Outcome.
From Verif.Spec Require Import Calculator CalcSyntax.
From Verif.Spec Require Numerals.
From Verif.Model Require Import Multiz IntText SetMultiz CalcParser Calculator CalcScanner.
From Verif.Proofs Require Import CalcParserFacts CalcParserWrite CalculatorFacts CalculatorUse.
From Verif.Proofs Require IntTextFacts.
Import ListNotations.
Open Scope char_scope.
Open Scope list_scope.

Lemma between_spec a b c : between a b c = true <-> (char_code a <= char_code c <= char_code b)%Z.
Proof. unfold between, char_code. rewrite andb_true_iff, !Nat.leb_le. lia. Qed.
Lemma is_digit_spec c : is_digit c = true <-> digit c.
Proof. unfold is_digit, digit. rewrite between_spec. reflexivity. Qed.
Lemma is_letter_spec c : is_letter c = true <-> letter c.
Proof.
  unfold is_letter, letter. rewrite !orb_true_iff, !between_spec, Ascii.eqb_eq.
  unfold char_code at 1 3 4 6. simpl. tauto.
Qed.
Lemma is_blank_spec c : is_blank c = true <-> blank c.
Proof. unfold is_blank, blank. rewrite !orb_true_iff, !Ascii.eqb_eq. tauto. Qed.
Lemma is_word_spec c : is_word c = true <-> letter c \/ digit c.
Proof. unfold is_word. rewrite orb_true_iff, is_letter_spec, is_digit_spec. tauto. Qed.

Lemma span_all f w text : Forall (fun c => f c = true) w ->
  (forall c, hd_error text = Some c -> f c = false) -> span f (w ++ text) = (w, text).
Proof.
  intros Hw Ht. induction Hw as [|c w Hc _ IH]; simpl.
  - destruct text as [|c text]; auto. simpl. rewrite (Ht c); auto.
  - rewrite Hc, IH. reflexivity.
Qed.
Lemma span_length f l : List.length (snd (span f l)) <= List.length l.
Proof.
  induction l as [|c l IH]; simpl; auto. destruct (f c); [|simpl; auto].
  destruct (span f l); simpl in *. lia.
Qed.

Lemma number_decimal w : Forall digit w -> number w = Ok (decimal w).
Proof.
  intros Hw. unfold number, multiz_set_str, pbc_mpz_set_str, decimal. simpl Z.eqb. cbv iota.
  assert (H : forall z i, set_str_loop (map code w ++ [0%Z]) 10 z i =
    Ok (fold_left (fun n c => (n * 10 + (char_code c - 48))%Z) w z, (i + Z.of_nat (List.length w))%Z)).
  { induction Hw as [|c w Hc _ IH]; intros z i.
    - simpl. do 2 f_equal. lia.
    - unfold digit in Hc. change code with char_code. cbn [map app set_str_loop fold_left].
      replace (char_code c =? 0)%Z with false by (symmetry; apply Z.eqb_neq; lia).
      replace (isspace (char_code c)) with false
        by (symmetry; unfold isspace; apply orb_false_iff; split; [apply Z.eqb_neq; lia|];
            apply andb_false_iff; right; apply Z.leb_gt; lia).
      unfold digit_of_char.
      replace (isdigit (char_code c)) with true
        by (symmetry; unfold isdigit; apply andb_true_iff; split; apply Z.leb_le; lia).
      replace (char_code c - 48 >=? 10)%Z with false
        by (symmetry; rewrite Z.geb_leb; apply Z.leb_gt; lia).
      etransitivity; [apply IH|]. do 2 f_equal. simpl List.length. lia. }
  rewrite H. reflexivity.
Qed.

Lemma skip_block body text : (forall u v, body <> u ++ ("*" :: "/" :: v)) ->
  skip_comment (body ++ "*" :: "/" :: text) = text.
Proof.
  induction body as [|c body IH]; intros H; [reflexivity|].
  assert (H' : forall u v, body <> u ++ ("*" :: "/" :: v)).
  { intros u v ->. apply (H (c :: u) v). reflexivity. }
  specialize (IH H'). destruct body as [|d body].
  - simpl. destruct (c =? "*"); reflexivity.
  - simpl app in *. cbn [skip_comment].
    destruct ((c =? "*") && (d =? "/")) eqn:Hc; [|exact IH].
    apply andb_true_iff in Hc. rewrite !Ascii.eqb_eq in Hc. destruct Hc as [-> ->].
    destruct (H [] body). reflexivity.
Qed.

Lemma lex_hash easy body text : Forall (fun c => c <> lf) body ->
  lex easy "#" (body ++ lf :: text) = Ok (None, lf :: text).
Proof.
  intros Hb. unfold lex. simpl.
  replace (existsb _ _) with true.
  - rewrite span_all; auto.
    + eapply Forall_impl; [|exact Hb]. intros c Hc. change newline with lf.
      apply negb_true_iff, Ascii.eqb_neq, Hc.
    + intros c Hc. inversion Hc. reflexivity.
  - symmetry. apply existsb_exists. exists lf. split; [|apply Ascii.eqb_refl].
    apply in_app_iff. right. left. reflexivity.
Qed.

Lemma lex_token easy t w text : written easy t w -> apart t w (hd_error text) ->
  exists c w', w = c :: w' /\ is_blank c = false /\ lex easy c (w' ++ text) = Ok (Some t, text).
Proof.
  intros Hw Ha.
  assert (Hs : forall c w', c <> "/" -> c <> "#" -> is_blank c = false -> is_digit c = false -> is_letter c = false ->
    symbol easy c (w' ++ text) = (Some t, text) -> w = c :: w' ->
    exists c w', w = c :: w' /\ is_blank c = false /\ lex easy c (w' ++ text) = Ok (Some t, text)).
  { intros c w' H1 H2 H3 H4 H5 H6 ->. exists c, w'. repeat split; auto. unfold lex.
    rewrite H3, H4, H5. apply Ascii.eqb_neq in H1. apply Ascii.eqb_neq in H2. rewrite H1, H2. simpl.
    rewrite H6. reflexivity. }
  assert (Hword : forall c w', letter c -> Forall (fun d => letter d \/ digit d) w' ->
    match hd_error text with Some d => ~ letter d /\ ~ digit d | None => True end ->
    w = c :: w' -> t = (if (string_of_list_ascii w =? "define")%string then DEFINE else ID (string_of_list_ascii w)) ->
    exists c w', w = c :: w' /\ is_blank c = false /\ lex easy c (w' ++ text) = Ok (Some t, text)).
  { intros c w' H1 H2 H3 -> ->. exists c, w'.
    assert (Hc : (65 <= char_code c)%Z) by (destruct H1 as [|[| ->]]; [lia|lia|vm_compute; discriminate]).
    assert (Hb : is_blank c = false).
    { destruct (is_blank c) eqn:H; auto. apply is_blank_spec in H.
      destruct H as [->|[->| ->]]; revert Hc; vm_compute; intros Hc; contradiction Hc; reflexivity. }
    assert (Hd : is_digit c = false).
    { destruct (is_digit c) eqn:H; auto. apply is_digit_spec in H. unfold digit in H. lia. }
    repeat split; auto. unfold lex. rewrite Hb, Hd.
    replace (c =? "/") with false by (symmetry; apply Ascii.eqb_neq; intros ->; revert Hc; vm_compute; intros Hc; contradiction Hc; reflexivity).
    replace (c =? "#") with false by (symmetry; apply Ascii.eqb_neq; intros ->; revert Hc; vm_compute; intros Hc; contradiction Hc; reflexivity).
    cbn [andb]. replace (is_letter c) with true by (symmetry; apply is_letter_spec; auto).
    change (c :: w' ++ text) with ((c :: w') ++ text). rewrite span_all.
    - reflexivity.
    - constructor; [apply is_word_spec; auto|]. eapply Forall_impl; [|exact H2]. intros d. apply is_word_spec.
    - intros d Hd'. rewrite Hd' in H3. destruct (is_word d) eqn:H; auto. apply is_word_spec in H. tauto. }
  destruct Hw.
  - eapply Hword; [| |exact Ha|reflexivity|reflexivity].
    + right; left. vm_compute; split; discriminate.
    + do 5 (apply Forall_cons; [left; right; left; vm_compute; split; discriminate|]). apply Forall_nil.
  - destruct w as [|c w]; [congruence|]. exists c, w. inversion H0; subst.
    assert (Hc : (48 <= char_code c <= 57)%Z) by assumption.
    assert (Hb : is_blank c = false).
    { destruct (is_blank c) eqn:Hx; auto. apply is_blank_spec in Hx.
      destruct Hx as [->|[->| ->]]; revert Hc; vm_compute; intros [Hc _]; contradiction Hc; reflexivity. }
    repeat split; auto. unfold lex. rewrite Hb.
    replace (c =? "/") with false by (symmetry; apply Ascii.eqb_neq; intros ->; revert Hc; vm_compute; intros [Hc _]; contradiction Hc; reflexivity).
    replace (c =? "#") with false by (symmetry; apply Ascii.eqb_neq; intros ->; revert Hc; vm_compute; intros [Hc _]; contradiction Hc; reflexivity).
    cbn [andb]. replace (is_digit c) with true by (symmetry; apply is_digit_spec; auto).
    change (c :: w ++ text) with ((c :: w) ++ text). rewrite span_all.
    + rewrite number_decimal by auto. reflexivity.
    + eapply Forall_impl; [|exact H0]. intros d. apply is_digit_spec.
    + intros d Hd. rewrite Hd in Ha. simpl in Ha. destruct (is_digit d) eqn:Hx; auto. apply is_digit_spec in Hx. tauto.
  - destruct H as (Hd&c&w&Hx&H1&H2).
    assert (Hst : string_of_list_ascii (c :: w) = x) by (rewrite <- Hx; apply string_of_list_ascii_of_string).
    rewrite Hx in *. eapply Hword; [exact H1|exact H2|exact Ha|reflexivity|].
    rewrite Hst. apply String.eqb_neq in Hd. rewrite Hd. reflexivity.
  - eapply Hs; [| | | | | |reflexivity]; try reflexivity; discriminate.
  - eapply Hs; [| | | | | |reflexivity]; try reflexivity; try discriminate. subst; reflexivity.
  - eapply Hs; [| | | | | |reflexivity]; try reflexivity; discriminate.
  - eapply Hs; [| | | | | |reflexivity]; try reflexivity; discriminate.
  - eapply Hs; [| | | | | |reflexivity]; try reflexivity; discriminate.
  - eapply Hs; [| | | | | |reflexivity]; try reflexivity; discriminate.
  - eapply Hs; [| | | | | |reflexivity]; try reflexivity; discriminate.
  - eapply Hs; [| | | | | |reflexivity]; try reflexivity; discriminate.
  - eapply Hs; [| | | | | |reflexivity]; try reflexivity; discriminate.
  - eapply Hs; [| | | | | |reflexivity]; try reflexivity; discriminate.
  - eapply Hs; [| | | | | |reflexivity]; try reflexivity; try discriminate.
    destruct text as [|d text]; auto. simpl in Ha. specialize (Ha eq_refl). apply Ascii.eqb_neq in Ha.
    simpl. unfold symbol. simpl. rewrite Ha. reflexivity.
  - eapply Hs; [| | | | | |reflexivity]; try reflexivity; discriminate.
  - eapply Hs; [| | | | | |reflexivity]; try reflexivity; try discriminate. subst easy.
    destruct text as [|d text]; auto. simpl in Ha. specialize (Ha eq_refl). apply Ascii.eqb_neq in Ha.
    simpl. unfold symbol. simpl. rewrite Ha. reflexivity.
  - destruct o as [[]|[]].
    all: try (eapply Hs; [| | | | | |reflexivity]; try reflexivity; try discriminate; fail).
    + simpl. eexists _, _. repeat split. unfold lex. simpl.
      destruct text as [|d text]; auto. simpl in Ha. apply Ascii.eqb_neq in Ha. rewrite Ha. reflexivity.
    + eapply Hs; [| | | | | |reflexivity]; try reflexivity; try discriminate.
      destruct text as [|d text]; auto. simpl in Ha. specialize (Ha eq_refl). apply Ascii.eqb_neq in Ha.
      simpl. unfold symbol. simpl. rewrite Ha. reflexivity.
    + eapply Hs; [| | | | | |reflexivity]; try reflexivity; try discriminate.
      destruct text as [|d text]; auto. simpl in Ha. specialize (Ha eq_refl). apply Ascii.eqb_neq in Ha.
      simpl. unfold symbol. simpl. rewrite Ha. reflexivity.
Qed.

Lemma layout_unblank easy ts text : layout easy ts text -> layout easy ts (snd (span is_blank text)).
Proof.
  induction 1 as [|c ts text Hc _ IH|ts text He Hl _|body ts text Hb Hl _|body ts text Hb Hl _|t w ts text Hw Ha Hl _].
  - constructor.
  - simpl. apply is_blank_spec in Hc. rewrite Hc. destruct (span is_blank text). exact IH.
  - simpl. apply l_line; auto.
  - simpl. apply l_block; auto.
  - simpl. apply l_hash; auto.
  - destruct (lex_token _ _ _ _ Hw Ha) as (c&w'&->&Hb&_). simpl. rewrite Hb.
    change (c :: w' ++ text) with ((c :: w') ++ text). apply (l_token easy t (c :: w')); auto.
Qed.

Lemma scan_layout easy n : forall ts text, layout easy ts text -> List.length text < n ->
  scan easy n text = Ok ts.
Proof.
  induction n as [|n IH]; intros ts text Hl Hn; [lia|].
  destruct Hl as [|c ts text Hc Hl|ts text He Hl|body ts text Hb Hl|body ts text Hb Hl|t w ts text Hw Ha Hl].
  - reflexivity.
  - cbn [scan]. simpl in Hn.
    assert (Hx : lex easy c text = Ok (None, snd (span is_blank text))).
    { unfold lex. apply is_blank_spec in Hc as Hc'. rewrite Hc'.
      destruct Hc as [->|[->| ->]]; reflexivity. }
    rewrite Hx. cbn [bind fst snd]. rewrite (IH ts); [reflexivity|apply layout_unblank; auto|].
    pose proof (span_length is_blank text). lia.
  - cbn [scan]. simpl in Hn. subst easy. change (lex false lf text) with (@Ok (option (tok Z) * list ascii) (None, text)).
    cbn [bind fst snd]. rewrite (IH ts) by (auto; lia). reflexivity.
  - cbn [scan]. simpl in Hn. rewrite app_length in Hn. simpl in Hn.
    change (lex easy "/" ("*" :: body ++ "*" :: "/" :: text)) with
      (@Ok (option (tok Z) * list ascii) (None, skip_comment (body ++ "*" :: "/" :: text))).
    cbn [bind fst snd]. rewrite skip_block by auto. rewrite (IH ts) by (auto; lia). reflexivity.
  - cbn [scan]. simpl in Hn. rewrite app_length in Hn. simpl in Hn.
    rewrite lex_hash by auto. cbn [bind fst snd]. rewrite (IH ts) by (auto; simpl; lia). reflexivity.
  - destruct (lex_token _ _ _ _ Hw Ha) as (c&w'&->&_&Hx). simpl in Hn. rewrite app_length in Hn.
    simpl app. cbn [scan]. rewrite Hx. cbn [bind fst snd]. rewrite (IH ts) by (auto; lia). reflexivity.
Qed.

Lemma layout_length easy ts text : layout easy ts text -> List.length ts <= List.length text.
Proof.
  induction 1; simpl; rewrite ?app_length; simpl in *; try lia.
  destruct (lex_token _ _ _ _ H H0) as (c&w'&->&_). simpl. lia.
Qed.

Lemma read_layout easy n text (prog : list (stmt Z)) :
  layout easy (List.concat (map wr_stmt prog)) (list_ascii_of_string text) ->
  11 * String.length text + 6 <= n ->
  read_program easy n text = Ok (Some (map stmt_tree prog)).
Proof.
  intros Hl Hn. unfold read_program.
  assert (Ht : List.length (list_ascii_of_string text) = String.length text).
  { clear. induction text; simpl; auto. }
  rewrite (scan_layout easy n _ _ Hl) by lia. simpl. apply parse_written.
  pose proof (layout_length _ _ _ Hl). lia.
Qed.

Lemma constants_isrc {E} (num : Z -> E) e : constants num (tree_of (isrc e)) = itree num e.
Proof. induction e; simpl; congruence. Qed.

Lemma typed_int : forall (L : lib) (num : Z -> elem L), integers L num ->
  forall (rho : string -> option Z) n prog (s : state L) e m easy k text,
  forallb clean prog = true ->
  eval_program L n prog (boot L) = Ok s ->
  (height e <= m)%nat ->
  (forall x, match rho x with
             | Some z => lookup L x (W (look L s) 0 []) = Some (VElem (num z))
             | None => forall v, lookup L x (W (look L s) 0 []) <> Some (VElem v)
             end) ->
  layout easy (wr_stmt (SExpr (isrc e))) (list_ascii_of_string text) ->
  11 * String.length text + 6 <= k ->
  exists s' v, run_text L num easy k m text s = Ok (Some s') /\
    sout s' = Shown v :: sout s /\ (forall x, look L s' x = look L s x) /\
    match ivalue rho e with
    | Some z => v = VElem (num z)
    | None => type_of v <> TElem
    end.
Proof.
  intros L num HL rho n prog s e m easy k text H1 H2 H3 H4 H5 H6.
  destruct (int_stmt L num HL rho n prog s e m H1 H2 H3 H4) as (s'&v&Hs&Ho).
  exists s', v. split; [|exact Ho]. unfold run_text.
  rewrite (read_layout easy k text [SExpr (isrc e)]); auto.
  - simpl. rewrite constants_isrc, Hs. reflexivity.
  - simpl List.concat. rewrite app_nil_r. exact H5.
Qed.
