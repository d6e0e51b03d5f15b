(** Polynomial rings: the remaining functions, and histories of calls. *)
From Coq Require Import ZArith List Bool Lia Arith Ring Field Setoid Morphisms.
From Verif.Base Require Import Outcome Array Algebra Slots.
From Verif.Spec Require Import Polynomials PolynomialCalls.
From Verif.Model Require Import Poly.
From Verif.Proofs Require Import FieldFacts SlotFacts PolyAlgebra PolyFacts.
Import ListNotations.
Open Scope nat_scope.

Section P.
Variable K : fld.
Hypothesis HK : fld_laws K.
Add Field KFpr : (fl_field K HK).
Notation "0" := (@f0 K). Notation "1" := (@f1 K).
Notation "x + y" := (@fadd K x y). Notation "x * y" := (@fmul K x y). Notation "x - y" := (@fsub K x y).
Notation "- x" := (@fopp K x).
Notation poly := (list K).
Notation pst := (pst K).
Notation assigns := (assigns K).
Notation only := (only K).
Implicit Types f g h m : poly.

Lemma set0_assigns : forall d (st : pst), assigns (poly_set0 K d st) st d (fun _ => 0).
Proof.
  intros d st. unfold poly_set0. exists (pset K st d (poly_alloc K (st d) 0)). split; auto. split; [ | split].
  - rewrite pset_same. apply normal_nil.
  - intro i. rewrite pset_same, coef_alloc. auto.
  - apply pset_only.
Qed.
Lemma alloc_only : forall d n (st : pst), only st (pset K st d (poly_alloc K (st d) n)) d. Proof. intros. apply pset_only. Qed.
(** alloc to n cells, then set cell i *)
Lemma alloc_cell : forall d n i v (st : pst), i < n ->
  exists st', cell_set K d i v (pset K st d (poly_alloc K (st d) n)) = Ok st' /\ only st st' d /\ length (st' d) = n /\
  forall j, coef (st' d) j = if j =? i then v else if j <? n then coef (st d) j else 0.
Proof.
  intros d n i v st H. destruct (cell_ok K d i v (pset K st d (poly_alloc K (st d) n))) as (st' & E & O & L & N).
  - rewrite pset_same, alloc_length. auto.
  - exists st'. split; auto. split; [apply (only_trans K _ _ _ _ (alloc_only d n st) O) | ]. split; [rewrite L, pset_same, alloc_length; auto | ].
    intro j. rewrite (coef_cell K _ _ _ _ N), pset_same, coef_alloc. auto.
Qed.
Lemma set1_assigns : forall d (st : pst), assigns (poly_set1 K d st) st d (fun i => if i =? 0%nat then 1 else 0).
Proof.
  intros d st. unfold poly_set1. destruct (alloc_cell d 1 0 1 st) as (st' & E & O & L & C); [lia | ]. exists st'. split; auto.
  assert (C' : forall i, coef (st' d) i = if i =? 0%nat then 1 else 0).
  { intro i. rewrite C. destruct (Nat.eqb_spec i 0); auto. destruct (Nat.ltb_spec i 1); [lia | auto]. }
  split; [ | split]; auto. apply lead_normal. intros _. rewrite L, C'. apply (f_1_neq_0 K HK).
Qed.
Lemma set_z_assigns : forall d n (st : pst), assigns (poly_set_z K d n st) st d (fun i => if i =? 0%nat then fofz n else 0).
Proof.
  intros d n st. unfold poly_set_z. destruct (alloc_cell d 1 0 (fofz n) st) as (st' & E & O & L & C); [lia | ]. rewrite E. cbn [bind].
  apply (strip_assigns K HK); auto. intro i. rewrite C. destruct (Nat.eqb_spec i 0); auto. destruct (Nat.ltb_spec i 1); [lia | auto].
Qed.
Lemma setx_assigns : forall d (st : pst), assigns (poly_setx K d st) st d (fun i => if i =? 1%nat then 1 else 0).
Proof.
  intros d st. unfold poly_setx. destruct (alloc_cell d 2 1 1 st) as (st1 & E1 & O1 & L1 & C1); [lia | ]. rewrite E1. cbn [bind].
  destruct (cell_ok K d 0 0 st1) as (st2 & E2 & O2 & L2 & N2); [lia | ]. exists st2. split; auto.
  assert (C' : forall i, coef (st2 d) i = if i =? 1%nat then 1 else 0).
  { intro i. rewrite (coef_cell K _ _ _ _ N2), C1. destruct (Nat.eqb_spec i 0), (Nat.eqb_spec i 1); auto; try lia. destruct (Nat.ltb_spec i 2); [lia | auto]. }
  split; [ | split]; auto.
  - apply lead_normal. intros _. rewrite L2, L1, C'. apply (f_1_neq_0 K HK).
  - apply (only_trans K _ _ _ _ O1 O2).
Qed.
(** extending with zero cells *)
Lemma grow : forall d n (st : pst), exists st',
  (if length (st d) <? (n + 1)%nat then pset K st d (poly_alloc K (st d) (n + 1)) else st) = st' /\ only st st' d /\
  length (st' d) = max (length (st d)) (n + 1) /\ forall i, coef (st' d) i = coef (st d) i.
Proof.
  intros d n st. eexists. split; [reflexivity | ]. destruct (Nat.ltb_spec (length (st d)) (n + 1)%nat) as [L | L].
  - split; [apply alloc_only | ]. rewrite pset_same, alloc_length. split; [lia | ]. intro i. rewrite coef_alloc. destruct (Nat.ltb_spec i (n + 1)%nat); auto.
    rewrite coef_over by lia. auto.
  - split; [intros ? ?; auto | ]. split; [lia | auto].
Qed.
Lemma set_coeff_assigns : forall d c n (st : pst), normal (st d) -> assigns (poly_set_coeff K d c n st) st d (fun i => if i =? n then c else coef (st d) i).
Proof.
  intros d c n st N. unfold poly_set_coeff. destruct (grow d n st) as (st1 & E1 & O1 & L1 & C1). rewrite E1.
  destruct (cell_ok K d n c st1) as (st2 & E2 & O2 & L2 & N2); [lia | ]. rewrite E2. cbn [bind].
  assert (C' : forall i, coef (st2 d) i = if i =? n then c else coef (st d) i) by (intro i; rewrite (coef_cell K _ _ _ _ N2), C1; auto).
  assert (O : only st st2 d) by (apply (only_trans K _ _ _ _ O1 O2)).
  destruct (Nat.eqb_spec (length (st2 d)) (n + 1)%nat) as [L | L]; cbn [andb].
  - destruct (feqb c 0) eqn:Z.
    + apply (strip_assigns K HK); auto.
    + exists st2. split; auto. split; [ | split]; auto. apply lead_normal. intros _. rewrite L, C'. replace (n + 1 - 1)%nat with n by lia.
      rewrite Nat.eqb_refl. apply (feqb_neq K HK); auto.
  - exists st2. split; auto. split; [ | split]; auto. apply lead_normal. intros _. rewrite C'.
    assert (L3 : length (st2 d) = length (st d) /\ (n + 1 < length (st d))%nat) by lia. destruct L3 as [L3 L4]. rewrite L3.
    destruct (Nat.eqb_spec (length (st d) - 1) n); [lia | ].
    apply normal_lead; auto. intro Z. rewrite Z in L4. cbn [length] in L4. lia.
Qed.
Lemma set_coeff0_assigns : forall d n (st : pst), normal (st d) -> assigns (poly_set_coeff0 K d n st) st d (fun i => if i =? n then 0 else coef (st d) i).
Proof.
  intros d n st N. unfold poly_set_coeff0. destruct (Nat.ltb_spec n (length (st d))) as [H | H].
  - destruct (cell_ok K d n 0 st H) as (st2 & E2 & O2 & L2 & N2). rewrite E2. cbn [bind].
    assert (C' : forall i, coef (st2 d) i = if i =? n then 0 else coef (st d) i) by (apply coef_cell; auto).
    destruct (Nat.eqb_spec n (length (st2 d) - 1)) as [L | L].
    + apply (strip_assigns K HK); auto.
    + exists st2. split; auto. split; [ | split]; auto. apply lead_normal. intros _. rewrite C', L2. destruct (Nat.eqb_spec (length (st d) - 1) n); [lia | ].
      apply normal_lead; auto. intro Z. rewrite Z in H. cbn [length] in H. lia.
  - exists st. split; auto. split; [ | split]; auto. intro i. destruct (Nat.eqb_spec i n); auto. rewrite coef_over by lia. auto.
Qed.
Lemma set_coeff1_assigns : forall d n (st : pst), normal (st d) -> assigns (poly_set_coeff1 K d n st) st d (fun i => if i =? n then 1 else coef (st d) i).
Proof.
  intros d n st N. unfold poly_set_coeff1. destruct (grow d n st) as (st1 & E1 & O1 & L1 & C1). rewrite E1.
  destruct (cell_ok K d n 1 st1) as (st2 & E2 & O2 & L2 & N2); [lia | ]. exists st2. split; auto.
  assert (C' : forall i, coef (st2 d) i = if i =? n then 1 else coef (st d) i) by (intro i; rewrite (coef_cell K _ _ _ _ N2), C1; auto).
  split; [ | split]; auto.
  - apply lead_normal. intros _. rewrite C', L2, L1. destruct (Nat.eqb_spec (max (length (st d)) (n + 1) - 1) n); [apply (f_1_neq_0 K HK) | ].
    assert (L3 : (n + 1 < length (st d))%nat) by lia. replace (max (length (st d)) (n + 1))%nat with (length (st d)) by lia. apply normal_lead; auto.
    intro Z. rewrite Z in L3. cbn [length] in L3. lia.
  - apply (only_trans K _ _ _ _ O1 O2).
Qed.
Lemma monic_assigns : forall d a (st : pst), normal (st a) -> exists c t, poly_make_monic K d a st = Ok t /\
  becomes K st d (fun i => c * coef (st a) i) t /\ (st a = [] \/ coef (t d) (length (st a) - 1) = 1).
Proof.
  intros d a st N. unfold poly_make_monic. set (n := length (st a)). set (st0 := pset K st d (poly_alloc K (st d) n)).
  destruct (Nat.eqb_spec n 0) as [Z | Z].
  - exists 1, st0. split; auto. assert (A : st a = []) by (apply length_0; auto). split; auto. split; [ | split].
    + unfold st0. rewrite pset_same, Z. apply normal_nil.
    + intro i. unfold st0. rewrite pset_same, Z, A, coef_alloc, coef_nil. cbn [Nat.ltb Nat.leb]. ring.
    + apply pset_only.
  - assert (Za : st a <> []) by (intro H; apply Z; unfold n; rewrite H; auto). pose proof (normal_lead K _ N Za) as Lead. fold n in Lead.
    assert (L0 : length (st0 d) = n) by (unfold st0; rewrite pset_same; apply alloc_length).
    assert (A0 : forall i, i < n -> nth_error (st0 a) i = Some (coef (st a) i)).
    { intros i Hi. unfold st0. destruct (Nat.eq_dec a d) as [A | A].
      - subst d. rewrite pset_same, alloc_nth_error by (auto; fold n; lia). apply nth_error_nth'. auto.
      - rewrite pset_other by auto. apply nth_error_nth'. auto. }
    rewrite (get_nth _ _ _ _ (A0 (n - 1)%nat ltac:(lia))). cbn [bind]. rewrite (finvert_ok K HK) by auto. cbn [bind].
    set (e := finv (coef (st a) (n - 1))).
    destruct (cell_ok K d (n - 1) e st0 ltac:(lia)) as (st1 & E1 & O1 & L1 & N1). rewrite E1. cbn [bind].
    destruct (fill K d (fun i => coef (st a) i * e) (fun i (st : pst) => c <- get (st a) i ;; x <- get (st d) (n - 1) ;; cell_set K d i (c * x) st) (n - 1) 0 st1) as (st2 & E2 & O2 & L2 & N2).
    + intros j st' Hj Ho Hl Ht.
      assert (G : get (st' a) j = Ok (coef (st a) j)).
      { apply get_nth. destruct (Nat.eq_dec a d) as [A | A].
        - subst d. rewrite Ht by lia. rewrite N1. destruct (Nat.eqb_spec j (n - 1)); [lia | ]. apply A0. lia.
        - rewrite Ho by auto. rewrite O1 by auto. apply A0. lia. }
      assert (G2 : get (st' d) (n - 1) = Ok e) by (apply get_nth; rewrite Ht, N1, Nat.eqb_refl by lia; auto).
      rewrite G, G2. reflexivity.
    + lia.
    + destruct (cell_ok K d (n - 1) 1 st2 ltac:(lia)) as (st3 & E3 & O3 & L3 & N3). exists e, st3.
      split; [exact (eq_trans (f_equal (fun z : res pst => bind z (fun st : pst => cell_set K d (n - 1) 1 st)) E2) E3) | ].
      assert (C : forall i, coef (st3 d) i = e * coef (st a) i).
      { intro i. rewrite (coef_cell K _ _ _ _ N3), (coef_fill K _ _ _ _ _ N2), (coef_cell K _ _ _ _ N1). cbn [Nat.leb andb Nat.add].
        destruct (Nat.eqb_spec i (n - 1)) as [I | I].
        - subst i. unfold e. field. auto.
        - destruct (Nat.ltb_spec i (n - 1)); [ring | ]. rewrite !coef_over; [ring | fold n; lia | lia]. }
      split; [split; [ | split] | right]; auto.
      * apply lead_normal. intros _. rewrite C. replace (length (st3 d)) with n by congruence. apply (f_mul_nz K HK); auto. apply (f_inv_nz K HK); auto.
      * apply (only_trans K _ _ _ _ (alloc_only d n st)). apply (only_trans K _ _ _ _ O1). apply (only_trans K _ _ _ _ O2 O3).
      * rewrite C. unfold e. field. auto.
Qed.
Lemma value_assigns : forall d f c (st : pst), normal f -> (forall i, coef f i = c i) -> becomes K st d c (pset K st d f).
Proof. intros d f c st N C. split; [ | split]; [rewrite pset_same; auto | intro; rewrite pset_same; auto | apply pset_only]. Qed.

Local Notation fits := (fits K).
Definition all_normal (st : pst) : Prop := forall v, normal (st v).

Lemma cmp_spec : forall f g, poly_cmp K f g = false <-> f = g.
Proof.
  intros f g. unfold poly_cmp. rewrite orb_false_iff, !negb_false_iff, Nat.eqb_eq. split.
  - revert g. induction f as [ | x f IH]; intros [ | y g] [H1 H2]; try discriminate; auto. cbn [combine forallb fst snd] in H2.
    apply andb_true_iff in H2. destruct H2 as [H2 H3]. apply (feqb_eq K HK) in H2. subst. f_equal. apply IH. cbn [length] in H1. split; [lia | auto].
  - intro. subst g. split; auto. induction f as [ | x f IH]; auto. cbn [combine forallb fst snd]. rewrite IH, andb_true_r. apply (feqb_refl K HK).
Qed.
Lemma step_ok : forall (st : pst) c, all_normal st -> fits c ->
  exists N r, (forall fuel, N <= fuel -> p_step K fuel st c = r) /\ pspec K st c r.
Proof.
  assert (G : forall (st : pst) (c : pcall K) (m : res pst) d w, (forall fuel, p_step K fuel st c = (st <- m ;; Ok (st, []))) -> assigns m st d w ->
    (forall t, becomes K st d w t -> pspec K st c (Ok (t, []))) ->
    exists N r, (forall fuel, N <= fuel -> p_step K fuel st c = r) /\ pspec K st c r).
  { intros st c m d w E (t & Em & B) P. exists O, (Ok (t, [])). split; [intros; rewrite E, Em; reflexivity | auto]. }
  intros st c N F. destruct c as [d a | d | d | d n | d | d a b | d a b | d a b | d a | d a | d a | d a n | d c a | d a | q r a b | d a b | d c n | d n | d n | a | a | a b | a | a i].
  - eapply G; [reflexivity | apply (map_assigns K) with (op := fun c => c); auto | ]. apply s_set.
  - eapply G; [reflexivity | apply set0_assigns | ]. apply s_set0.
  - eapply G; [reflexivity | apply set1_assigns | ]. apply s_set1.
  - eapply G; [reflexivity | apply set_z_assigns | ]. apply s_setz.
  - eapply G; [reflexivity | apply setx_assigns | ]. apply s_setx.
  - eapply G; [reflexivity | apply (add_assigns K HK) | ]. apply s_add.
  - eapply G; [reflexivity | apply (sub_assigns K HK) | ]. apply s_sub.
  - destruct (mul_value_ok K HK (st a) (st b)) as (p & E & Np & Q).
    exists O. eexists. split; [intros; cbn [p_step]; unfold poly_mul; rewrite E; reflexivity | ].
    apply s_mul. apply value_assigns; auto. intro i. rewrite Q. apply (coef_mulp K HK).
  - eapply G; [reflexivity | apply (map_assigns K) with (op := @fopp K); auto | ].
    + ring.
    + intros. apply (f_opp_nz K HK); auto.
    + apply s_neg.
  - destruct (mul_value_ok K HK (st a) (st a)) as (p & E & Np & Q).
    exists O. eexists. split; [intros; cbn [p_step]; unfold poly_mul; rewrite E; reflexivity | ].
    apply s_sqr. apply value_assigns; auto. intro i. rewrite Q. apply (coef_mulp K HK).
  - eapply G; [reflexivity | apply (map_assigns K) with (op := fun c => c + c); auto | ].
    + ring.
    + intros c Hc E. cbn [fits] in F. apply (f_mul_nz K HK _ _ F Hc). rewrite <- E. change (fofz 2) with (1 + 1). ring.
    + apply s_dbl.
  - eapply G; [reflexivity | apply (map_assigns K) with (op := fun c => fmulz c n); auto | ]; unfold fmulz.
    + ring.
    + intros c Hc. apply (f_mul_nz K HK); auto.
    + apply s_mulz.
  - eapply G; [reflexivity | apply (const_mul_assigns K HK) | ]. apply s_cmul.
  - destruct (monic_assigns d a st (N a)) as (c & t & E & B & L). exists O, (Ok (t, [])). split; [intros; cbn [p_step]; rewrite E; reflexivity | ].
    apply (s_monic K st d a t c); auto.
  - destruct (list_eq_dec (f_eq_dec K HK) (st b) []) as [Z | Z].
    + exists O, Die. split; [ | apply s_div0; auto]. intros. cbn [p_step]. unfold poly_div, div_value, poly_is0. rewrite Z. reflexivity.
    + pose proof (div_value_ok K HK (st a) (st b) (N a) (N b) Z) as H. destruct (div_value K (st a) (st b)) as [[[x y] | ] | | | ] eqn:E; try contradiction.
      * exists O, (Ok (pset K (pset K st q x) r y, [])). split; [intros; cbn [p_step]; unfold poly_div; rewrite E; reflexivity | ].
        destruct H as (H1 & H2 & H3 & H4).
        assert (Tq : pset K (pset K st q x) r y q = x) by (rewrite pset_other, pset_same; auto).
        apply s_div; auto; rewrite ?Tq, ?pset_same; auto.
        -- intro i. rewrite H3, (coef_addp K HK), (coef_mulp K HK). auto.
        -- intros v V1 V2. rewrite !pset_other; auto.
      * destruct (map_assigns K (fun c => c) r a st (N a) eq_refl (fun c H => H)) as (t & E1 & B1 & B2 & B3).
        destruct (set0_assigns q t) as (t' & E2 & C1 & C2 & C3).
        exists O, (Ok (t', [])). split; [intros; cbn [p_step]; unfold poly_div, poly_set; rewrite E; cbn [bind]; rewrite E1; cbn [bind]; rewrite E2; reflexivity | ].
        assert (Tr : t' r = t r) by (apply C3; auto).
        assert (La : t r = st a) by (apply (normal_unique K); auto; exact B2).
        apply s_div; auto; rewrite ?Tr, ?La; auto.
        -- intro i. assert (Q : t' q = []) by (apply (normal_unique K); auto; [apply normal_nil | intro j; rewrite C2, coef_nil; auto]).
           rewrite Q, <- (coef_mulp K HK). cbn [mulp]. rewrite coef_nil. ring.
        -- intros v V1 V2. rewrite C3, B3; auto.
  - destruct (list_eq_dec (f_eq_dec K HK) (st b) []) as [Z | Z].
    + exists 1%nat, Die. split; [ | apply s_gcd0; auto]. intros [ | fuel] Hf; [lia | ]. cbn [p_step]. unfold poly_gcd. cbn [gcd_loop]. unfold divmod, div_value, poly_is0. rewrite Z. reflexivity.
    + destruct (gcd_loop_ok K HK (length (st b)) (st a) (st b) (N a) (N b) Z (le_n _)) as (p & Fu & Np & Zp & D1 & D2 & (u & w & D3)).
      exists (length (st b)), (Ok (pset K st d p, [])). split; [intros; cbn [p_step]; unfold poly_gcd; rewrite Fu by auto; reflexivity | ].
      apply (s_gcd K st d a b _ u w); auto; rewrite ?pset_same; try (apply (divides_mulp K HK); auto).
      apply value_assigns; auto. intro i. rewrite D3, (coef_addp K HK), !(coef_mulp K HK). auto.
  - eapply G; [reflexivity | apply set_coeff_assigns; auto | ]. apply s_coeff.
  - eapply G; [reflexivity | apply set_coeff0_assigns; auto | ]. apply s_coeff0.
  - eapply G; [reflexivity | apply set_coeff1_assigns; auto | ]. apply s_coeff1.
  - exists O. eexists. split; [intros; cbn [p_step]; reflexivity | ]. apply s_is0. rewrite (is0_spec K). split.
    + intros E i. rewrite E. apply coef_nil.
    + intro H. apply (normal_unique K); auto; [apply normal_nil | ]. intro i. rewrite H, coef_nil. auto.
  - exists O. eexists. split; [intros; cbn [p_step]; reflexivity | ]. apply s_is1.
    assert (N1 : normal [1]) by (intros _; apply (f_1_neq_0 K HK)).
    assert (C1 : forall i, coef [1] i = if i =? 0%nat then 1 else 0) by (intros [ | i]; rewrite coef_cons; [auto | apply coef_nil]).
    split.
    + unfold poly_is1. destruct (st a) as [ | x [ | ]]; try discriminate. intro E. apply (feqb_eq K HK) in E. subst x. auto.
    + intro H. assert (E : st a = [1]) by (apply (normal_unique K); auto; intro i; rewrite H, C1; auto). rewrite E. unfold poly_is1. apply (feqb_refl K HK).
  - exists O. eexists. split; [intros; cbn [p_step]; reflexivity | ]. apply s_cmp. rewrite cmp_spec. split; [intro E; rewrite E; intro; auto | apply (normal_unique K); auto].
  - exists O. eexists. split; [intros; cbn [p_step]; reflexivity | ]. unfold poly_degree. destruct (list_eq_dec (f_eq_dec K HK) (st a) []) as [Z | Z].
    + rewrite Z. apply s_degree0. rewrite Z. apply coef_nil.
    + pose proof (length_pos K _ Z). replace (Z.of_nat (length (st a)) - 1)%Z with (Z.of_nat (length (st a) - 1)) by lia.
      apply s_degree; [apply normal_lead; auto | ]. intros i Hi. apply coef_over. lia.
  - destruct (lt_dec i (length (st a))) as [L | L].
    + exists O. eexists. split; [intros; cbn [p_step]; rewrite (get_coef K) by auto; reflexivity | ]. apply s_item. auto.
    + exists O, UB. split; [ | apply s_item_out; lia]. intros. cbn [p_step]. unfold get. rewrite (proj2 (nth_error_None (st a) i)) by lia. reflexivity.
Qed.
Lemma becomes_normal : forall (st : pst) d c t, all_normal st -> becomes K st d c t -> all_normal t.
Proof. intros st d c t N (H1 & H2 & H3) v. destruct (Nat.eq_dec v d) as [E | E]; [subst; auto | rewrite H3; auto]. Qed.
Lemma pspec_normal : forall (st : pst) c t os, all_normal st -> pspec K st c (Ok (t, os)) -> all_normal t.
Proof.
  intros st c t os N P. inversion P; subst; eauto using becomes_normal. intro v.
  destruct (Nat.eq_dec v q) as [E | E]; [subst; auto | ]. destruct (Nat.eq_dec v r) as [E2 | E2]; [subst; auto | ].
  match goal with H : forall v, v <> q -> v <> r -> _ |- _ => rewrite H; auto end.
Qed.
Lemma pspec_outcome : forall (st : pst) c r, pspec K st c r -> (exists t os, r = Ok (t, os)) \/ r = UB \/ r = Die.
Proof. intros st c r P. inversion P; subst; eauto. Qed.
Theorem p_run_ok : forall (h : list (pcall K)) (st : pst), all_normal st -> Forall fits h ->
  exists N r, (forall fuel, N <= fuel -> p_run K fuel st h = r) /\ pspec_run K st h r /\
  forall t os, r = Ok (t, os) -> forall v, normal (t v).
Proof.
  induction h as [ | c h IH]; intros st N F.
  - exists O, (Ok (st, [])). split; [reflexivity | ]. split; [constructor | ]. intros t os E v. inversion E. subst. apply N.
  - inversion F as [ | c' h' F1 F2]; subst. destruct (step_ok st c N F1) as (N1 & r1 & E1 & P1).
    destruct (pspec_outcome _ _ _ P1) as [(t & os & E) | E].
    + subst r1. destruct (IH t (pspec_normal _ _ _ _ N P1) F2) as (N2 & r2 & E2 & P2 & Q2).
      exists (max N1 N2), (r' <- r2 ;; Ok (fst r', os ++ snd r')). split.
      * intros fuel Hf. cbn [p_run]. rewrite E1 by lia. cbn [bind fst snd]. rewrite E2 by lia. reflexivity.
      * assert (O2 : (exists t os, r2 = Ok (t, os)) \/ r2 = UB \/ r2 = Die) by (inversion P2; subst; eauto).
        destruct O2 as [(t' & os' & E) | E].
        -- subst r2. cbn [bind fst snd]. split; [apply (r_cons K st c t); auto | ]. intros t0 os0 E0. inversion E0. subst. eapply Q2. reflexivity.
        -- split; [apply (r_stop K st c t os) with (e := r2) in P2; auto; destruct E; subst; auto | destruct E; subst; discriminate].
    + exists N1, r1. split; [ | split].
      * intros fuel Hf. cbn [p_run]. rewrite E1 by auto. destruct E; subst; reflexivity.
      * apply r_here; auto.
      * destruct E; subst; discriminate.
Qed.
End P.
