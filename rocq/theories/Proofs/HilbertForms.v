(** The forms that pbc_hilbert visits. *)
From Coq Require Import ZArith List Bool Lia Znumtheory.
From Verif.Base Require Import Outcome Algebra.
From Verif.Spec Require Import ClassPolynomial.
From Verif.Model Require Import Hilbert.
From Verif.Proofs Require Import RandomFacts.
Import ListNotations.
Open Scope Z_scope.

Lemma cint_ok : forall x, 0 <= x < 2 ^ 31 -> cint x = Ok x.
Proof.
  intros x H. unfold cint. replace (- 2 ^ 31 <=? x) with true by (symmetry; apply Z.leb_le; lia).
  replace (x <? 2 ^ 31) with true by (symmetry; apply Z.ltb_lt; lia). auto.
Qed.
Lemma inner_ok : forall fuel b t a, 1 <= a -> a * a <= t -> t < 2 ^ 30 -> t < Z.of_nat fuel + a ->
  exists l, forms_a fuel b t a = Ok l /\ NoDup l /\
    forall v, In v l <-> exists a', v = (a', b, t) /\ a <= a' /\ a' * a' <= t /\ (a' | t).
Proof.
  induction fuel as [ | f IH]; intros b t a A S T F; [nia | ]. cbn [forms_a].
  rewrite cint_ok by nia. cbn [bind]. set (here := if Z.rem t a =? 0 then [(a, b, t)] else []).
  assert (HN : NoDup here) by (unfold here; destruct (Z.rem t a =? 0); repeat constructor; auto).
  assert (HH : forall v, In v here <-> v = (a, b, t) /\ (a | t)).
  { intro v. unfold here. assert (D : (Z.rem t a =? 0) = true <-> (a | t)).
    { rewrite Z.eqb_eq, Z.rem_mod_nonneg by lia. apply Z.mod_divide. lia. }
    destruct (Z.rem t a =? 0); cbn [In].
    - split; [intros [<- | []]; split; auto; apply D; auto | intros [-> _]; auto].
    - split; [intros [] | intros [_ H]; apply D in H; discriminate]. }
  destruct ((a + 1) * (a + 1) <=? t) eqn:Q.
  - apply Z.leb_le in Q. destruct (IH b t (a + 1)) as (l & E & N & I); [lia | lia | lia | lia | ]. rewrite E. cbn [bind].
    exists (here ++ l). split; [reflexivity | ]. split.
    + apply NoDup_app_intro; auto. intros v I1 I2. apply HH in I1. apply I in I2. destruct I1 as [-> _]. destruct I2 as (a' & EE & L & _). inversion EE; lia.
    + intro v. rewrite in_app_iff, HH, I. split.
      * intros [[-> D] | (a' & -> & L & SS & D)]; [exists a | exists a']; repeat split; auto; lia.
      * intros (a' & -> & L & SS & D). destruct (Z.eq_dec a a') as [<- | NE]; [left; auto | right; exists a'; repeat split; auto; lia].
  - apply Z.leb_gt in Q. exists here. split; [reflexivity | ]. split; auto. intro v. rewrite HH. split.
    + intros [-> D]. exists a. repeat split; auto; lia.
    + intros (a' & -> & L & SS & D). assert (a' = a) by nia. subst. auto.
Qed.
Lemma start_a : forall D b, 0 < D -> D mod 4 = 0 \/ D mod 4 = 3 -> 0 <= b -> 3 * (b * b) <= D -> b mod 2 = D mod 2 ->
  let t := Z.quot (b * b + D) 4 in 4 * t = b * b + D /\ 1 <= t /\ (if 1 <? b then b else 1) * (if 1 <? b then b else 1) <= t.
Proof.
  intros D b P M B L E t. assert (Q : 4 * t = b * b + D).
  { unfold t. rewrite Z.quot_div_nonneg by nia. assert (X : (b * b + D) mod 4 = 0).
    { assert (B4 : b mod 4 = 0 \/ b mod 4 = 1 \/ b mod 4 = 2 \/ b mod 4 = 3) by (pose proof (Z.mod_pos_bound b 4); lia).
      pose proof (Z.div_mod b 4). pose proof (Z.div_mod D 4). pose proof (Z.div_mod b 2). pose proof (Z.div_mod D 2). pose proof (Z.mod_pos_bound b 2). pose proof (Z.mod_pos_bound D 2).
      rewrite Z.add_mod, Z.mul_mod by lia. destruct B4 as [B4 | [B4 | [B4 | B4]]]; destruct M as [M | M]; rewrite B4, M; try reflexivity; exfalso; lia. }
    pose proof (Z.div_mod (b * b + D) 4). lia. }
  split; auto. split; [nia | ]. destruct (1 <? b) eqn:Q1; [apply Z.ltb_lt in Q1; nia | nia].
Qed.
Lemma bound_ok : forall D x, 0 < D -> 0 <= x -> x <= form_bound D <-> 3 * (x * x) <= D.
Proof.
  intros D x P X. unfold form_bound. rewrite <- Z.sqrt_le_square by (try apply Z.div_pos; lia). split; intro H.
  - pose proof (Z.div_mod D 3). pose proof (Z.mod_pos_bound D 3). lia.
  - apply Z.div_le_lower_bound; lia.
Qed.
Lemma outer_ok : forall fuel D b, 0 < D -> D mod 4 = 0 \/ D mod 4 = 3 -> D < 2 ^ 30 -> 0 <= b -> 3 * (b * b) <= D -> b mod 2 = D mod 2 -> D < Z.of_nat fuel + b ->
  exists l, forms_b fuel D (form_bound D) b = Ok l /\ NoDup l /\
    forall a b' t, In (a, b', t) l <-> b <= b' /\ b' mod 2 = D mod 2 /\ 3 * (b' * b') <= D /\ 4 * t = b' * b' + D /\ 1 <= a /\ b' <= a /\ a * a <= t /\ (a | t).
Proof.
  induction fuel as [ | f IH]; intros D b P M U B L E F; [nia | ].
  cbn [forms_b]. destruct (start_a D b P M B L E) as (T4 & T1 & AT). rewrite cint_ok by nia. cbn [bind]. set (t := Z.quot (b * b + D) 4) in *.
  set (a0 := if 1 <? b then b else 1) in *. assert (A0 : 1 <= a0 /\ b <= a0 /\ (a0 = 1 \/ a0 = b)).
  { unfold a0. destruct (1 <? b) eqn:Q; [apply Z.ltb_lt in Q | apply Z.ltb_ge in Q]; lia. }
  destruct (inner_ok (S f) b t a0) as (l & E1 & N1 & I1); [lia | auto | nia | nia | ]. rewrite E1. cbn [bind].
  assert (Here : forall a b' t', In (a, b', t') l <-> b' = b /\ b' mod 2 = D mod 2 /\ 3 * (b' * b') <= D /\ 4 * t' = b' * b' + D /\ 1 <= a /\ b' <= a /\ a * a <= t' /\ (a | t')).
  { intros a b' t'. rewrite I1. split.
    - intros (a' & Q & X & Y & Z0). inversion Q; subst. repeat split; auto; lia.
    - intros (-> & _ & _ & X & Y & Z0 & W & V). assert (t' = t) by lia. subst t'. exists a. repeat split; auto. lia. }
  assert (SQ : forall x, 0 <= x -> x <= form_bound D <-> 3 * (x * x) <= D).
  { intros x X. apply bound_ok; lia. }
  assert (PB : (b + 2) mod 2 = D mod 2) by (rewrite <- E; replace (b + 2) with (b + 1 * 2) by lia; apply Z.mod_add; lia).
  destruct (form_bound D <? b + 2) eqn:Q.
  - apply Z.ltb_lt in Q. exists l. split; [reflexivity | ]. split; auto. intros a b' t'. rewrite Here. split.
    + intros (-> & H). split; [lia | exact H].
    + intros (LE & PA & H3 & H4). assert (b' <= form_bound D) by (apply SQ; [lia | auto]). assert (b' = b); [ | split; auto].
      assert (b' = b \/ b' = b + 1) as [ | X] by lia; auto. exfalso. subst b'. rewrite <- E in PA. pose proof (Z.div_mod (b + 1) 2). pose proof (Z.div_mod b 2). lia.
  - apply Z.ltb_ge in Q. destruct (IH D (b + 2)) as (l' & E2 & N2 & I2); auto; [lia | apply SQ; lia | lia | ]. rewrite E2. cbn [bind].
    exists (l ++ l'). split; [reflexivity | ]. split.
    + apply NoDup_app_intro; auto. intros [[a b'] t'] J1 J2. apply Here in J1. apply I2 in J2. lia.
    + intros a b' t'. rewrite in_app_iff, Here, I2. split.
      * intros [(-> & H) | (LE & H)]; split; auto; lia.
      * intros (LE & PA & H). destruct (Z.eq_dec b' b) as [-> | NE]; [left; auto | right]. split; [ | split; auto].
        assert (b' = b + 1 \/ b + 2 <= b') as [X | ] by lia; auto. exfalso. subst b'. rewrite <- E in PA. pose proof (Z.div_mod (b + 1) 2). pose proof (Z.div_mod b 2). lia.
Qed.
(** One of each pair of opposite reduced forms. *)
Lemma forms_ok : forall D, discriminant D -> D < 2 ^ 30 -> forall fuel, D < Z.of_nat fuel ->
  exists l, forms fuel D = Ok l /\ NoDup l /\
    forall a b t, In (a, b, t) l <-> 0 <= b /\ exists c, t = a * c /\ reduced D a b c.
Proof.
  intros D [P M] U fuel F. assert (D3 : 3 <= D).
  { destruct (Z.eq_dec D 1) as [-> | ]; [destruct M as [M | M]; discriminate M | ]. destruct (Z.eq_dec D 2) as [-> | ]; [destruct M as [M | M]; discriminate M | ]. lia. }
  assert (R : Z.rem D 2 = D mod 2) by (apply Z.rem_mod_nonneg; lia). unfold forms. rewrite R. pose proof (Z.mod_pos_bound D 2).
  destruct (outer_ok fuel D (D mod 2)) as (l & E & N & I); auto; [lia | nia | apply Z.mod_mod; lia | lia | ].
  exists l. split; auto. split; auto. intros a b t. rewrite I. split.
  - intros (B0 & PA & H3 & H4 & A1 & AB & SQ & (c & T)). split; [lia | ]. exists c. split; [lia | ]. unfold reduced. rewrite Z.abs_eq by lia. repeat split; try nia.
  - intros (B0 & c & T & (DD & A1 & AC & _)). rewrite Z.abs_eq in AC by lia. subst t.
    assert (PA : b mod 2 = D mod 2).
    { replace D with (b * b + (2 * a * c - b * b) * 2) by nia. rewrite Z.mod_add by lia. rewrite Z.mul_mod by lia.
      pose proof (Z.mod_pos_bound b 2). assert (b mod 2 = 0 \/ b mod 2 = 1) as [-> | ->] by lia; reflexivity. }
    repeat split; auto; try nia; [ | exists c; lia]. rewrite <- PA. apply Z.mod_le; lia.
Qed.
Lemma form_primitive : forall D a b c, fundamental D -> reduced D a b c -> primitive a b c.
Proof.
  intros D a b c [DD FU] (E & A & _). unfold primitive. set (g := Z.gcd a (Z.gcd b c)).
  assert (G0 : 0 <= g) by apply Z.gcd_nonneg. destruct (Z.eq_dec g 1) as [ | N]; auto. exfalso.
  destruct (Z.gcd_divide_l a (Z.gcd b c)) as [x X]. destruct (Z.gcd_divide_r a (Z.gcd b c)) as [u Ug]. fold g in X, Ug.
  assert (Hb : (g | b)) by (apply Z.divide_trans with (Z.gcd b c); [exists u; auto | apply Z.gcd_divide_l]).
  assert (Hc : (g | c)) by (apply Z.divide_trans with (Z.gcd b c); [exists u; auto | apply Z.gcd_divide_r]).
  destruct Hb as [y Y]. destruct Hc as [z Z0]. clearbody g. assert (G1 : 1 < g) by (destruct (Z.eq_dec g 0) as [G | ]; [rewrite G in X; lia | lia]).
  assert (ED : D = g * g * (4 * x * z - y * y)) by (replace D with (4 * a * c - b * b) by lia; rewrite X, Y, Z0; ring).
  apply (FU g G1 (4 * x * z - y * y) ED). destruct DD as [P M]. split; [nia | ]. clear.
  pose proof (Z.div_mod y 2). pose proof (Z.mod_pos_bound y 2). assert (y mod 2 = 0 \/ y mod 2 = 1) as [W | W] by lia.
  - left. replace (4 * x * z - y * y) with ((x * z - (y / 2) * (y / 2)) * 4) by nia. apply Z.mod_mul. lia.
  - right. replace (4 * x * z - y * y) with (3 + (x * z - (y / 2) * (y / 2) - y / 2 - 1) * 4) by nia. rewrite Z.mod_add by lia. reflexivity.
Qed.

(** All the reduced forms. *)
Definition both (v : Z * Z * Z) : list (Z * Z * Z) :=
  let '(a, b, t) := v in if (a =? b) || (a * a =? t) || (b =? 0) then [(a, b, t / a)] else [(a, b, t / a); (a, - b, t / a)].
Lemma both_in : forall D l, (forall a b t, In (a, b, t) l <-> 0 <= b /\ exists c, t = a * c /\ reduced D a b c) ->
  forall a b c, In (a, b, c) (flat_map both l) <-> reduced D a b c.
Proof.
  intros D l H a b c. rewrite in_flat_map. split.
  - intros ([[a' b'] t'] & I & J). apply H in I. destruct I as (B & c' & T & R). pose proof R as (E & A & AB & S).
    subst t'. cbn [both] in J. replace (a' * c' / a') with c' in J by (rewrite Z.mul_comm, Z.div_mul by lia; auto).
    destruct ((a' =? b') || (a' * a' =? a' * c') || (b' =? 0)) eqn:Q; cbn [In] in J.
    + destruct J as [J | []]. inversion J; subst. auto.
    + apply orb_false_iff in Q. destruct Q as [Q Q3]. apply orb_false_iff in Q. destruct Q as [Q1 Q2]. apply Z.eqb_neq in Q1, Q2, Q3.
      destruct J as [J | [J | []]]; inversion J; subst; auto. unfold reduced. rewrite Z.abs_opp. repeat split; try nia.
  - intro R. pose proof R as (E & A & AB & S). exists (a, Z.abs b, a * c). split.
    + apply H. split; [lia | ]. exists c. split; auto. unfold reduced. rewrite (Z.abs_eq (Z.abs b)) by lia. rewrite Z.abs_square. repeat split; try nia; lia.
    + cbn [both]. replace (a * c / a) with c by (rewrite Z.mul_comm, Z.div_mul by lia; auto).
      destruct ((a =? Z.abs b) || (a * a =? a * c) || (Z.abs b =? 0)) eqn:Q; cbn [In].
      * left. f_equal. f_equal. apply orb_true_iff in Q. rewrite orb_true_iff, !Z.eqb_eq in Q. destruct Q as [[Q | Q] | Q]; [ | | lia].
        -- assert (0 <= b) by (apply S; lia). lia.
        -- assert (0 <= b) by (apply S; nia). lia.
      * destruct (Z.le_ge_cases 0 b); [left; f_equal; f_equal; lia | right; left; f_equal; f_equal; lia].
Qed.
Lemma both_nodup : forall D l, (forall a b t, In (a, b, t) l <-> 0 <= b /\ exists c, t = a * c /\ reduced D a b c) -> NoDup l -> NoDup (flat_map both l).
Proof.
  intros D l H N. assert (P : forall v, In v l -> 0 < fst (fst v) /\ 0 <= snd (fst v) /\ (fst (fst v) | snd v)).
  { intros [[a b] t] I. apply H in I. destruct I as (B & c & T & (_ & A & _)). cbn. repeat split; auto. exists c. lia. }
  clear H. induction N as [ | [[a b] t] l NI N IH]; [constructor | ]. cbn [flat_map]. apply NoDup_app_intro.
  - cbn [both]. destruct ((a =? b) || (a * a =? t) || (b =? 0)) eqn:Q; [repeat constructor; auto | ].
    apply orb_false_iff in Q. destruct Q as [Q Q3]. apply Z.eqb_neq in Q3. constructor; [ | repeat constructor; auto].
    intros [X | []]. inversion X. lia.
  - apply IH. intros v I. apply P. right. auto.
  - intros x X Y. apply in_flat_map in Y. destruct Y as ([[a' b'] t'] & I & Y). apply NI.
    destruct (P (a, b, t) (or_introl eq_refl)) as (A1 & A2 & A3). destruct (P (a', b', t') (or_intror I)) as (B1 & B2 & B3). cbn [fst snd] in *.
    assert (X' : exists s, x = (a, s, t / a) /\ Z.abs s = b).
    { cbn [both] in X. destruct ((a =? b) || (a * a =? t) || (b =? 0)); cbn [In] in X; intuition; subst; eexists; (split; [reflexivity | lia]). }
    assert (Y' : exists s, x = (a', s, t' / a') /\ Z.abs s = b').
    { cbn [both] in Y. destruct ((a' =? b') || (a' * a' =? t') || (b' =? 0)); cbn [In] in Y; intuition; subst; eexists; (split; [reflexivity | lia]). }
    destruct X' as (s & -> & S1). destruct Y' as (s' & EQ & S2). inversion EQ; subst a' s'. assert (b = b') by lia. subst b'.
    destruct A3 as [z Z1]. destruct B3 as [z' Z2]. subst. rewrite !Z.div_mul in H2 by lia. subst. auto.
Qed.
Lemma both_length : forall l, Z.of_nat (length (flat_map both l)) = fold_right (fun v n => weight v + n) 0 l.
Proof.
  induction l as [ | [[a b] t] l IH]; [reflexivity | ]. cbn [flat_map fold_right]. rewrite app_length, Nat2Z.inj_add, IH. f_equal.
  cbn [both weight]. destruct ((a =? b) || (a * a =? t) || (b =? 0)); reflexivity.
Qed.

(** The count of the first pass. *)
Lemma sum_app : forall l l', fold_right (fun v n => weight v + n) 0 (l ++ l') = fold_right (fun v n => weight v + n) 0 l + fold_right (fun v n => weight v + n) 0 l'.
Proof. induction l as [ | v l IH]; intro l'; [reflexivity | ]. cbn [app fold_right]. rewrite IH. lia. Qed.
Lemma count_b_gt : forall fuel D b h l, forms_b fuel D (form_bound D) b = Ok l -> 2 <= b -> count_b fuel D (form_bound D) b h = Ok (h + fold_right (fun v n => weight v + n) 0 l).
Proof.
  induction fuel as [ | f IH]; intros D b h l E B; [discriminate | ]. cbn [forms_b count_b] in *.
  destruct (cint (b * b + D)) as [n | | | ] eqn:C; try discriminate. cbn [bind] in *. replace (1 <? b) with true in E by (symmetry; apply Z.ltb_lt; lia).
  replace (b <=? 1) with false by (symmetry; apply Z.leb_gt; lia). unfold count_a. destruct (forms_a (S f) b (Z.quot n 4) b) as [l1 | | | ] eqn:E1; try discriminate. cbn [bind] in *.
  destruct (form_bound D <? b + 2); [inversion E; subst; auto | ]. destruct (forms_b f D (form_bound D) (b + 2)) as [l2 | | | ] eqn:E2; try discriminate. cbn [bind] in E. inversion E; subst.
  rewrite (IH _ _ _ _ E2) by lia. rewrite sum_app. f_equal. lia.
Qed.
Lemma count_ok : forall D fuel l, discriminant D -> D < 2 ^ 30 -> D < Z.of_nat fuel -> forms fuel D = Ok l -> class_number fuel D = Ok (fold_right (fun v n => weight v + n) 0 l).
Proof.
  intros D fuel l [P M] U F E. unfold forms, class_number in *. assert (R : Z.rem D 2 = D mod 2) by (apply Z.rem_mod_nonneg; lia). rewrite R in *.
  pose proof (Z.mod_pos_bound D 2). set (b := D mod 2) in *. assert (Bb : b = 0 \/ b = 1) by lia. destruct fuel as [ | f]; [discriminate | ]. cbn [forms_b count_b] in *.
  destruct (start_a D b P M) as (T4 & T1 & AT); [lia | | apply Z.mod_mod; lia | ].
  { destruct Bb as [-> | ->]; [lia | ]. destruct (Z.eq_dec D 1) as [-> | ]; [destruct M as [M | M]; discriminate M | ]. destruct (Z.eq_dec D 2) as [-> | ]; [destruct M as [M | M]; discriminate M | ]. lia. }
  rewrite cint_ok in * by nia. cbn [bind] in *. set (t := Z.quot (b * b + D) 4) in *. replace (1 <? b) with false in * by (symmetry; apply Z.ltb_ge; lia).
  replace (b <=? 1) with true by (symmetry; apply Z.leb_le; lia). unfold count_a.
  cbn [forms_a] in E. change (1 + 1) with 2 in E. rewrite (cint_ok (2 * 2)) in * by lia. cbn [bind] in *.
  rewrite Z.rem_1_r in E. cbn [Z.eqb] in E.
  assert (W : weight (1, b, t) = 1).
  { unfold weight. destruct Bb as [-> | ->]; [rewrite !orb_true_r | ]; reflexivity. }
  destruct (2 * 2 <=? t) eqn:Q.
  - destruct (forms_a f b t 2) as [l1 | | | ] eqn:E1; try discriminate. cbn [bind] in E.
    assert (E1' : forms_a (S f) b t 2 = Ok l1).
    { destruct f as [ | f']; [discriminate E1 | ]. clear - E1. revert E1. generalize 2 as a. revert l1. induction f' as [ | g IH]; intros l1 a E1.
      - cbn [forms_a] in *. destruct (cint _) as [a2 | | | ]; try discriminate. cbn [bind] in *. destruct (a2 <=? t); [discriminate | auto].
      - cbn [forms_a] in E1 |- *. destruct (cint _) as [a2 | | | ]; try discriminate. cbn [bind] in *. destruct (a2 <=? t); [ | auto].
        match type of E1 with (bind ?x _) = _ => change x with (forms_a (S g) b t (a + 1)) in E1 end.
        match goal with |- (bind ?x _) = _ => change x with (forms_a (S (S g)) b t (a + 1)) end.
        destruct (forms_a (S g) b t (a + 1)) as [l2 | | | ] eqn:E2; try discriminate. rewrite (IH l2 _ E2). exact E1. }
    rewrite E1'. cbn [bind]. destruct (form_bound D <? b + 2).
    + inversion E; subst. cbn [fold_right app]. rewrite W. f_equal; lia.
    + destruct (forms_b f D (form_bound D) (b + 2)) as [l2 | | | ] eqn:E2; try discriminate. cbn [bind] in E. inversion E; subst.
      rewrite (count_b_gt _ _ _ _ _ E2) by lia. cbn [fold_right app]. rewrite sum_app, W. f_equal; lia.
  - cbn [bind] in E |- *. destruct (form_bound D <? b + 2).
    + inversion E; subst. cbn [fold_right app]. rewrite W. f_equal; lia.
    + destruct (forms_b f D (form_bound D) (b + 2)) as [l2 | | | ] eqn:E2; try discriminate. cbn [bind] in E. inversion E; subst.
      rewrite (count_b_gt _ _ _ _ _ E2) by lia. cbn [fold_right app]. rewrite W. f_equal; lia.
Qed.
