(** Bit-sliced GF(3) vectors: what each word loop does to the coefficients. *)
From Coq Require Import ZArith List Bool Lia Arith Field Setoid Morphisms.
From Verif.Base Require Import Outcome Array Algebra.
From Verif.Spec Require Import Polynomials Extension Ternary.
From Verif.Model Require Import GF3m.
From Verif.Proofs Require Import ArrayFacts.
Import ListNotations.
Open Scope Z_scope.

Lemma GF3_laws : fld_laws GF3.
Proof.
  constructor.
  - constructor; [constructor | | | ]; cbn; intros; repeat match goal with x : trit |- _ => destruct x end; try reflexivity; try discriminate; contradiction.
  - intros [] []; cbn; split; intro H; try reflexivity; try discriminate.
Qed.

Definition wd (w : Z) : Prop := 0 <= w < 2 ^ 64.
Lemma bit_nil : forall i, bit [] i = false.
Proof. intro. unfold bit. replace (nth (i / 64) [] 0) with 0 by (destruct (i / 64)%nat; reflexivity). apply Z.testbit_0_l. Qed.
Lemma bit_cons : forall w ws i, bit (w :: ws) i = if (i <? 64)%nat then Z.testbit w (Z.of_nat i) else bit ws (i - 64).
Proof.
  intros. unfold bit. destruct (Nat.ltb_spec i 64).
  - rewrite Nat.div_small, Nat.mod_small by lia. reflexivity.
  - replace (i / 64)%nat with (S ((i - 64) / 64)).
    + replace (i mod 64)%nat with ((i - 64) mod 64)%nat; [reflexivity | ].
      replace i with (i - 64 + 1 * 64)%nat at 2 by lia. rewrite Nat.mod_add by lia. reflexivity.
    + replace i with (i - 64 + 1 * 64)%nat at 2 by lia. rewrite Nat.div_add by lia. lia.
Qed.
Lemma bit_over : forall ws i, (64 * length ws <= i)%nat -> bit ws i = false.
Proof.
  induction ws as [ | w ws IH]; intros i H; [apply bit_nil | ]. rewrite bit_cons. cbn in H.
  destruct (Nat.ltb_spec i 64); [lia | apply IH; lia].
Qed.
Lemma wd_high : forall w i, wd w -> 64 <= i -> Z.testbit w i = false.
Proof.
  intros w i [A B] H. destruct (Z.eq_dec w 0) as [-> | N]; [apply Z.testbit_0_l | ].
  apply Z.bits_above_log2; [lia | ]. apply Z.lt_le_trans with 64; [ | lia]. apply Z.log2_lt_pow2; lia.
Qed.
Lemma wd_of_bits : forall w, 0 <= w -> (forall i, 64 <= i -> Z.testbit w i = false) -> wd w.
Proof.
  intros w H B. split; [auto | ]. assert (E : Z.land w (Z.ones 64) = w).
  { apply Z.bits_inj'. intros n Hn. rewrite Z.land_spec, Z.testbit_ones_nonneg by lia. destruct (Z.ltb_spec n 64); [apply andb_true_r | rewrite B by lia; reflexivity]. }
  rewrite Z.land_ones in E by lia. rewrite <- E. apply Z.mod_pos_bound. lia.
Qed.
Lemma wd_0 : wd 0. Proof. split; [lia | reflexivity]. Qed.
Lemma repeat_wd : forall n, Forall wd (repeat 0 n).
Proof. intro. apply Forall_forall. intros x H. apply repeat_spec in H. subst. apply wd_0. Qed.
Lemma bit_repeat0 : forall n i, bit (repeat 0 n) i = false.
Proof. induction n; intro i; [apply bit_nil | ]. cbn [repeat]. rewrite bit_cons. destruct (i <? 64)%nat; [apply Z.testbit_0_l | apply IHn]. Qed.
Lemma bit_ext : forall a b, Forall wd a -> Forall wd b -> length a = length b -> (forall i, bit a i = bit b i) -> a = b.
Proof.
  induction a as [ | x a IH]; intros [ | y b] Ha Hb L H; cbn in L; try discriminate; auto.
  inversion Ha; inversion Hb; subst. f_equal.
  - apply Z.bits_inj'. intros n Hn. destruct (Z.ltb_spec n 64).
    + specialize (H (Z.to_nat n)). rewrite !bit_cons in H. destruct (Nat.ltb_spec (Z.to_nat n) 64); [ | lia]. rewrite Z2Nat.id in H by lia. auto.
    + rewrite !wd_high; auto.
  - apply IH; auto. intro i. specialize (H (i + 64)%nat). rewrite !bit_cons in H. destruct (Nat.ltb_spec (i + 64) 64); [lia | ]. replace (i + 64 - 64)%nat with i in H by lia. auto.
Qed.

(** Sliced elements. *)
Definition wf (len : nat) (e : elt) : Prop := sliced len (d1 e) (d2 e).
Definition tc (e : elt) (i : nat) : GF3 := tcoef (d1 e) (d2 e) i.
Lemma wf_zero : forall len, wf len (zero len).
Proof. intro. repeat split; cbn; try apply repeat_length; try apply repeat_wd. intro. rewrite bit_repeat0. reflexivity. Qed.
Lemma tc_zero : forall len i, tc (zero len) i = f0.
Proof. intros. unfold tc, tcoef. cbn. rewrite !bit_repeat0. reflexivity. Qed.
Lemma tc_over : forall len e i, wf len e -> (64 * len <= i)%nat -> tc e i = f0.
Proof. intros len e i (L1 & L2 & _) H. unfold tc, tcoef. rewrite !bit_over by lia. reflexivity. Qed.
Lemma tc_ext : forall len a b, wf len a -> wf len b -> (forall i, tc a i = tc b i) -> a = b.
Proof.
  intros len [a1 a2] [b1 b2] (La1 & La2 & Wa1 & Wa2 & Da) (Lb1 & Lb2 & Wb1 & Wb2 & Db) H. unfold tc, tcoef in H. cbn in *. f_equal; apply bit_ext; auto; try congruence; intro i;
    specialize (H i); specialize (Da i); specialize (Db i); destruct (bit a1 i), (bit a2 i), (bit b1 i), (bit b2 i); try reflexivity; discriminate.
Qed.

(** Addition. *)
Lemma lxor_wd : forall a b, wd a -> wd b -> wd (Z.lxor a b).
Proof. intros a b Ha Hb. apply wd_of_bits; [apply Z.lxor_nonneg; unfold wd in *; lia | ]. intros. rewrite Z.lxor_spec, !wd_high; auto. Qed.
Lemma lor_wd : forall a b, wd a -> wd b -> wd (Z.lor a b).
Proof. intros a b Ha Hb. apply wd_of_bits; [apply Z.lor_nonneg; unfold wd in *; lia | ]. intros. rewrite Z.lor_spec, !wd_high; auto. Qed.
Lemma land_wd : forall a b, wd a -> 0 <= b -> wd (Z.land a b).
Proof. intros a b Ha Hb. apply wd_of_bits; [apply Z.land_nonneg; unfold wd in *; lia | ]. intros. rewrite Z.land_spec, wd_high; auto. Qed.
Lemma ldiff_wd : forall a b, wd a -> wd (Z.ldiff a b).
Proof. intros a b Ha. apply wd_of_bits; [apply Z.ldiff_nonneg; unfold wd in *; lia | ]. intros. rewrite Z.ldiff_spec, wd_high; auto. Qed.

Definition addbit (x1 x2 y1 y2 y : bool) : bool := xorb ((x1 || x2) && (y1 || y2)) y.
Lemma add_words_spec : forall a1 a2 b1 b2, Forall wd a1 -> Forall wd a2 -> Forall wd b1 -> Forall wd b2 ->
  length a2 = length a1 -> length b1 = length a1 -> length b2 = length a1 ->
  exists c1 c2, add_words a1 a2 b1 b2 = Ok (c1, c2) /\ length c1 = length a1 /\ length c2 = length a1 /\ Forall wd c1 /\ Forall wd c2 /\
    (forall i, bit c1 i = addbit (bit a1 i) (bit a2 i) (bit b1 i) (bit b2 i) (bit a1 i || bit b1 i)) /\
    (forall i, bit c2 i = addbit (bit a1 i) (bit a2 i) (bit b1 i) (bit b2 i) (bit a2 i || bit b2 i)).
Proof.
  induction a1 as [ | x1 a1 IH]; intros [ | x2 a2] [ | y1 b1] [ | y2 b2] H1 H2 H3 H4 L2 L3 L4; cbn in L2, L3, L4; try discriminate.
  - exists [], []. repeat split; auto; intro; rewrite !bit_nil; reflexivity.
  - inversion H1; inversion H2; inversion H3; inversion H4; subst.
    destruct (IH a2 b1 b2) as (c1 & c2 & E & Lc1 & Lc2 & W1 & W2 & B1 & B2); auto.
    cbn [add_words]. rewrite E. cbn [bind]. do 2 eexists. split; [reflexivity | ]. cbn [length]. repeat split; try lia.
    + constructor; auto. apply lxor_wd; [apply land_wd | apply lor_wd]; auto; [apply lor_wd; auto | apply Z.lor_nonneg; unfold wd in *; lia].
    + constructor; auto. apply lxor_wd; [apply land_wd | apply lor_wd]; auto; [apply lor_wd; auto | apply Z.lor_nonneg; unfold wd in *; lia].
    + intro i. rewrite !bit_cons. destruct (i <? 64)%nat; [ | apply B1]. rewrite Z.lxor_spec, Z.land_spec, !Z.lor_spec. reflexivity.
    + intro i. rewrite !bit_cons. destruct (i <? 64)%nat; [ | apply B2]. rewrite Z.lxor_spec, Z.land_spec, !Z.lor_spec. reflexivity.
Qed.
Lemma add_spec : forall len a b, wf len a -> wf len b -> exists c, gf3m_add a b = Ok c /\ wf len c /\ forall i, tc c i = fadd (tc a i) (tc b i).
Proof.
  intros len [a1 a2] [b1 b2] (La1 & La2 & Wa1 & Wa2 & Da) (Lb1 & Lb2 & Wb1 & Wb2 & Db). cbn in *.
  destruct (add_words_spec a1 a2 b1 b2) as (c1 & c2 & E & L1 & L2 & W1 & W2 & B1 & B2); auto; try congruence.
  unfold gf3m_add. cbn. rewrite E. cbn. exists (GF3m.E c1 c2). split; [reflexivity | ]. split.
  - repeat split; cbn; auto; try congruence. intro i. rewrite B1, B2. specialize (Da i). specialize (Db i). destruct (bit a1 i), (bit a2 i), (bit b1 i), (bit b2 i); try reflexivity; discriminate.
  - intro i. unfold tc, tcoef. cbn. rewrite B1, B2. specialize (Da i). specialize (Db i). destruct (bit a1 i), (bit a2 i), (bit b1 i), (bit b2 i); try reflexivity; discriminate.
Qed.
Lemma sub_spec : forall len a b, wf len a -> wf len b -> exists c, gf3m_sub a b = Ok c /\ wf len c /\ forall i, tc c i = fsub (tc a i) (tc b i).
Proof.
  intros len [a1 a2] [b1 b2] (La1 & La2 & Wa1 & Wa2 & Da) (Lb1 & Lb2 & Wb1 & Wb2 & Db). cbn in *.
  destruct (add_words_spec a1 a2 b2 b1) as (c1 & c2 & E & L1 & L2 & W1 & W2 & B1 & B2); auto; try congruence.
  unfold gf3m_sub. cbn. rewrite E. cbn. exists (GF3m.E c1 c2). split; [reflexivity | ]. split.
  - repeat split; cbn; auto; try congruence. intro i. rewrite B1, B2. specialize (Da i). specialize (Db i). destruct (bit a1 i), (bit a2 i), (bit b1 i), (bit b2 i); try reflexivity; discriminate.
  - intro i. unfold tc, tcoef. cbn. rewrite B1, B2. specialize (Da i). specialize (Db i). destruct (bit a1 i), (bit a2 i), (bit b1 i), (bit b2 i); try reflexivity; discriminate.
Qed.

(** Negation. *)
Lemma swap_words_spec : forall a b, length a = length b -> swap_words a b = Ok (b, a).
Proof.
  induction a as [ | x a IH]; intros [ | y b] L; cbn in L; try discriminate; auto. cbn [swap_words]. rewrite IH by lia. cbn [bind].
  assert (B : Z.lxor y (Z.lxor x y) = x) by (rewrite (Z.lxor_comm x y), <- Z.lxor_assoc, Z.lxor_nilpotent; apply Z.lxor_0_l).
  rewrite B. rewrite (Z.lxor_comm x y), Z.lxor_assoc, Z.lxor_nilpotent, Z.lxor_0_r. reflexivity.
Qed.
Lemma wf_swap : forall len a b, wf len (E a b) -> wf len (E b a).
Proof. intros len a b (L1 & L2 & W1 & W2 & D). repeat split; cbn in *; auto. intro. rewrite andb_comm. auto. Qed.
Lemma tc_swap : forall len a b i, wf len (E a b) -> tc (E b a) i = fopp (tc (E a b) i).
Proof. intros len a b i (L1 & L2 & W1 & W2 & D). unfold tc, tcoef. cbn in *. specialize (D i). destruct (bit a i), (bit b i); try reflexivity; discriminate. Qed.
Lemma neg_spec : forall inplace len a, wf len a -> exists c, gf3m_neg inplace a = Ok c /\ wf len c /\ forall i, tc c i = fopp (tc a i).
Proof.
  intros ip len [a b] H. exists (E b a). split; [ | split; [apply wf_swap; auto | intro; apply tc_swap with len; auto]].
  destruct H as (L1 & L2 & _). cbn in *. unfold gf3m_neg. destruct ip; cbn; auto. rewrite swap_words_spec by congruence. reflexivity.
Qed.
(** Multiplication by a constant. *)
Lemma f1_spec : forall len (v : GF3) a, wf len a -> wf len (gf3m_f1 (tval v) a) /\ forall i, tc (gf3m_f1 (tval v) a) i = fmul v (tc a i).
Proof.
  intros len v [a b] H. destruct v; unfold gf3m_f1; cbn.
  - pose proof H as (L1 & _). cbn in L1. rewrite L1. split; [apply wf_zero | intro; rewrite tc_zero; destruct (tc (E a b) i); reflexivity].
  - split; auto. intro. destruct (tc (E a b) i); reflexivity.
  - split; [apply wf_swap; auto | ]. intro. rewrite (tc_swap len) by auto. destruct (tc (E a b) i); reflexivity.
Qed.

(** Shifts. *)
Lemma top_bit : forall i, 0 <= i -> Z.testbit top i = (i =? 63).
Proof. intros i H. unfold top. rewrite Z.shiftl_1_l, Z.pow2_bits_eqb by lia. apply Z.eqb_sym. Qed.
Lemma land_bit : forall w i, 0 <= i -> (Z.land w (Z.shiftl 1 i) =? 0) = negb (Z.testbit w i).
Proof.
  intros w k Hk. destruct (Z.testbit w k) eqn:T; cbn.
  - apply Z.eqb_neq. intro E. assert (X : Z.testbit (Z.land w (Z.shiftl 1 k)) k = true) by (rewrite Z.land_spec, T, Z.shiftl_1_l, Z.pow2_bits_true by lia; reflexivity). rewrite E in X; rewrite Z.testbit_0_l in X; discriminate.
  - apply Z.eqb_eq. apply Z.bits_inj'. intros n Hn. rewrite Z.land_spec, Z.shiftl_1_l, Z.pow2_bits_eqb, Z.testbit_0_l by lia. destruct (Z.eqb_spec k n); [subst; rewrite T; reflexivity | apply andb_false_r].
Qed.
Lemma land_top : forall w, (Z.land w top =? 0) = negb (Z.testbit w 63).
Proof. intro w. apply land_bit. lia. Qed.
Lemma testbit_01 : forall l i, l = 0 \/ l = 1 -> 0 <= i -> Z.testbit l i = (l =? 1) && (i =? 0).
Proof. intros l i [-> | ->] H; [apply Z.testbit_0_l | ]. cbn [Z.eqb andb]. change 1 with (2 ^ 0). rewrite Z.pow2_bits_eqb by lia. apply Z.eqb_sym. Qed.
Lemma up_word : forall w l i, wd w -> l = 0 \/ l = 1 -> 0 <= i ->
  Z.testbit (Z.lor (Z.shiftl (Z.land w (top - 1)) 1) l) i = if i =? 0 then l =? 1 else if i <? 64 then Z.testbit w (i - 1) else false.
Proof.
  intros w l i W L H. rewrite Z.lor_spec, (testbit_01 l i L H). change (top - 1) with (Z.ones 63). destruct (Z.eqb_spec i 0) as [-> | N].
  - rewrite Z.shiftl_spec_low by lia. rewrite andb_true_r. reflexivity.
  - rewrite andb_false_r, orb_false_r. rewrite Z.shiftl_spec, Z.land_spec, Z.testbit_ones_nonneg by lia. destruct (Z.ltb_spec i 64), (Z.ltb_spec (i - 1) 63); try lia; try apply andb_true_r; apply andb_false_r.
Qed.
Lemma up_wd : forall w l, wd w -> l = 0 \/ l = 1 -> wd (Z.lor (Z.shiftl (Z.land w (top - 1)) 1) l).
Proof.
  intros w l W L. apply wd_of_bits.
  - apply Z.lor_nonneg. split; [ | lia]. apply Z.shiftl_nonneg. apply Z.land_nonneg. unfold wd in W. lia.
  - intros i Hi. rewrite up_word by (auto; lia). destruct (Z.eqb_spec i 0); [lia | ]. destruct (Z.ltb_spec i 64); [lia | auto].
Qed.
Lemma shift_up_words_spec : forall a l, Forall wd a -> l = 0 \/ l = 1 ->
  length (shift_up_words l a) = length a /\ Forall wd (shift_up_words l a) /\
  forall i, (i < 64 * length a)%nat -> bit (shift_up_words l a) i = match i with O => l =? 1 | S j => bit a j end.
Proof.
  induction a as [ | w a IH]; intros l H L; [cbn; repeat split; auto; intros; lia | ]. inversion H; subst. cbn [shift_up_words length].
  destruct (IH (if Z.land w top =? 0 then 0 else 1)) as (I1 & I2 & I3); auto. { destruct (Z.land w top =? 0); auto. }
  split; [ | split].
  - rewrite I1. reflexivity.
  - constructor; auto. apply up_wd; auto.
  - intros i Hi. rewrite bit_cons. destruct (Nat.ltb_spec i 64).
    + rewrite up_word by (auto; lia). destruct i as [ | j]; [reflexivity | ]. destruct (Z.eqb_spec (Z.of_nat (S j)) 0); [lia | ]. destruct (Z.ltb_spec (Z.of_nat (S j)) 64); [ | lia].
      rewrite bit_cons. destruct (Nat.ltb_spec j 64); [ | lia]. f_equal. lia.
    + rewrite I3 by lia. destruct i as [ | j]; [lia | ]. rewrite bit_cons. destruct (S j - 64)%nat eqn:Ej.
      * assert (j = 63)%nat by lia. subst. cbn [Nat.ltb Nat.leb]. rewrite land_top. change (Z.of_nat 63) with 63. destruct (Z.testbit w 63); reflexivity.
      * destruct (Nat.ltb_spec j 64); [lia | ]. f_equal. lia.
Qed.
Lemma shift_up_spec : forall len e, wf len e -> wf len (shift_up e) /\
  (tc e (64 * len - 1) = f0 -> forall i, tc (shift_up e) i = match i with O => f0 | S j => tc e j end).
Proof.
  intros len [a b] (L1 & L2 & W1 & W2 & D). cbn in *.
  destruct (shift_up_words_spec a 0) as (A1 & A2 & A3); auto. destruct (shift_up_words_spec b 0) as (B1 & B2 & B3); auto. split.
  - repeat split; cbn; auto; try congruence. intro i. destruct (Nat.ltb_spec i (64 * len)); [ | rewrite bit_over by lia; reflexivity].
    rewrite A3, B3 by lia. destruct i; [reflexivity | apply D].
  - unfold tc, tcoef. cbn. intros T i. destruct (Nat.ltb_spec i (64 * len)).
    + rewrite A3, B3 by lia. destruct i; reflexivity.
    + rewrite !(bit_over _ i) by lia. destruct i as [ | j]; auto. destruct (Nat.eq_dec j (64 * len - 1)) as [-> | ].
      * symmetry. exact T.
      * rewrite !bit_over by lia. reflexivity.
Qed.
Lemma down_word : forall w h i, wd w -> h = 0 \/ h = 1 -> 0 <= i ->
  Z.testbit (if h =? 0 then Z.shiftr w 1 else Z.lor (Z.shiftr w 1) top) i = if i =? 63 then h =? 1 else Z.testbit w (i + 1).
Proof.
  intros w h i W H Hi. destruct H as [-> | ->]; cbn [Z.eqb].
  - rewrite Z.shiftr_spec by lia. destruct (Z.eqb_spec i 63) as [-> | ]; auto. apply wd_high; auto. lia.
  - rewrite Z.lor_spec, Z.shiftr_spec, top_bit by lia. destruct (Z.eqb_spec i 63); [apply orb_true_r | apply orb_false_r].
Qed.
Lemma shift_down_words_spec : forall a, Forall wd a ->
  length (fst (shift_down_words a)) = length a /\ Forall wd (fst (shift_down_words a)) /\
  snd (shift_down_words a) = Z.b2z (bit a 0) /\ forall i, bit (fst (shift_down_words a)) i = bit a (S i).
Proof.
  induction a as [ | w a IH]; intros H; [cbn; repeat split; auto; intro; rewrite !bit_nil; reflexivity | ]. inversion H; subst. destruct (IH H3) as (I1 & I2 & I3 & I4).
  cbn [shift_down_words]. destruct (shift_down_words a) as [b h]. cbn [fst snd length] in *.
  assert (Hh : h = 0 \/ h = 1) by (rewrite I3; destruct (bit a 0); auto).
  assert (B : forall i, 0 <= i -> Z.testbit (if h =? 0 then Z.shiftr w 1 else Z.lor (Z.shiftr w 1) top) i = if i =? 63 then h =? 1 else Z.testbit w (i + 1)) by (intros; apply down_word; auto).
  repeat split.
  - rewrite I1. reflexivity.
  - constructor; auto. apply wd_of_bits.
    + destruct (h =? 0); [ | apply Z.lor_nonneg; split; [ | unfold top; apply Z.shiftl_nonneg; lia]]; apply Z.shiftr_nonneg; unfold wd in *; lia.
    + intros i Hi. rewrite B by lia. destruct (Z.eqb_spec i 63); [lia | ]. apply wd_high; auto. lia.
  - rewrite bit_cons. cbn [Nat.ltb Nat.leb]. change (Z.of_nat 0) with 0. change 1 with (Z.ones 1). rewrite Z.land_ones by lia. rewrite Z.bit0_mod. reflexivity.
  - intro i. rewrite !bit_cons. destruct (Nat.ltb_spec i 64).
    + rewrite B by lia. destruct (Z.eqb_spec (Z.of_nat i) 63).
      * destruct (Nat.ltb_spec (S i) 64); [lia | ]. replace (S i - 64)%nat with O by lia. rewrite I3. destruct (bit a 0); reflexivity.
      * destruct (Nat.ltb_spec (S i) 64); [ | lia]. f_equal. lia.
    + destruct (Nat.ltb_spec (S i) 64); [lia | ]. rewrite I4. f_equal. lia.
Qed.
Lemma shift_down_spec : forall len e, wf len e -> wf len (shift_down e) /\ forall i, tc (shift_down e) i = tc e (S i).
Proof.
  intros len [a b] (L1 & L2 & W1 & W2 & D). cbn in *.
  destruct (shift_down_words_spec a) as (A1 & A2 & _ & A3); auto. destruct (shift_down_words_spec b) as (B1 & B2 & _ & B3); auto. split.
  - repeat split; cbn; auto; try congruence; try (intro i; rewrite A3, B3; apply D).
  - intro i. unfold tc, tcoef. cbn. rewrite A3, B3. reflexivity.
Qed.

(** Single coefficients. *)
Lemma pos_split : forall i, Z.to_nat (Z.of_nat i / 64) = (i / 64)%nat /\ Z.of_nat i mod 64 = Z.of_nat (i mod 64).
Proof. intro i. split; [change 64 with (Z.of_nat 64); rewrite <- Nat2Z.inj_div, Nat2Z.id; reflexivity | change 64 with (Z.of_nat 64); rewrite <- Nat2Z.inj_mod; reflexivity]. Qed.
Lemma get_nth : forall (l : list Z) i, (i < length l)%nat -> get l i = Ok (nth i l 0).
Proof. intros l i H. unfold get. rewrite (nth_error_nth' l 0 H). reflexivity. Qed.
Lemma get_spec : forall len e i, wf len e -> (i < 64 * len)%nat -> gf3m_get e (Z.of_nat i) = Ok (tval (tc e i)).
Proof.
  intros len [a b] i (L1 & L2 & W1 & W2 & D) H. cbn in *. unfold gf3m_get. destruct (pos_split i) as [-> ->]. cbn [d1 d2].
  assert (i / 64 < len)%nat by (apply Nat.div_lt_upper_bound; lia). rewrite !get_nth by lia. cbn [bind]. rewrite !land_bit by lia. unfold tc, tcoef, bit. cbn [d1 d2].
  destruct (Z.testbit _ _); cbn; auto. destruct (Z.testbit _ _); cbn; auto.
Qed.
Lemma get_0 : forall len e, wf len e -> (0 < len)%nat -> gf3m_get e 0 = Ok (tval (tc e 0)).
Proof. intros. apply (get_spec len e 0); auto. lia. Qed.
Lemma bit_put : forall l k w i, (k < length l)%nat -> bit (firstn k l ++ w :: skipn (S k) l) i = if (i / 64 =? k)%nat then Z.testbit w (Z.of_nat (i mod 64)) else bit l i.
Proof.
  intros l k w i H. unfold bit. destruct (Nat.eqb_spec (i / 64) k) as [-> | N].
  - rewrite app_nth2; rewrite firstn_length_le by lia; [ | lia]. rewrite Nat.sub_diag. reflexivity.
  - f_equal. destruct (Nat.lt_ge_cases (i / 64) k).
    + rewrite app_nth1 by (rewrite firstn_length_le; lia). rewrite <- (firstn_skipn k l) at 2. rewrite app_nth1 by (rewrite firstn_length_le; lia). reflexivity.
    + rewrite app_nth2; rewrite firstn_length_le by lia; [ | lia]. destruct (i / 64 - k)%nat eqn:Q; [lia | ]. cbn [nth].
      rewrite <- (firstn_skipn (S k) l) at 2. rewrite (app_nth2 (firstn (S k) l)); rewrite firstn_length_le by lia; [ | lia]. f_equal. lia.
Qed.
Lemma or_bit_spec : forall l i, Forall wd l -> (i < 64 * length l)%nat ->
  exists l', or_bit l (Z.of_nat i) = Ok l' /\ length l' = length l /\ Forall wd l' /\ forall j, bit l' j = (j =? i)%nat || bit l j.
Proof.
  intros l i W H. unfold or_bit. destruct (pos_split i) as [-> ->].
  assert (Hi : (i / 64 < length l)%nat) by (apply Nat.div_lt_upper_bound; lia). rewrite get_nth by lia. cbn [bind]. unfold put. destruct (Nat.ltb_spec (i / 64) (length l)); [ | lia].
  eexists. split; [reflexivity | ]. assert (B : (i mod 64 < 64)%nat) by (apply Nat.mod_upper_bound; lia). split; [ | split].
  - rewrite app_length. cbn [length]. rewrite firstn_length_le, skipn_length by lia. lia.
  - apply Forall_app. split; [apply Forall_forall; intros x Hx; apply (proj1 (Forall_forall _ _) W); rewrite <- (firstn_skipn (i / 64) l); apply in_or_app; auto | ]. constructor.
    + apply lor_wd; [apply (proj1 (Forall_forall _ _) W); apply nth_In; auto | ]. rewrite Z.shiftl_1_l. split; [lia | apply Z.pow_lt_mono_r; lia].
    + apply Forall_forall; intros x Hx; apply (proj1 (Forall_forall _ _) W); rewrite <- (firstn_skipn (S (i / 64)) l); apply in_or_app; auto.
  - intro j. rewrite bit_put by lia. destruct (Nat.eqb_spec (j / 64) (i / 64)) as [Q | Q].
    + rewrite Z.lor_spec, Z.shiftl_1_l, Z.pow2_bits_eqb by lia. unfold bit. rewrite Q, orb_comm. f_equal.
      destruct (Z.eqb_spec (Z.of_nat (i mod 64)) (Z.of_nat (j mod 64))), (Nat.eqb_spec j i); auto; exfalso; try (subst; congruence).
      apply n. rewrite (Nat.div_mod j 64), (Nat.div_mod i 64) by lia. lia.
    + destruct (Nat.eqb_spec j i); [subst; contradiction | reflexivity].
Qed.
Lemma set_spec : forall len e i (v : GF3), wf len e -> (i < 64 * len)%nat -> tc e i = f0 ->
  exists e', gf3m_set e (Z.of_nat i) (tval v) = Ok e' /\ wf len e' /\ forall j, tc e' j = if (j =? i)%nat then v else tc e j.
Proof.
  intros len [a b] i v W Hi T. pose proof W as (L1 & L2 & W1 & W2 & D). cbn in L1, L2, W1, W2, D.
  assert (A0 : bit a i = false /\ bit b i = false) by (unfold tc, tcoef in T; cbn in T; destruct (bit a i), (bit b i); try discriminate; auto).
  destruct v; unfold gf3m_set; cbn [tval Z.eqb].
  - eexists. split; [reflexivity | ]. split; auto. intro j. destruct (Nat.eqb_spec j i); [subst; exact T | reflexivity].
  - cbn [Pos.eqb d1 d2]. destruct (or_bit_spec a i) as (a' & E & L & Wd & B); auto; [lia | ]. rewrite E. cbn [bind]. eexists. split; [reflexivity | ]. split.
    + repeat split; cbn; auto; try congruence. intro j. rewrite B. destruct (Nat.eqb_spec j i); [subst; rewrite (proj2 A0); reflexivity | apply D].
    + intro j. unfold tc, tcoef. cbn. rewrite B. destruct (Nat.eqb_spec j i); reflexivity.
  - cbn [Pos.eqb d1 d2]. destruct (or_bit_spec b i) as (b' & E & L & Wd & B); auto; [lia | ]. rewrite E. cbn [bind]. eexists. split; [reflexivity | ]. split.
    + repeat split; cbn; auto; try congruence. intro j. rewrite B. destruct (Nat.eqb_spec j i); [subst; rewrite (proj1 A0); reflexivity | apply D].
    + intro j. unfold tc, tcoef. cbn. rewrite B. destruct (Nat.eqb_spec j i); [subst; rewrite (proj1 A0); reflexivity | reflexivity].
Qed.
