(** Bit-sliced GF(3^m): random elements, unchecked decoding, integers; a
    concrete field. *)
From Coq Require Import ZArith List Bool Lia Arith.
From Verif.Base Require Import Outcome Array Algebra.
From Verif.Spec Require Import FiniteField Polynomials Extension Ternary.
From Verif.Model Require Import GF3m.
From Verif.Proofs Require Import GF3mBits GF3mPoly GF3mInvert GF3mMain PolyRoots.
Import ListNotations.
Open Scope Z_scope.

Lemma testbit_nonneg_small : forall r k i, 0 <= r < 2 ^ k -> k <= i -> 0 <= k -> Z.testbit r i = false.
Proof.
  intros r k i H1 H2 H3. destruct (Z.eq_dec r 0) as [-> | N]; [apply Z.testbit_0_l | ]. apply Z.bits_above_log2; [lia | ]. apply Z.lt_le_trans with k; [ | lia]. apply Z.log2_lt_pow2; lia.
Qed.
Definition low31 (w : Z) : Prop := 0 <= w < 2 ^ 31.
Lemma low31_wd : forall w, low31 w -> wd w. Proof. unfold low31, wd. intros. lia. Qed.
Lemma low31_of : forall w, wd w -> (forall i, 31 <= i -> Z.testbit w i = false) -> low31 w.
Proof.
  intros w W B. split; [apply W | ]. assert (E : Z.land w (Z.ones 31) = w).
  { apply Z.bits_inj'. intros n Hn. rewrite Z.land_spec, Z.testbit_ones_nonneg by lia. destruct (Z.ltb_spec n 31); [apply andb_true_r | rewrite B by lia; reflexivity]. }
  rewrite Z.land_ones in E by lia. rewrite <- E. apply Z.mod_pos_bound. lia.
Qed.
Lemma ldiff_low31 : forall a b, low31 a -> low31 (Z.ldiff a b).
Proof. intros a b H. apply low31_of; [apply ldiff_wd, low31_wd; auto | ]. intros i Hi. rewrite Z.ldiff_spec, (testbit_nonneg_small a 31) by (auto; lia). reflexivity. Qed.
Lemma land_low31 : forall a b, low31 a -> 0 <= b -> low31 (Z.land a b).
Proof. intros a b H Hb. apply low31_of; [apply land_wd; auto; apply low31_wd; auto | ]. intros i Hi. rewrite Z.land_spec, (testbit_nonneg_small a 31) by (auto; lia). reflexivity. Qed.
Lemma bit_low31 : forall l i, Forall low31 l -> (31 <= i mod 64)%nat -> bit l i = false.
Proof.
  intros l i H Hi. unfold bit. destruct (nth_in_or_default (i / 64) l 0) as [I | ->]; [ | apply Z.testbit_0_l].
  apply (testbit_nonneg_small _ 31); [ | lia | lia]. apply (proj1 (Forall_forall _ _) H). auto.
Qed.
Lemma bit_disjoint_cons : forall x y a b, (forall i, Z.testbit x i && Z.testbit y i = false) -> (forall i, bit a i && bit b i = false) -> forall i, bit (x :: a) i && bit (y :: b) i = false.
Proof. intros x y a b H1 H2 i. rewrite !bit_cons. destruct (i <? 64)%nat; auto. Qed.
Lemma random_words_spec : forall n rs, Forall low31 rs -> (2 * n <= length rs)%nat ->
  exists a b rs', random_words n rs = Ok (a, b, rs') /\ length a = n /\ length b = n /\ Forall low31 a /\ Forall low31 b /\
    (forall i, (bit a i && bit b i = false)) /\ length rs' = (length rs - 2 * n)%nat /\ Forall low31 rs'.
Proof.
  induction n as [ | n IH]; intros rs H L.
  - exists [], [], rs. cbn. repeat split; auto; try lia. intro i. rewrite bit_nil. reflexivity.
  - destruct rs as [ | r1 [ | r2 rs]]; cbn in L; try lia. inversion H as [ | ? ? H1 H']; subst. inversion H' as [ | ? ? H2 H3]; subst.
    destruct (IH rs) as (a & b & rs' & E & La & Lb & Wa & Wb & D & Lr & Wr); auto; [lia | ]. cbn [random_words]. rewrite E. cbn [bind]. do 3 eexists. split; [reflexivity | ].
    cbn [length]. repeat split; try lia; auto; try (constructor; auto; apply ldiff_low31; auto).
    apply bit_disjoint_cons; auto. intro i. rewrite Z.ldiff_spec. destruct (Z.testbit r1 i), (Z.testbit r2 i); reflexivity.
Qed.
Lemma bit_app1 : forall l w i, bit (l ++ [w]) i = if (i <? 64 * length l)%nat then bit l i else if (i <? 64 * length l + 64)%nat then Z.testbit w (Z.of_nat (i - 64 * length l)) else false.
Proof.
  induction l as [ | x l IH]; intros w i; cbn [app].
  - rewrite bit_cons, bit_nil. replace (64 * length (@nil Z))%nat with O by reflexivity. cbn [Nat.add]. destruct (Nat.ltb_spec i 0); [lia | ]. rewrite Nat.sub_0_r. reflexivity.
  - rewrite !bit_cons, IH. cbn [length]. destruct (Nat.ltb_spec i 64).
    + destruct (Nat.ltb_spec i (64 * S (length l))); [reflexivity | lia].
    + destruct (Nat.ltb_spec (i - 64) (64 * length l)), (Nat.ltb_spec i (64 * S (length l))); try lia; try reflexivity.
      destruct (Nat.ltb_spec (i - 64) (64 * length l + 64)), (Nat.ltb_spec i (64 * S (length l) + 64)); try lia; try reflexivity. f_equal. lia.
Qed.
Lemma m_random : forall m t p rs, dims m t -> field_init_gf3m (Z.of_nat m) (Z.of_nat t) = Ok p -> Forall (fun r => 0 <= r < 2 ^ 31) rs -> (2 * (m / 64 + 1) <= length rs)%nat ->
  exists e, gf3m_random p rs = Ok e /\ sliced (m / 64 + 1) (d1 e) (d2 e) /\ ((m mod 64 <> 0)%nat -> valid m e) /\ forall i, (31 <= i mod 64)%nat -> tcoef (d1 e) (d2 e) i = T0.
Proof.
  intros m t p rs D I H L. destruct (init_good m t D p I) as (Lp & Mp & _). unfold gf3m_random. rewrite Lp, Mp. replace (m / 64 + 1 - 1)%nat with (m / 64)%nat by lia.
  destruct (random_words_spec (m / 64) rs H) as (a & b & rs' & -> & La & Lb & Wa & Wb & Dj & Lr & Wr); [lia | ]. cbn [bind].
  destruct rs' as [ | r1 [ | r2 rs']]; [cbn [length] in Lr; lia | cbn [length] in Lr; lia | ]. inversion Wr as [ | ? ? H1 H']; subst. inversion H' as [ | ? ? H2 _]; subst.
  set (x := if Z.of_nat m mod 64 =? 0 then 2 ^ 64 - 1 else 2 ^ (Z.of_nat m mod 64) - 1). assert (MB := Z.mod_pos_bound (Z.of_nat m) 64 ltac:(lia)).
  assert (Hx : 0 <= x) by (unfold x; destruct (_ =? _); [lia | assert (0 < 2 ^ (Z.of_nat m mod 64)) by (apply Z.pow_pos_nonneg; lia); lia]).
  assert (H1' := land_low31 r1 x H1 Hx). assert (H2' := land_low31 r2 x H2 Hx). eexists. split; [reflexivity | ]. cbn [d1 d2].
  assert (A1 : Forall low31 (a ++ [Z.land r1 x])) by (apply Forall_app; auto).
  assert (A2 : Forall low31 (b ++ [Z.ldiff (Z.land r2 x) (Z.land r1 x)])) by (apply Forall_app; split; auto; constructor; auto; apply ldiff_low31; auto).
  assert (SL : sliced (m / 64 + 1) (a ++ [Z.land r1 x]) (b ++ [Z.ldiff (Z.land r2 x) (Z.land r1 x)])).
  { unfold sliced. rewrite !app_length. cbn [length]. split; [lia | ]. split; [lia | ]. split; [ | split]; try (eapply Forall_impl; [ | eassumption]; apply low31_wd).
    intro i. rewrite !bit_app1, La, Lb. destruct (i <? 64 * (m / 64))%nat; auto. destruct (i <? 64 * (m / 64) + 64)%nat; auto. rewrite Z.ldiff_spec. destruct (Z.testbit (Z.land r1 x) _), (Z.testbit (Z.land r2 x) _); reflexivity. }
  split; [exact SL | ]. split.
  - intro M. split; [exact SL | ]. assert (MZ : Z.of_nat m mod 64 = Z.of_nat (m mod 64)) by (change 64 with (Z.of_nat 64); rewrite <- Nat2Z.inj_mod; reflexivity).
    unfold x in *. destruct (Z.eqb_spec (Z.of_nat m mod 64) 0); [lia | ].
    assert (XB : forall r i, 0 <= i -> Z.of_nat (m mod 64) <= i -> Z.testbit (Z.land r (2 ^ (Z.of_nat m mod 64) - 1)) i = false).
    { intros r i Hi Hmi. rewrite MZ. change (2 ^ Z.of_nat (m mod 64) - 1) with (Z.pred (2 ^ Z.of_nat (m mod 64))). rewrite <- Z.ones_equiv, Z.land_spec, Z.testbit_ones_nonneg by lia. destruct (Z.ltb_spec i (Z.of_nat (m mod 64))); [lia | apply andb_false_r]. }
    intros i Hi. unfold tcoef. cbn [d1 d2]. rewrite !bit_app1, La, Lb. pose proof (Nat.div_mod m 64 ltac:(lia)). destruct (Nat.ltb_spec i (64 * (m / 64))); [lia | ].
    destruct (Nat.ltb_spec i (64 * (m / 64) + 64)); [ | reflexivity]. rewrite Z.ldiff_spec, !XB by lia. reflexivity.
  - intros i Hi. unfold tcoef. rewrite !bit_low31 by auto. reflexivity.
Qed.

(** m = 64: the extra word is filled as well. *)
Lemma random_64 : exists p e, field_init_gf3m 64 1 = Ok p /\ gf3m_random p [0; 0; 5; 5] = Ok e /\ ~ valid 64 e.
Proof.
  do 2 eexists. split; [reflexivity | ]. split; [reflexivity | ]. intros (_ & R). specialize (R 64%nat ltac:(lia)). discriminate R.
Qed.
(** Both bits set: an element e <> 0 with e + e = 0, in characteristic three. *)
Lemma decode_both : exists p e, field_init_gf3m 2 1 = Ok p /\ gf3m_from_bytes p (1 :: 1 :: repeat 0 14) = Ok e /\ ~ valid 2 e /\
  gf3m_is0 e = false /\ exists s, gf3m_add e e = Ok s /\ gf3m_is0 s = true.
Proof.
  do 2 eexists. split; [reflexivity | ]. split; [reflexivity | ]. split; [intros ((_ & _ & _ & _ & D) & _); specialize (D O); discriminate D | ]. split; [reflexivity | ]. eexists. split; reflexivity.
Qed.

(** Concrete fields. *)
Lemma tri2_irr : irreducible (trinomial 2 1).
Proof.
  apply (no_roots_irreducible GF3 GF3_laws); [intros _ E; discriminate E | left; reflexivity | intros [] E; discriminate E].
Qed.
Lemma tri3_irr : irreducible (trinomial 3 2).
Proof.
  apply (no_roots_irreducible GF3 GF3_laws); [intros _ E; discriminate E | right; reflexivity | intros [] E; vm_compute in E; discriminate E].
Qed.
Lemma valid_3 : valid 3 (E [2] [1]) /\ value 3 2 (E [2] [1]) <> f0.
Proof.
  assert (V : valid 3 (E [2] [1])).
  { split; [unfold sliced; cbn [d1 d2]; do 2 (split; [reflexivity | ]); do 2 (split; [constructor; [lia | constructor] | ]) | ].
    - intro i. rewrite !bit_cons, !bit_nil. destruct (Nat.ltb_spec i 64); [ | reflexivity]. destruct i as [ | [ | i]]; try reflexivity. rewrite (testbit_nonneg_small 2 2) by lia. reflexivity.
    - intros i Hi. unfold tcoef. cbn [d1 d2]. rewrite !bit_cons, !bit_nil. destruct (Nat.ltb_spec i 64); [ | reflexivity]. rewrite (testbit_nonneg_small 2 2), (testbit_nonneg_small 1 2) by lia. reflexivity. }
  split; [exact V | ]. intro E. apply (m_is0 3 2 _ V) in E. discriminate E.
Qed.
From Verif.Model Require Import GenericPow.
From Verif.Proofs Require Import PowFacts FieldFacts.
Lemma sqrt_even : exists (x y : GF3m 2 1), is_square x /\ gf3m_sqrt (GF3m 2 1) (3 ^ 2) x = Ok y /\ fmul y y <> x.
Proof.
  set (w := mkvec (K := GF3) 2 (fun i => if Nat.eqb i 1 then T1 else T0) : GF3m 2 1).
  assert (HL : fld_laws (GF3m 2 1)) by (apply m_field; [split; [split; repeat constructor | reflexivity] | exact tri2_irr]).
  exists (fmul w w), (fpow (fmul w w) 2). split; [exists w; reflexivity | ]. split.
  - unfold gf3m_sqrt. change (Z.quot (3 ^ 2 + 1) (2 ^ 2)) with 2. apply (generic_pow_spec (mul_monoid (GF3m 2 1)) (mul_monoid_laws _ HL)). lia.
  - intro E. apply (f_equal (fun v => map tval (proj1_sig v))) in E. vm_compute in E. discriminate E.
Qed.
