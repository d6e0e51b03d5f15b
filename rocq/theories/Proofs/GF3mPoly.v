(** Bit-sliced GF(3^m): multiplication, reduction and cubing as polynomial
    arithmetic modulo x^m + x^t + 2. *)
From Coq Require Import ZArith List Bool Lia Arith Field Setoid Morphisms.
From Verif.Base Require Import Outcome Array Algebra.
From Verif.Spec Require Import FiniteField Polynomials Extension Ternary.
From Verif.Model Require Import GF3m.
From Verif.Proofs Require Import ArrayFacts FieldFacts PolyAlgebra ExtFacts GF3mBits.
Import ListNotations.
Open Scope nat_scope.

Notation K := GF3.
Notation HK := GF3_laws.
Add Field KF3 : (fl_field K HK).
Add Ring PolyR3 : (poly_ring K HK) (setoid (eqp_equiv K) (poly_ext K HK)).
#[export] Existing Instance eqp_equiv.
#[export] Instance addp_proper3 : Proper (eqp ==> eqp ==> eqp) (addp K) := addp_proper K HK.
#[export] Instance oppp_proper3 : Proper (eqp ==> eqp) (oppp K) := oppp_proper K HK.
#[export] Instance subp_proper3 : Proper (eqp ==> eqp ==> eqp) (subp K) := subp_proper K HK.
#[export] Instance mulp_proper3 : Proper (eqp ==> eqp ==> eqp) (mulp K) := mulp_proper K HK.
#[export] Instance cong_equiv3 m : Equivalence (cong (K := K) m) := cong_equiv K HK m.
#[export] Instance eqp_cong3 m : subrelation (@eqp K) (cong m) := eqp_cong K HK m.
#[export] Instance addp_cong3 m : Proper (cong m ==> cong m ==> cong m) (addp K) := addp_cong K HK m.
#[export] Instance mulp_cong3 m : Proper (cong m ==> cong m ==> cong m) (mulp K) := mulp_cong K HK m.
#[export] Instance oppp_cong3 m : Proper (cong m ==> cong m) (oppp K) := oppp_cong K HK m.
#[export] Instance subp_cong3 m : Proper (cong m ==> cong m ==> cong m) (subp K) := subp_cong K HK m.
#[export] Instance cong_proper3 : Proper (eqp ==> eqp ==> eqp ==> iff) (cong (K := K)) := cong_proper K HK.

(** The polynomial stored in an element. *)
Definition P (e : elt) : list K := map (tc e) (seq 0 (64 * length (d1 e))).
Lemma coef_P : forall len e i, wf len e -> coef (P e) i = tc e i.
Proof.
  intros len e i W. unfold P. rewrite (coef_map_seq K). destruct (Nat.ltb_spec i (64 * length (d1 e))); auto.
  rewrite (tc_over len); auto. destruct W as (L & _). lia.
Qed.
Definition low (m : nat) (e : elt) : Prop := forall i, m <= i -> tc e i = f0.
Lemma low_reduced : forall m e, low m e <-> reduced m (d1 e) (d2 e). Proof. reflexivity. Qed.

Lemma add_P : forall len a b, wf len a -> wf len b -> exists c, gf3m_add a b = Ok c /\ wf len c /\ eqp (P c) (addp K (P a) (P b)).
Proof.
  intros len a b Wa Wb. destruct (add_spec len a b Wa Wb) as (c & E & W & H). exists c. split; [auto | split; auto].
  intro i. rewrite (coef_addp K HK), !(coef_P len) by auto. apply H.
Qed.
Lemma sub_P : forall len a b, wf len a -> wf len b -> exists c, gf3m_sub a b = Ok c /\ wf len c /\ eqp (P c) (subp K (P a) (P b)).
Proof.
  intros len a b Wa Wb. destruct (sub_spec len a b Wa Wb) as (c & E & W & H). exists c. split; [auto | split; auto].
  intro i. rewrite (coef_subp K HK), !(coef_P len) by auto. apply H.
Qed.
Lemma f1_P : forall len (v : K) a, wf len a -> wf len (gf3m_f1 (tval v) a) /\ eqp (P (gf3m_f1 (tval v) a)) (scalp K v (P a)).
Proof.
  intros len v a W. destruct (f1_spec len v a W) as (W' & H). split; auto. intro i. rewrite (coef_scalp K HK), !(coef_P len) by auto. apply H.
Qed.
Lemma up_P : forall len e, wf len e -> tc e (64 * len - 1) = f0 -> wf len (shift_up e) /\ eqp (P (shift_up e)) (f0 :: P e).
Proof.
  intros len e W H. destruct (shift_up_spec len e W) as (W' & S). split; auto. intro i. rewrite (coef_P len) by auto. rewrite (S H), (coef_cons K). destruct i; auto. symmetry. apply coef_P with len. auto.
Qed.
Lemma zero_P : forall len, eqp (P (zero len)) [].
Proof. intros len i. rewrite (coef_P len) by apply wf_zero. rewrite tc_zero. symmetry. apply coef_nil. Qed.

(** e - v * px, as the three-way branches of the code compute it. *)
Lemma elim : forall len (v : K) e px, wf len e -> wf len px ->
  exists e', (if (tval v =? 1)%Z then gf3m_sub e px else if (tval v =? 2)%Z then gf3m_add e px else Ok e) = Ok e' /\ wf len e' /\
    forall i, tc e' i = fsub (tc e i) (fmul v (tc px i)).
Proof.
  intros len v e px We Wp. destruct v; cbn [tval Z.eqb].
  - exists e. split; [auto | split; auto]. intro i. destruct (tc e i), (tc px i); reflexivity.
  - cbn [Pos.eqb]. destruct (sub_spec len e px We Wp) as (c & E & W & H). exists c. split; [auto | split; auto]. intro i. rewrite H. destruct (tc e i), (tc px i); reflexivity.
  - cbn [Pos.eqb]. destruct (add_spec len e px We Wp) as (c & E & W & H). exists c. split; [auto | split; auto]. intro i. rewrite H. destruct (tc e i), (tc px i); reflexivity.
Qed.

Section F.
Variables (m t : nat).
Hypothesis Ht : 0 < t < m.
Hypothesis Hm : (Z.of_nat m < 2 ^ 30)%Z.
Notation tri := (trinomial m t).
Notation len := (m / 64 + 1).
Lemma coef_tri : forall i, coef tri i = if i =? 0 then T2 else if (i =? t) || (i =? m) then T1 else T0.
Proof.
  intro i. unfold trinomial. rewrite (coef_map_seq K). destruct (Nat.ltb_spec i (S m)); auto.
  destruct (Nat.eqb_spec i 0); [lia | ]. destruct (Nat.eqb_spec i t); [lia | ]. destruct (Nat.eqb_spec i m); [lia | reflexivity].
Qed.
Lemma tri_monic : monic tri m.
Proof.
  split; [unfold trinomial; rewrite map_length, seq_length; auto | ]. rewrite coef_tri. destruct (Nat.eqb_spec m 0); [lia | ]. rewrite Nat.eqb_refl, orb_true_r. reflexivity.
Qed.
Lemma tri_over : forall i, m < i -> coef tri i = T0.
Proof. intros i H. rewrite coef_tri. destruct (Nat.eqb_spec i 0); [lia | ]. destruct (Nat.eqb_spec i t); [lia | ]. destruct (Nat.eqb_spec i m); [lia | reflexivity]. Qed.
Lemma len_big : m < 64 * len.
Proof. pose proof (Nat.div_mod m 64 ltac:(lia)). pose proof (Nat.mod_upper_bound m 64 ltac:(lia)). lia. Qed.

(** The parameters that [field_init_gf3m] builds. *)
Definition good (p : params) : Prop :=
  p_len p = len /\ p_m p = Z.of_nat m /\ p_t p = Z.of_nat t /\ wf len (p_p p) /\ forall i, tc (p_p p) i = coef tri i.
Lemma u32_small : forall x, (0 <= x < 2 ^ 32)%Z -> u32 x = x. Proof. intros. apply Z.mod_small. auto. Qed.
Lemma len_Z : Z.to_nat (u32 (Z.of_nat m + 63 + 1) / 64) = len.
Proof.
  rewrite u32_small by lia. replace (Z.of_nat m + 63 + 1)%Z with (Z.of_nat m + 1 * 64)%Z by lia. rewrite Z.div_add by lia.
  change 64%Z with (Z.of_nat 64). rewrite <- Nat2Z.inj_div. lia.
Qed.
Lemma init_spec : exists p, field_init_gf3m (Z.of_nat m) (Z.of_nat t) = Ok p /\ good p.
Proof.
  unfold field_init_gf3m. rewrite len_Z. pose proof len_big as LB.
  assert (P0 : put (repeat 0%Z len) 0 1%Z = Ok (1%Z :: repeat 0%Z (m / 64))).
  { replace len with (S (m / 64)) by lia. reflexivity. }
  rewrite P0. cbn [bind].
  destruct (or_bit_spec (repeat 0%Z len) t) as (l1 & E1 & L1 & W1 & B1); [apply repeat_wd | rewrite repeat_length; lia | ]. rewrite E1. cbn [bind]. rewrite repeat_length in L1.
  destruct (or_bit_spec l1 m) as (l2 & E2 & L2 & W2 & B2); [auto | lia | ]. rewrite E2. cbn [bind].
  eexists. split; [reflexivity | ]. split; [reflexivity | ]. split; [reflexivity | ]. split; [reflexivity | ]. cbn [p_p].
  assert (B0 : forall i, bit (1%Z :: repeat 0%Z (m / 64)) i = (i =? 0)).
  { intro i. rewrite bit_cons, bit_repeat0. destruct (Nat.ltb_spec i 64); [ | destruct (Nat.eqb_spec i 0); auto; lia].
    change 1%Z with (2 ^ 0)%Z. rewrite Z.pow2_bits_eqb by lia. destruct (Z.eqb_spec 0 (Z.of_nat i)), (Nat.eqb_spec i 0); auto; lia. }
  assert (BB : forall i, bit l2 i = (i =? t) || (i =? m)) by (intro; rewrite B2, B1, bit_repeat0, orb_false_r; apply orb_comm).
  split.
  - unfold wf, sliced. cbn [d1 d2 length]. rewrite repeat_length. repeat split; auto; try lia.
    + constructor; [split; [lia | reflexivity] | apply repeat_wd].
    + intro i. rewrite BB, B0. destruct (Nat.eqb_spec i 0); [subst | apply andb_false_r]. destruct (Nat.eqb_spec 0 t), (Nat.eqb_spec 0 m); try lia; reflexivity.
  - intro i. unfold tc, tcoef. cbn [d1 d2]. rewrite BB, B0, coef_tri. destruct (Nat.eqb_spec i 0); [subst | reflexivity]. destruct (Nat.eqb_spec 0 t), (Nat.eqb_spec 0 m); try lia; reflexivity.
Qed.

Section Op.
Variable p : params.
Hypothesis Hp : good p.
Lemma p_m_eq : p_m p = Z.of_nat m. Proof. apply Hp. Qed.
Lemma p_wf : wf len (p_p p). Proof. apply Hp. Qed.
Lemma p_tc : forall i, tc (p_p p) i = coef tri i. Proof. apply Hp. Qed.
Lemma p_P : eqp (P (p_p p)) tri. Proof. intro i. rewrite (coef_P len) by apply p_wf. apply p_tc. Qed.

(** Multiplication by x. *)
Lemma f2_spec : forall e, wf len e -> low m e ->
  exists e', gf3m_f2 p e = Ok e' /\ wf len e' /\ low m e' /\ cong tri (P e') (f0 :: P e).
Proof.
  intros e W L. unfold gf3m_f2. cbn zeta. pose proof len_big as LB.
  destruct (shift_up_spec len e W) as (Wu & U). specialize (U (L (64 * len - 1) ltac:(lia))).
  rewrite p_m_eq, (get_spec len) by (auto; lia). cbn [bind]. set (v := tc (shift_up e) m).
  destruct (elim len v (shift_up e) (p_p p) Wu p_wf) as (e' & E & We & H). exists e'. split; [exact E | ]. split; [auto | ].
  assert (LT : low m e').
  { intros i Hi. rewrite H, p_tc. destruct (Nat.eq_dec i m) as [-> | N]; [rewrite (proj2 tri_monic); unfold v; ring | ]. rewrite tri_over by lia. rewrite U. destruct i; [lia | ]. rewrite L by lia. change T0 with (@f0 K). ring. }
  split; [auto | ]. apply (cong_mulp K HK). exists [fopp v]. intro i.
  rewrite (coef_P len) by auto. rewrite H, p_tc, (coef_addp K HK), (coef_cons K), U by auto.
  assert (Q : eqp (mulp K [fopp v] tri) (scalp K (fopp v) tri)) by (symmetry; apply (scalp_mulp K HK)).
  rewrite Q, (coef_scalp K HK). destruct i; [ring | rewrite (coef_P len) by auto; ring].
Qed.
Lemma mult_loop_spec : forall n i a b c, wf len a -> low m a -> wf len b -> i + n <= m -> wf len c -> low m c ->
  exists c', mult_loop n p (Z.of_nat i) a b c = Ok c' /\ wf len c' /\ low m c' /\ cong tri (P c') (addp K (P c) (mulp K (map (tc b) (seq i n)) (P a))).
Proof.
  induction n as [ | n IH]; intros i a b c Wa La Wb Hn Wc Lc; cbn [mult_loop].
  - exists c. repeat (split; [auto | ]). cbn [map seq mulp]. apply (eqp_cong K HK). ring.
  - pose proof len_big as LB. rewrite (get_spec len) by (auto; lia). cbn [bind]. destruct (f1_P len (tc b i) a Wa) as (W1 & P1). destruct (f1_spec len (tc b i) a Wa) as (_ & T1).
    destruct (add_spec len c _ Wc W1) as (c1 & E1 & Wc1 & T2). destruct (add_P len c _ Wc W1) as (c1' & E1' & _ & P2). rewrite E1 in E1'. inversion E1'. subst c1'. clear E1'. rewrite E1. cbn [bind].
    destruct (f2_spec a Wa La) as (a1 & E2 & Wa1 & La1 & C). rewrite E2. cbn [bind]. replace (Z.of_nat i + 1)%Z with (Z.of_nat (S i)) by lia.
    destruct (IH (S i) a1 b c1) as (c' & E3 & Wc' & Lc' & C'); auto; try lia.
    { intros j Hj. rewrite T2, T1, (Lc j Hj), (La j Hj). ring. }
    exists c'. repeat (split; [auto | ]). rewrite C'. rewrite C. rewrite P2, P1. cbn [seq map mulp]. apply (eqp_cong K HK). rewrite (shift_mulp K HK (P a)), (shift_mulp K HK (mulp K _ (P a))). ring.
Qed.
Definition val (e : elt) : GF3m m t := sliced_value m t (d1 e) (d2 e).
Lemma val_P : forall e, wf len e -> low m e -> eqp (vl K m (val e)) (P e).
Proof.
  intros e W L i. unfold vl. change (vcoef (val e) i = coef (P e) i). unfold val, sliced_value. rewrite (vcoef_mk K m). rewrite (coef_P len) by auto. destruct (Nat.ltb_spec i m); auto. rewrite L by lia. reflexivity.
Qed.
Theorem mult_spec : forall a b, wf len a -> low m a -> wf len b -> low m b ->
  exists c, gf3m_mult p a b = Ok c /\ wf len c /\ low m c /\ val c = fmul (val a) (val b).
Proof.
  intros a b Wa La Wb Lb. unfold gf3m_mult. rewrite p_m_eq, Nat2Z.id. replace (p_len p) with len by (symmetry; apply Hp).
  destruct (mult_loop_spec m 0 a b (zero len)) as (c & E & W & L & C); auto; try lia; [apply wf_zero | intros i _; apply tc_zero | ].
  exists c. split; [exact E | ]. split; [auto | split; [auto | ]]. apply (vec_cong K HK m tri tri_monic).
  rewrite (val_P c W L), C, zero_P. etransitivity; [ | symmetry; apply (E_mul K HK m tri tri_monic ltac:(lia))].
  rewrite (val_P a), (val_P b) by auto. assert (B : eqp (map (tc b) (seq 0 m)) (P b)).
  { intro i. rewrite (coef_map_seq K), (coef_P len) by auto. destruct (Nat.ltb_spec i m); auto. rewrite Lb by lia. reflexivity. }
  rewrite B. apply (eqp_cong K HK). ring.
Qed.

(** Reduction of a longer element. *)
Lemma reduct_loop_spec : forall fuel n D e px, wf n e -> wf n px -> D < 64 * n -> D < fuel -> (Z.of_nat D < 2 ^ 32)%Z -> m <= S D -> low (S D) e ->
  (m <= D -> forall i, tc px i = if i <? D - m then f0 else coef tri (i - (D - m))) ->
  exists e', reduct_loop fuel (Z.of_nat m) e px (Z.of_nat D) = Ok e' /\ wf n e' /\ low m e' /\ cong tri (P e') (P e).
Proof.
  induction fuel as [ | fuel IH]; intros n D e px We Wp HD Hf HD32 HmD Le Hpx; [lia | ].
  cbn [reduct_loop]. destruct (Z.ltb_spec (Z.of_nat D) (Z.of_nat m)).
  - exists e. split; [auto | split; [auto | split]]; [ | reflexivity]. intros i Hi. apply Le. lia.
  - rewrite (get_spec n) by auto. cbn [bind]. specialize (Hpx ltac:(lia)).
    destruct (elim n (tc e D) e px We Wp) as (e1 & E & We1 & T). rewrite E. cbn [bind].
    destruct (shift_down_spec n px Wp) as (Wd & Td).
    assert (Q : u32 (Z.of_nat D - 1) = Z.of_nat (D - 1)) by (rewrite u32_small by lia; lia). rewrite Q.
    destruct (IH n (D - 1) e1 (shift_down px)) as (e' & E' & We' & Le' & C); auto; try lia.
    + intros i Hi. rewrite T. destruct (Nat.eq_dec i D) as [-> | N].
      * rewrite Hpx. destruct (Nat.ltb_spec D (D - m)); [lia | ]. replace (D - (D - m)) with m by lia. rewrite (proj2 tri_monic). ring.
      * rewrite Le by lia. rewrite Hpx. destruct (Nat.ltb_spec i (D - m)); [lia | ]. rewrite tri_over by lia. change T0 with (@f0 K). ring.
    + intros HD1 i. rewrite Td, Hpx. destruct (Nat.ltb_spec (S i) (D - m)), (Nat.ltb_spec i (D - 1 - m)); try lia; auto. f_equal. lia.
    + exists e'. split; [auto | split; [auto | split; [auto | ]]]. rewrite C. apply (cong_mulp K HK).
      exists (scalp K (fopp (tc e D)) (repeat f0 (D - m) ++ [f1])). intro i.
      rewrite (coef_P n) by auto. rewrite T, Hpx, (coef_addp K HK), (coef_P n) by auto.
      assert (SH : forall k f i, coef (mulp K (repeat f0 k ++ [f1]) f) i = if i <? k then f0 else coef f (i - k)).
      { clear. induction k as [ | k IHk]; intros f i.
        - cbn [repeat app]. rewrite (mulp_1_l K HK f i). destruct (Nat.ltb_spec i 0); [lia | ]. rewrite Nat.sub_0_r. reflexivity.
        - cbn [repeat app]. rewrite (mulp_shift_l K HK _ f i), (coef_cons K). destruct i as [ | i]; [reflexivity | ]. rewrite IHk. destruct (Nat.ltb_spec i k), (Nat.ltb_spec (S i) (S k)); try lia; auto. }
      rewrite (mulp_scalp_l K HK _ _ tri i), (coef_scalp K HK), SH. destruct (i <? D - m); ring.
Qed.
Lemma reduct_spec : forall n D e, wf n e -> D < 64 * n -> (Z.of_nat D < 2 ^ 32)%Z -> m <= D -> low (S D) e ->
  exists e', gf3m_reduct p e n (Z.of_nat D) = Ok e' /\ wf n e' /\ low m e' /\ cong tri (P e') (P e).
Proof.
  intros n D e We HD H32 HmD Le. unfold gf3m_reduct. replace (p_t p) with (Z.of_nat t) by (symmetry; apply Hp). rewrite p_m_eq.
  assert (Q1 : u32 (Z.of_nat D - Z.of_nat m + Z.of_nat t) = Z.of_nat (D - m + t)) by (rewrite u32_small; lia).
  assert (Q2 : u32 (Z.of_nat D - Z.of_nat m) = Z.of_nat (D - m)) by (rewrite u32_small; lia). rewrite Q1, Q2.
  change 1%Z with (tval T1). change 2%Z with (tval T2).
  destruct (set_spec n (zero n) D T1) as (p1 & -> & W1 & S1); [apply wf_zero | auto | apply tc_zero | ]. cbn [bind].
  destruct (set_spec n p1 (D - m + t) T1) as (p2 & -> & W2 & S2); [auto | lia | rewrite S1, tc_zero; destruct (Nat.eqb_spec (D - m + t) D); [lia | auto] | ]. cbn [bind].
  destruct (set_spec n p2 (D - m) T2) as (p3 & -> & W3 & S3); [auto | lia | rewrite S2, S1, tc_zero; destruct (Nat.eqb_spec (D - m) (D - m + t)); [lia | ]; destruct (Nat.eqb_spec (D - m) D); [lia | auto] | ]. cbn [bind].
  apply reduct_loop_spec; auto; try lia. intros _ i. rewrite S3, S2, S1, tc_zero.
  destruct (Nat.ltb_spec i (D - m)).
  - destruct (Nat.eqb_spec i (D - m)); [lia | ]. destruct (Nat.eqb_spec i (D - m + t)); [lia | ]. destruct (Nat.eqb_spec i D); [lia | reflexivity].
  - rewrite coef_tri. destruct (Nat.eqb_spec i (D - m)), (Nat.eqb_spec (i - (D - m)) 0); try lia; auto. destruct (Nat.eqb_spec i (D - m + t)), (Nat.eqb_spec (i - (D - m)) t); try lia; auto.
    destruct (Nat.eqb_spec i D), (Nat.eqb_spec (i - (D - m)) m); try lia; auto.
Qed.

(** Cubing. *)
Fixpoint spreadp (f : list K) : list K := match f with [] => [] | a :: f => a :: f0 :: f0 :: spreadp f end.
Lemma coef_spreadp : forall f i, coef (spreadp f) i = if (i mod 3 =? 0) then coef f (i / 3) else f0.
Proof.
  induction f as [ | a f IH]; intro i; cbn [spreadp]; [rewrite !(coef_nil K); destruct (_ =? _); reflexivity | ].
  destruct i as [ | [ | [ | i]]]; try reflexivity. rewrite !(coef_cons K), IH.
  replace (S (S (S i))) with (i + 1 * 3) by lia. rewrite Nat.mod_add, Nat.div_add by lia. replace (i / 3 + 1) with (S (i / 3)) by lia. reflexivity.
Qed.
Lemma three : forall g : list K, eqp (addp K g (addp K g g)) [].
Proof. intros g i. rewrite !(coef_addp K HK), (coef_nil K). destruct (coef g i); reflexivity. Qed.
Lemma cube_spread : forall f, eqp (mulp K f (mulp K f f)) (spreadp f).
Proof.
  induction f as [ | a f IH]; [reflexivity | ]. cbn [spreadp].
  assert (X3 : eqp (a :: f0 :: f0 :: spreadp f) (addp K [a] (mulp K [f0; f1] (mulp K [f0; f1] (mulp K [f0; f1] (spreadp f)))))).
  { rewrite (cons_split K HK a), <- !(shift_mulp K HK). reflexivity. }
  rewrite X3, <- IH, (cons_split K HK a f). set (x := [f0; f1] : list K).
  assert (A : eqp (mulp K [a] (mulp K [a] [a])) [a]) by (intro i; destruct a; destruct i as [ | [ | i]]; reflexivity).
  transitivity (addp K (addp K (mulp K [a] (mulp K [a] [a])) (mulp K x (mulp K x (mulp K x (mulp K f (mulp K f f))))))
    (addp K (let g := mulp K (mulp K [a] [a]) (mulp K x f) in addp K g (addp K g g)) (let g := mulp K [a] (mulp K (mulp K x f) (mulp K x f)) in addp K g (addp K g g)))); [cbn zeta; ring | ].
  cbn zeta. rewrite !three, A. ring.
Qed.
Lemma spread_spec : forall n i L x a, i + n = m -> wf len x -> wf L a -> 3 * m <= 64 * L + 2 ->
  (forall j, tc a j = if (j mod 3 =? 0) && (j / 3 <? i) then tc x (j / 3) else f0) ->
  exists a', spread n (Z.of_nat i) x a = Ok a' /\ wf L a' /\ forall j, tc a' j = if (j mod 3 =? 0) && (j / 3 <? m) then tc x (j / 3) else f0.
Proof.
  induction n as [ | n IH]; intros i L x a Hi Wx Wa HL H; cbn [spread].
  - exists a. split; [auto | split; auto]. replace m with i by lia. auto.
  - pose proof len_big. rewrite (get_spec len) by (auto; lia). cbn [bind].
    assert (Q : u32 (3 * Z.of_nat i) = Z.of_nat (3 * i)) by (rewrite u32_small; lia). rewrite Q.
    assert (D3 : 3 * i / 3 = i /\ (3 * i) mod 3 = 0) by (rewrite (Nat.mul_comm 3 i), Nat.div_mul, Nat.mod_mul by lia; auto).
    destruct (set_spec L a (3 * i) (tc x i)) as (a1 & E & W1 & S1); auto; [lia | | ].
    { rewrite H, (proj1 D3), (proj2 D3). destruct (Nat.ltb_spec i i); [lia | reflexivity]. }
    rewrite E. cbn [bind]. replace (Z.of_nat i + 1)%Z with (Z.of_nat (S i)) by lia. apply IH with (L := L); auto; [lia | ].
    intro j. rewrite S1, H. destruct (Nat.eqb_spec j (3 * i)) as [-> | N].
    + rewrite (proj1 D3), (proj2 D3). destruct (Nat.ltb_spec i (S i)); [reflexivity | lia].
    + destruct (Nat.eqb_spec (j mod 3) 0) as [Z | Z]; [ | reflexivity]. cbn [andb]. assert (j / 3 <> i) by (intro; apply N; rewrite (Nat.div_mod j 3) by lia; lia).
      destruct (Nat.ltb_spec (j / 3) i), (Nat.ltb_spec (j / 3) (S i)); try lia; auto.
Qed.
Lemma slice_wf : forall n e L, wf L e -> n <= L -> low (64 * n) e ->
  exists e1 e2, slice (d1 e) 0 n = Ok e1 /\ slice (d2 e) 0 n = Ok e2 /\ wf n (E e1 e2) /\ forall i, tc (E e1 e2) i = tc e i.
Proof.
  intros n [a b] L (L1 & L2 & W1 & W2 & D) H Lo. cbn in *. unfold slice. cbn [Nat.add skipn].
  destruct (Nat.leb_spec n (length a)); [ | lia]. destruct (Nat.leb_spec n (length b)); [ | lia].
  assert (B : forall l, n <= length l -> forall i, bit (firstn n l) i = if i <? 64 * n then bit l i else false).
  { intros l Hl i. destruct (Nat.ltb_spec i (64 * n)); [ | apply bit_over; rewrite firstn_length_le; lia]. unfold bit. f_equal. rewrite <- (firstn_skipn n l) at 2.
    rewrite app_nth1; auto. rewrite firstn_length_le by lia. apply Nat.div_lt_upper_bound; lia. }
  do 2 eexists. split; [reflexivity | ]. split; [reflexivity | ]. split.
  - repeat split; cbn; try (apply firstn_length_le; lia).
    + apply Forall_forall. intros w Hw. apply (proj1 (Forall_forall _ _) W1). rewrite <- (firstn_skipn n a). apply in_or_app. auto.
    + apply Forall_forall. intros w Hw. apply (proj1 (Forall_forall _ _) W2). rewrite <- (firstn_skipn n b). apply in_or_app. auto.
    + intro i. rewrite !B by lia. destruct (i <? 64 * n); [apply D | reflexivity].
  - intro i. unfold tc, tcoef. cbn [d1 d2]. rewrite !B by lia. destruct (Nat.ltb_spec i (64 * n)); [reflexivity | ]. specialize (Lo i ltac:(lia)). unfold tc, tcoef in Lo. cbn in Lo. symmetry. exact Lo.
Qed.
Theorem cubic_spec : 2 <= m -> forall x, wf len x -> low m x ->
  exists c, gf3m_cubic p x = Ok c /\ wf len c /\ low m c /\ val c = fmul (val x) (fmul (val x) (val x)).
Proof.
  intros M2 x Wx Lx. unfold gf3m_cubic. rewrite p_m_eq, Nat2Z.id. cbn zeta. replace (p_len p) with len by (symmetry; apply Hp).
  set (L := Z.to_nat (u32 (3 * Z.of_nat m - 2 + 63) / 64)).
  assert (HL : 3 * m <= 64 * L + 2 /\ len <= L).
  { unfold L. rewrite u32_small by lia. pose proof (Z.div_mod (3 * Z.of_nat m - 2 + 63) 64 ltac:(lia)). pose proof (Z.mod_pos_bound (3 * Z.of_nat m - 2 + 63) 64 ltac:(lia)).
    pose proof (Nat.div_mod m 64 ltac:(lia)). pose proof (Nat.mod_upper_bound m 64 ltac:(lia)). lia. }
  destruct (spread_spec m 0 L x (zero L)) as (a & E1 & W1 & S1); auto; try lia; [apply wf_zero | | ].
  { intro j. rewrite tc_zero. destruct (Nat.ltb_spec (j / 3) 0); [lia | ]. rewrite andb_false_r. reflexivity. }
  change (Z.of_nat 0) with 0%Z in E1. rewrite E1. cbn [bind].
  assert (Q : u32 (3 * Z.of_nat m - 3) = Z.of_nat (3 * m - 3)) by (rewrite u32_small; lia). rewrite Q.
  destruct (reduct_spec L (3 * m - 3) a) as (r & E2 & W2 & L2 & C2); auto; try lia.
  { intros i Hi. rewrite S1. destruct (Nat.eqb_spec (i mod 3) 0) as [M0 | ]; [ | reflexivity]. destruct (Nat.ltb_spec (i / 3) m); [ | reflexivity].
    pose proof (Nat.div_mod i 3 ltac:(lia)). lia. }
  rewrite E2. cbn [bind]. pose proof len_big as LB.
  destruct (slice_wf len r L) as (e1 & e2 & -> & -> & We & Te); auto; [lia | intros i Hi; apply L2; lia | ]. cbn [bind].
  exists (E e1 e2). split; [reflexivity | ]. split; [auto | ]. assert (Le : low m (E e1 e2)) by (intros i Hi; rewrite Te; auto). split; [auto | ].
  apply (vec_cong K HK m tri tri_monic). rewrite (val_P _ We Le).
  assert (A1 : eqp (P (E e1 e2)) (P r)) by (intro i; rewrite (coef_P len), (coef_P L) by auto; apply Te). rewrite A1, C2.
  assert (A2 : eqp (P a) (spreadp (P x))).
  { intro i. rewrite coef_spreadp, (coef_P L), (coef_P len), S1 by auto. destruct (i mod 3 =? 0); [ | reflexivity]. cbn [andb]. destruct (Nat.ltb_spec (i / 3) m); [reflexivity | ]. rewrite Lx by lia. reflexivity. }
  rewrite A2, <- cube_spread. pose proof (E_mul K HK m tri tri_monic ltac:(lia)) as EM.
  rewrite (EM (val x) (fmul (val x) (val x))), (EM (val x) (val x)), (val_P x) by auto. reflexivity.
Qed.
End Op.
End F.
