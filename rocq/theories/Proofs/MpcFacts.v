(** Complex arithmetic. *)
From Coq Require Import ZArith List Bool Lia Ring Field.
From Verif.Base Require Import Outcome Algebra Slots.
From Verif.Spec Require Import FiniteField Quadratic ClassPolynomial.
From Verif.Model Require Import Mpc.
From Verif.Proofs Require Import FieldFacts QuadFacts RootFacts BilinearZ.
Import ListNotations.
Open Scope Z_scope.

Section C.
Variable K : fld.
Hypothesis HK : fld_laws K.
Hypothesis Hi : ~ is_square (fopp (f1 : K)).
Add Field KFmpc : (fl_field K HK).
Notation C := (Cx K).
Lemma C_laws : fld_laws C. Proof. exact (Quad_laws K HK _ Hi). Qed.
Lemma C_eq : forall a b c d : K, a = c -> b = d -> (a, b) = (c, d) :> C. Proof. intros; subst; auto. Qed.
Lemma at_set_re : forall s r x i, set_re K s r x i = if Nat.eqb i r then (x, snd (s i)) else s i. Proof. reflexivity. Qed.
Lemma at_set_im : forall s r x i, set_im K s r x i = if Nat.eqb i r then (fst (s i), x) else s i. Proof. reflexivity. Qed.

Ltac go := split;
  [ repeat (rewrite ?at_set_re, ?at_set_im, ?Nat.eqb_refl; cbn [fst snd]); try reflexivity
  | let i := fresh in let H := fresh in intros i H; apply Nat.eqb_neq in H;
    repeat (rewrite ?at_set_re, ?at_set_im, ?H; cbn [fst snd]); reflexivity ].
Ltac cases := repeat match goal with |- context [Nat.eqb ?a ?b] => destruct (Nat.eqb_spec a b); subst; cbn [fst snd] end.

Lemma add_w : forall s r x y, writes s (mpc_add K s r x y) r (fadd (s x : C) (s y)).
Proof. intros. unfold mpc_add. go. cases; try reflexivity; try congruence. Qed.
Lemma sub_w : forall s r x y, writes s (mpc_sub K s r x y) r (fsub (s x : C) (s y)).
Proof. intros. unfold mpc_sub. go. cases; try reflexivity; try congruence. Qed.
Lemma neg_w : forall s r x, writes s (mpc_neg K s r x) r (fopp (s x : C)).
Proof. intros. unfold mpc_neg. go. cases; try reflexivity; try congruence. Qed.
Lemma conj_w : forall s r x, writes s (mpc_conj K s r x) r (conj_c (s x : C)).
Proof. intros. unfold mpc_conj. go. cases; try reflexivity; try congruence. Qed.
Lemma set_w : forall s r x, writes s (mpc_set K s r x) r (s x : C).
Proof. intros s r x. unfold mpc_set. go. destruct (Nat.eqb_spec x r); cbn [fst snd]; symmetry; apply surjective_pairing. Qed.
Lemma set_ui_w : forall s r n, writes s (mpc_set_ui K s r n) r (fofz n : C).
Proof. intros. rewrite (Quad_fofz K HK _ Hi). unfold mpc_set_ui. go. Qed.
Lemma add_ui_w : forall s r n, writes s (mpc_add_ui K s r r n) r (fadd (s r : C) (fofz n)).
Proof. intros. rewrite (Quad_fofz K HK _ Hi). unfold mpc_add_ui. go. apply C_eq; cbn [fst snd]; ring. Qed.
Lemma mul_ui_w : forall s r x n, writes s (mpc_mul_ui K s r x n) r (fmul (s x : C) (fofz n)).
Proof. intros. rewrite (Quad_fofz K HK _ Hi). unfold mpc_mul_ui. go. cases; apply C_eq; cbn [fst snd]; ring. Qed.
Lemma mul_mpf_w : forall s r x f, writes s (mpc_mul_mpf K s r x f) r (fmul (s x : C) ((f, f0) : C)).
Proof. intros. unfold mpc_mul_mpf. go. cases; apply C_eq; cbn [fst snd]; ring. Qed.
Lemma mul_2exp_w : forall s r x e, writes s (mpc_mul_2exp K s r x e) r (fmul (s x : C) (fofz (2 ^ e))).
Proof. intros. apply mul_ui_w. Qed.
Lemma mul_w : forall s r x y, writes s (mpc_mul K s r x y) r (fmul (s x : C) (s y)).
Proof. intros. unfold mpc_mul. go. cases; apply C_eq; cbn [fst snd]; ring. Qed.
Lemma sqr_w : forall s r x, writes s (mpc_sqr K s r x) r (fmul (s x : C) (s x)).
Proof. intros. unfold mpc_sqr. go. cases; apply C_eq; cbn [fst snd]; ring. Qed.
Lemma muli_w : forall s r x, writes s (mpc_muli K s r x) r (fmul (s x : C) ((f0, f1) : C)).
Proof. intros. unfold mpc_muli. go. cases; apply C_eq; cbn [fst snd]; ring. Qed.
Lemma norm_split : forall z : C, fadd (fmul (fst z) (fst z)) (fmul (snd z) (snd z)) = qnorm K (fopp f1) z.
Proof. intro z. unfold qnorm. ring. Qed.
Lemma inv_w : forall s r x, (s x : C) <> f0 -> exists s', mpc_inv K s r x = Ok s' /\ writes s s' r (finv (s x : C)).
Proof.
  intros s r x N. apply (qnorm_nz K HK _ Hi) in N. unfold mpc_inv. rewrite norm_split. unfold finvert.
  destruct (feqb (qnorm K (fopp f1) (s x)) f0) eqn:E; [apply (fl_eqb K HK) in E; contradiction | ]. cbn [bind].
  eexists. split; [reflexivity | ]. go. cbn [finv Cx Quad]. unfold qinv. cases; apply C_eq; cbn [fst snd]; try field; auto.
Qed.
Lemma inv_0 : forall s r x, (s x : C) = f0 -> mpc_inv K s r x = UB.
Proof.
  intros s r x E. unfold mpc_inv. rewrite E. cbn [fst snd f0 Cx Quad]. unfold finvert.
  replace (fadd (fmul f0 f0) (fmul f0 f0)) with (f0 : K) by ring.
  replace (feqb f0 (f0 : K)) with true by (symmetry; apply (fl_eqb K HK); auto). reflexivity.
Qed.
Lemma div_w : forall c0 s r x y, (s y : C) <> f0 -> c0 <> r -> c0 <> x -> c0 <> y ->
  exists s', mpc_div K c0 s r x y = Ok s' /\ s' r = fdiv (s x : C) (s y) /\ forall i, i <> r -> i <> c0 -> s' i = s i.
Proof.
  intros c0 s r x y N N1 N2 N3. destruct (inv_w s c0 y N) as (s1 & E1 & W1 & F1). unfold mpc_div. rewrite E1. cbn [bind].
  eexists. split; [reflexivity | ]. destruct (mul_w s1 r x c0) as [W2 F2]. split.
  - rewrite W2, W1, F1 by auto. reflexivity.
  - intros i A B. rewrite F2, F1; auto.
Qed.

Add Field KFmpcC : (fl_field C C_laws).
Lemma fpow_one : forall x : C, fpow x 1 = x. Proof. intro x. change (@eq C (fmul x f1) x). ring. Qed.
(** ** Powers *)
Lemma start_ok : forall k i n f, 2 ^ Z.of_nat k <= 2 * n + 1 < 2 ^ (Z.of_nat k + Z.of_nat i + 1) -> 0 <= n -> Z.of_nat k + Z.of_nat i <= 31 ->
  exists j, pow_start (S i + f) (2 ^ Z.of_nat k) n = Ok (2 ^ Z.of_nat j) /\ n < 2 ^ Z.of_nat j /\ (j <= k + i)%nat.
Proof.
  intros k i. revert k. induction i as [ | i IH]; intros k n f B N0 L.
  - cbn [pow_start Nat.add]. assert (E : 2 ^ (Z.of_nat k + Z.of_nat 0 + 1) = 2 * 2 ^ Z.of_nat k) by (rewrite Z.add_0_r, Z.pow_add_r by lia; lia).
    rewrite E in B. destruct (2 ^ Z.of_nat k <=? n) eqn:Q; [apply Z.leb_le in Q; lia | ]. exists k. repeat split; auto; lia.
  - change (S (S i) + f)%nat with (S (S i + f))%nat. cbn [pow_start]. destruct (2 ^ Z.of_nat k <=? n) eqn:Q.
    + apply Z.leb_le in Q. assert (E : (2 ^ Z.of_nat k * 2) mod 2 ^ 32 = 2 ^ Z.of_nat (S k)).
      { rewrite Z.mod_small. - rewrite Nat2Z.inj_succ, Z.pow_succ_r by lia. lia.
        - split; [lia | ]. replace (2 ^ Z.of_nat k * 2) with (2 ^ Z.succ (Z.of_nat k)) by (rewrite Z.pow_succ_r by lia; lia). apply Z.pow_lt_mono_r; lia. }
      rewrite E. destruct (IH (S k) n f) as (j & A1 & A2 & A3); [ | auto | lia | ].
      * split; [rewrite Nat2Z.inj_succ, Z.pow_succ_r by lia; lia | ]. replace (Z.of_nat (S k) + Z.of_nat i + 1) with (Z.of_nat k + Z.of_nat (S i) + 1) by lia. lia.
      * exists j. repeat split; auto. lia.
    + apply Z.leb_gt in Q. exists k. repeat split; auto; lia.
Qed.
Lemma start_stuck0 : forall f n, 0 <= n -> pow_start f 0 n = OutOfFuel.
Proof. induction f as [ | f IH]; intros n N; cbn [pow_start]; auto. destruct (0 <=? n) eqn:Q; [ | apply Z.leb_gt in Q; lia]. rewrite Z.mul_0_l, Z.mod_0_l by lia. auto. Qed.
Lemma start_stuck : forall k f n, 2 ^ 31 <= n -> (k <= 31)%nat -> pow_start f (2 ^ (31 - Z.of_nat k)) n = OutOfFuel.
Proof.
  induction k as [ | k IH]; intros f n N L; (destruct f as [ | f]; [reflexivity | ]); cbn [pow_start].
  - change (31 - Z.of_nat 0) with 31. destruct (2 ^ 31 <=? n) eqn:Q; [ | apply Z.leb_gt in Q; lia].
    change ((2 ^ 31 * 2) mod 2 ^ 32) with 0. apply start_stuck0. lia.
  - assert (P : 2 ^ (31 - Z.of_nat (S k)) < 2 ^ 31) by (apply Z.pow_lt_mono_r; lia).
    destruct (2 ^ (31 - Z.of_nat (S k)) <=? n) eqn:Q; [ | apply Z.leb_gt in Q; lia].
    replace ((2 ^ (31 - Z.of_nat (S k)) * 2) mod 2 ^ 32) with (2 ^ (31 - Z.of_nat k)); [apply IH; auto; lia | ].
    replace (31 - Z.of_nat k) with (Z.succ (31 - Z.of_nat (S k))) by lia. rewrite Z.pow_succ_r by lia. rewrite Z.mod_small; [lia | ].
    assert (0 < 2 ^ (31 - Z.of_nat (S k))) by (apply Z.pow_pos_nonneg; lia). lia.
Qed.
Lemma land_bit : forall j n, 0 <= n -> (Z.land (2 ^ Z.of_nat j) n =? 0) = negb (Z.testbit n (Z.of_nat j)).
Proof.
  intros j n N. destruct (Z.testbit n (Z.of_nat j)) eqn:T; cbn [negb].
  - apply Z.eqb_neq. intro E. apply (f_equal (fun x => Z.testbit x (Z.of_nat j))) in E. rewrite Z.land_spec, Z.pow2_bits_true, T, Z.bits_0 in E by lia. discriminate.
  - apply Z.eqb_eq. apply Z.bits_inj'. intros i Hi'. rewrite Z.land_spec, Z.bits_0. destruct (Z.eq_dec i (Z.of_nat j)) as [-> | D]; [rewrite T; apply andb_false_r | ].
    rewrite Z.pow2_bits_false by lia. auto.
Qed.
Lemma loop_ok : forall j f z0 z n s, z0 <> z -> 0 <= n -> (s z0 : C) = fpow (s z : C) (n / 2 ^ Z.of_nat j) ->
  exists s', pow_loop K (S j + f) z0 z (2 ^ Z.of_nat j / 2) n s = Ok s' /\ (s' z0 : C) = fpow (s z : C) n /\ forall i, i <> z0 -> s' i = s i.
Proof.
  pose proof C_laws as HC. induction j as [ | j IH]; intros f z0 z n s D N E.
  - exists s. split; [reflexivity | ]. split; auto. rewrite E. change (2 ^ Z.of_nat 0) with 1. rewrite Z.div_1_r. auto.
  - assert (M : 2 ^ Z.of_nat (S j) / 2 = 2 ^ Z.of_nat j) by (rewrite Nat2Z.inj_succ, Z.pow_succ_r, Z.mul_comm, Z.div_mul by lia; auto).
    assert (P : 0 < 2 ^ Z.of_nat j) by (apply Z.pow_pos_nonneg; lia). rewrite M.
    change (S (S j) + f)%nat with (S (S j + f))%nat. cbn [pow_loop]. replace (2 ^ Z.of_nat j =? 0) with false by (symmetry; apply Z.eqb_neq; lia).
    set (s1 := mpc_mul K s z0 z0 z0). destruct (mul_w s z0 z0 z0) as [W1 F1]. fold s1 in W1, F1.
    assert (H2 : exists s2, s2 = (if negb (Z.land (2 ^ Z.of_nat j) n =? 0) then mpc_mul K s1 z0 z0 z else s1)) by eauto.
    destruct H2 as (s2 & H2). rewrite <- H2.
    assert (A2 : (s2 z0 : C) = fpow (s z : C) (n / 2 ^ Z.of_nat j) /\ forall i, i <> z0 -> s2 i = s i).
    { set (q := n / 2 ^ Z.of_nat (S j)) in *. assert (Q0 : 0 <= q) by (apply Z.div_pos; [auto | apply Z.pow_pos_nonneg; lia]).
      assert (EQ : n / 2 ^ Z.of_nat j = 2 * q + Z.b2z (Z.testbit n (Z.of_nat j))).
      { rewrite (Z.div_mod (n / 2 ^ Z.of_nat j) 2) by lia. rewrite Z.div_div by lia. unfold q. rewrite Nat2Z.inj_succ, Z.pow_succ_r by lia.
        rewrite (Z.mul_comm 2 (2 ^ Z.of_nat j)). f_equal. rewrite Z.testbit_spec' by lia. auto. }
      rewrite EQ. rewrite land_bit, negb_involutive in H2 by auto. destruct (Z.testbit n (Z.of_nat j)); cbn [Z.b2z]; subst s2.
      - destruct (mul_w s1 z0 z0 z) as [W2 F2]. split; [ | intros; rewrite F2, F1; auto]. rewrite W2, W1, F1, E by auto.
        replace (2 * q + 1) with (q + (q + 1)) by lia. rewrite !(fpowA C HC) by lia. rewrite fpow_one. symmetry. apply (Ring_theory.Rmul_assoc (Field_theory.F_R (fl_field C HC))).
      - split; auto. rewrite W1, E. replace (2 * q + 0) with (q + q) by lia. rewrite (fpowA C HC) by lia. auto. }
    destruct A2 as [A2 F2]. destruct (IH f z0 z n s2 D N) as (s' & E' & V' & F'); [rewrite (F2 z) by auto; exact A2 | ].
    exists s'. split; [exact E' | ]. split; [rewrite V', F2; auto | ]. intros; rewrite F', F2; auto.
Qed.
Lemma fpow_0' : forall x : C, fpow x 0 = f1. Proof. reflexivity. Qed.
Lemma pow_ui_w : forall z0 s r z n, 0 <= n < 2 ^ 31 -> z0 <> r -> z0 <> z ->
  exists s', mpc_pow_ui K 33 z0 s r z n = Ok s' /\ (s' r : C) = fpow (s z : C) n /\ forall i, i <> r -> i <> z0 -> s' i = s i.
Proof.
  intros z0 s r z n B N1 N2. destruct (start_ok 0 31 n 1) as (j & E & L & J); [ | lia | lia | ].
  { change (Z.of_nat 0 + Z.of_nat 31 + 1) with 32. change (2 ^ Z.of_nat 0) with 1. change (2 ^ 32) with (2 * 2 ^ 31). lia. }
  unfold mpc_pow_ui. change (S 31 + 1)%nat with 33%nat in E. change (2 ^ Z.of_nat 0) with 1 in E. rewrite E. cbn [bind].
  destruct (set_ui_w s z0 1) as [W0 F0]. replace 33%nat with (S j + (32 - j))%nat by lia.
  destruct (loop_ok j (32 - j) z0 z n (mpc_set_ui K s z0 1) N2) as (s1 & E1 & V1 & F1); [lia | | ].
  { rewrite W0, Z.div_small by lia. reflexivity. }
  rewrite E1. cbn [bind]. eexists. split; [reflexivity | ]. destruct (set_w s1 r z0) as [W2 F2]. split.
  - rewrite W2, V1, F0 by auto. auto.
  - intros i A B'. rewrite F2, F1, F0; auto.
Qed.
Lemma pow_ui_stuck : forall fuel z0 s r z n, 2 ^ 31 <= n -> mpc_pow_ui K fuel z0 s r z n = OutOfFuel.
Proof. intros. unfold mpc_pow_ui. change 1 with (2 ^ (31 - Z.of_nat 31)) at 1. rewrite start_stuck by lia. reflexivity. Qed.
End C.
