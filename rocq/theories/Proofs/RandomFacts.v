(** Uniformity of the file-based random integers. *)
From Coq Require Import ZArith List Bool Lia Permutation.
From Verif.Base Require Import Outcome Gmp.
From Verif.Model Require Import Random.
From Verif.Spec Require Import PrimeField Uniform.
From Verif.Proofs Require Import GmpFacts BytesFacts.
Import ListNotations.
Open Scope Z_scope.

Lemma byte_values_spec : forall x, In x byte_values <-> 0 <= x < 256.
Proof.
  intros x. unfold byte_values. rewrite in_map_iff. split.
  - intros [n [<- H]]. apply in_seq in H. lia.
  - intros H. exists (Z.to_nat x). split; [lia|]. apply in_seq. lia.
Qed.
Lemma byte_values_nodup : NoDup byte_values.
Proof. unfold byte_values. apply FinFun.Injective_map_NoDup; [intros a b; lia|apply seq_NoDup]. Qed.

Lemma all_blocks_spec : forall n l, In l (all_blocks n) <-> length l = n /\ Forall is_byte l.
Proof.
  induction n; intros l; cbn [all_blocks].
  - split; [intros [<-|[]]; auto|]. intros [H _]. destruct l; [left; auto|discriminate].
  - rewrite in_flat_map. split.
    + intros [x [Hx H]]. rewrite in_map_iff in H. destruct H as [l' [<- H]]. apply IHn in H. destruct H.
      split; [simpl; lia|]. constructor; auto. apply byte_values_spec; auto.
    + intros [H1 H2]. destruct l as [|x l]; [discriminate|]. inversion H2; subst. exists x. split; [apply byte_values_spec; auto|].
      apply in_map. apply IHn. split; auto.
Qed.

Lemma NoDup_app_intro : forall (A : Type) (a b : list A), NoDup a -> NoDup b -> (forall x, In x a -> In x b -> False) -> NoDup (a ++ b).
Proof.
  induction a as [|x a IH]; intros b Ha Hb D; auto. inversion Ha; subst. cbn [app]. constructor.
  - rewrite in_app_iff. intros [H|H]; auto. apply (D x); auto. left; auto.
  - apply IH; auto. intros y Hy Hy'. apply (D y); auto. right; auto.
Qed.

Lemma NoDup_map_inj_in : forall (A B : Type) (f : A -> B) (l : list A),
  (forall x y, In x l -> In y l -> f x = f y -> x = y) -> NoDup l -> NoDup (map f l).
Proof.
  induction l as [|x l IH]; intros Hi Hn; [constructor|]. inversion Hn; subst. cbn [map]. constructor.
  - rewrite in_map_iff. intros [y [E Hy]]. assert (y = x) by (apply Hi; [right|left|]; auto). subst. auto.
  - apply IH; auto. intros a b Ha Hb. apply Hi; right; auto.
Qed.

Lemma nodup_flat_map_cons : forall (xs : list Z) (bs : list (list Z)), NoDup xs -> NoDup bs ->
  NoDup (flat_map (fun x => map (cons x) bs) xs).
Proof.
  induction xs as [|x xs IH]; intros bs Hx Hb; [constructor|]. cbn [flat_map]. inversion Hx; subst.
  apply NoDup_app_intro; auto.
  - apply FinFun.Injective_map_NoDup; auto. intros a b H; injection H; auto.
  - intros l H1' H2'. apply in_map_iff in H1'. destruct H1' as [a [<- _]]. apply in_flat_map in H2'.
    destruct H2' as [y [Hy H']]. apply in_map_iff in H'. destruct H' as [b [E _]]. injection E as -> ->. auto.
Qed.
Lemma all_blocks_nodup : forall n, NoDup (all_blocks n).
Proof.
  induction n; [constructor; auto; constructor|]. apply nodup_flat_map_cons; auto. apply byte_values_nodup.
Qed.

Lemma import_be_inj : forall a b, length a = length b -> Forall is_byte a -> Forall is_byte b ->
  import_be a = import_be b -> a = b.
Proof.
  induction a as [|x a IH]; intros [|y b] L Ha Hb E; try discriminate; auto.
  injection L as L. inversion Ha; subst. inversion Hb; subst. rewrite !import_be_cons, L in E.
  pose proof (import_be_range a H2) as R1. pose proof (import_be_range b H4) as R2. rewrite L in R1.
  assert (x = y).
  { assert (0 < 256 ^ Z.of_nat (length b)) by (apply Z.pow_pos_nonneg; lia). nia. }
  subst y. f_equal. apply IH; auto. lia.
Qed.

Lemma import_be_surj : forall n x, 0 <= x < 256 ^ Z.of_nat n -> exists l, length l = n /\ Forall is_byte l /\ import_be l = x.
Proof.
  intros n x Hx. exists (be_bytes n x). split; [apply be_bytes_length|]. split; [apply be_bytes_bytes|].
  rewrite be_bytes_value. apply Z.mod_small; auto.
Qed.

Section U.
Variable limit : Z.
Hypothesis Hl : 0 < limit.
Let n := sizeinbase2 limit.
Let k := byte_count limit.

Lemma k_bounds : 1 <= Z.of_nat k /\ n <= 8 * Z.of_nat k < n + 8.
Proof.
  unfold k, byte_count. fold n. pose proof (sizeinbase2_pos limit). fold n in H.
  rewrite Z2Nat.id by (apply Z.div_pos; lia).
  pose proof (Z.div_mod (n + 7) 8 ltac:(lia)). pose proof (Z.mod_pos_bound (n + 7) 8 ltac:(lia)). lia.
Qed.
Lemma k_left : leftover limit = if Z.eq_dec n (8 * Z.of_nat k) then 0 else n - 8 * (Z.of_nat k - 1).
Proof.
  unfold leftover. fold n. pose proof k_bounds as [K1 K2]. destruct (Z.eq_dec n (8 * Z.of_nat k)) as [->|N].
  - rewrite Z.mul_comm. apply Z.mod_mul. lia.
  - symmetry. apply Z.mod_unique with (Z.of_nat k - 1); lia.
Qed.

Lemma masked_value : forall b, length b = k -> Forall is_byte b -> import_be (mask_first limit b) = import_be b mod 2 ^ n.
Proof.
  intros b L Hb. pose proof k_bounds as [K1 K2]. destruct b as [|x l]; [simpl in L; lia|].
  unfold mask_first. pose proof (import_be_range _ Hb) as R. rewrite L in R. change 256 with (2 ^ 8) in R. rewrite <- Z.pow_mul_r in R by lia.
  rewrite k_left. destruct (Z.eq_dec n (8 * Z.of_nat k)) as [E|N].
  - cbn [Z.eqb]. rewrite E. symmetry. apply Z.mod_small; auto.
  - set (m := n - 8 * (Z.of_nat k - 1)). assert (Hm : 0 < m < 8) by lia.
    replace (m =? 0) with false by (symmetry; apply Z.eqb_neq; lia).
    inversion Hb; subst. rewrite !import_be_cons. cbn [length] in L.
    pose proof (import_be_range l H2) as RL. replace (Z.of_nat (length l)) with (Z.of_nat k - 1) in * by lia.
    set (P := 256 ^ (Z.of_nat k - 1)) in *. assert (0 < P) by (apply Z.pow_pos_nonneg; lia).
    assert (E : 2 ^ n = 2 ^ m * P).
    { unfold P. change 256 with (2 ^ 8). rewrite <- Z.pow_mul_r, <- Z.pow_add_r by lia. f_equal. lia. }
    rewrite E. assert (0 < 2 ^ m) by (apply Z.pow_pos_nonneg; lia).
    pose proof (Z.div_mod x (2 ^ m) ltac:(lia)) as DM. pose proof (Z.mod_pos_bound x (2 ^ m) ltac:(lia)).
    apply Z.mod_unique with (x / 2 ^ m); [left; split; nia|]. rewrite DM at 1. ring.
Qed.

Lemma accept_spec : forall b v, length b = k -> Forall is_byte b ->
  (accept limit b = Some v <-> v < limit /\ import_be b mod 2 ^ n = v).
Proof.
  intros b v L Hb. unfold accept. rewrite masked_value by auto. set (z := import_be b mod 2 ^ n).
  destruct (Z.ltb_spec z limit); split; intros H'; try discriminate.
  - injection H' as <-. auto.
  - destruct H' as [_ <-]. reflexivity.
  - lia.
Qed.
Lemma accept_range : forall b v, length b = k -> Forall is_byte b -> accept limit b = Some v -> 0 <= v < limit.
Proof.
  intros b v L Hb H. apply accept_spec in H; auto. destruct H as [H1 H2]. split; auto. rewrite <- H2. apply Z.mod_pos_bound.
  apply Z.pow_pos_nonneg; [lia|]. pose proof (sizeinbase2_pos limit). unfold n. lia.
Qed.

Lemma uniform : forall v, 0 <= v < limit -> count_blocks k (accept limit) v = 2 ^ (8 * Z.of_nat k - n).
Proof.
  intros v Hv. unfold count_blocks. pose proof k_bounds as [K1 K2].
  assert (Np : 0 < n) by (pose proof (sizeinbase2_pos limit); unfold n; lia).
  set (L := filter _ _). set (e := Z.to_nat (2 ^ (8 * Z.of_nat k - n))).
  assert (P : Permutation (map import_be L) (map (fun j => v + Z.of_nat j * 2 ^ n) (seq 0 e))).
  { assert (MEM : forall b, In b L <-> (length b = k /\ Forall is_byte b) /\ import_be b mod 2 ^ n = v).
    { intros b. unfold L. rewrite filter_In, all_blocks_spec. split; intros [H1 H2]; split; auto; destruct H1 as [H1 H1'].
      - destruct (accept limit b) as [w|] eqn:E; [|discriminate]. apply Z.eqb_eq in H2. subst w. apply accept_spec in E; tauto.
      - rewrite (proj2 (accept_spec b v H1 H1')) by (split; [lia|auto]). apply Z.eqb_refl. }
    assert (Hpn : 0 < 2 ^ n) by (apply Z.pow_pos_nonneg; lia).
    assert (Hv2 : v < 2 ^ n) by (pose proof (sizeinbase2_bound limit ltac:(lia)); fold n in H; lia).
    assert (E8 : 256 ^ Z.of_nat k = 2 ^ (8 * Z.of_nat k - n) * 2 ^ n).
    { change 256 with (2 ^ 8). rewrite <- Z.pow_mul_r, <- Z.pow_add_r by lia. f_equal. lia. }
    assert (He : 0 < 2 ^ (8 * Z.of_nat k - n)) by (apply Z.pow_pos_nonneg; lia).
    apply NoDup_Permutation.
    - apply NoDup_map_inj_in.
      + intros a b Ha Hb E. apply MEM in Ha. apply MEM in Hb. destruct Ha as [[A1 A2] _], Hb as [[B1 B2] _].
        apply import_be_inj; auto. congruence.
      + apply NoDup_filter. apply all_blocks_nodup.
    - apply FinFun.Injective_map_NoDup; [|apply seq_NoDup]. intros a b H. nia.
    - intros x. rewrite !in_map_iff. split.
      + intros [b [<- Hb]]. apply MEM in Hb. destruct Hb as [[B1 B2] B3].
        pose proof (import_be_range b B2) as R. rewrite B1, E8 in R.
        exists (Z.to_nat (import_be b / 2 ^ n)). assert (0 <= import_be b / 2 ^ n) by (apply Z.div_pos; lia).
        assert (import_be b / 2 ^ n < 2 ^ (8 * Z.of_nat k - n)) by (apply Z.div_lt_upper_bound; lia).
        split; [|apply in_seq; unfold e; lia]. rewrite Z2Nat.id by auto.
        pose proof (Z.div_mod (import_be b) (2 ^ n) ltac:(lia)). lia.
      + intros [j [<- Hj]]. apply in_seq in Hj. unfold e in Hj.
        destruct (import_be_surj k (v + Z.of_nat j * 2 ^ n)) as [b [B1 [B2 B3]]].
        { rewrite E8. split; [nia|]. assert (Z.of_nat j + 1 <= 2 ^ (8 * Z.of_nat k - n)) by lia. nia. }
        exists b. split; auto. apply MEM. split; auto. rewrite B3, Z.mod_add by lia. apply Z.mod_small. lia. }
  apply Permutation_length in P. rewrite !map_length, seq_length in P. rewrite P. unfold e. apply Z2Nat.id.
  apply Z.pow_nonneg. lia.
Qed.

Lemma random_range : forall blocks v, Forall (fun b => length b = k /\ Forall is_byte b) blocks ->
  file_mpz_random blocks limit = Some v -> 0 <= v < limit.
Proof.
  induction blocks as [|b blocks IH]; intros v F E; [discriminate|]. inversion F as [|? ? [H1 H2] F']; subst.
  cbn [file_mpz_random] in E. destruct (accept limit b) as [w|] eqn:A; [|apply IH; auto].
  injection E as <-. apply accept_range with b; auto.
Qed.
(** The answer is that of the first accepted block. *)
Lemma random_first : forall blocks v, file_mpz_random blocks limit = Some v <->
  exists rej b rest, blocks = rej ++ b :: rest /\ Forall (fun b => accept limit b = None) rej /\ accept limit b = Some v.
Proof.
  induction blocks as [|b blocks IH]; intros v; cbn [file_mpz_random].
  - split; [discriminate|]. intros (rej & b & rest & E & _). destruct rej; discriminate.
  - destruct (accept limit b) as [w|] eqn:A.
    + split.
      * intros H. injection H as <-. exists [], b, blocks. auto.
      * intros (rej & b' & rest & E & F & Ab). destruct rej as [|y rej]; injection E as -> ->; [congruence|].
        inversion F; subst. congruence.
    + rewrite IH. split.
      * intros (rej & b' & rest & -> & F & Ab). exists (b :: rej), b', rest. split; auto.
      * intros (rej & b' & rest & E & F & Ab). destruct rej as [|y rej]; injection E as -> ->; [congruence|].
        inversion F; subst. exists rej, b', rest. auto.
Qed.
(** At least half of the blocks are accepted. *)
Lemma limit_half : 2 ^ n <= 2 * limit.
Proof.
  unfold n, sizeinbase2. replace (limit =? 0) with false by (symmetry; apply Z.eqb_neq; lia). rewrite Z.abs_eq by lia.
  rewrite Z.pow_add_r, Z.pow_1_r by (try apply Z.log2_nonneg; lia). pose proof (Z.log2_spec limit Hl). lia.
Qed.
End U.
