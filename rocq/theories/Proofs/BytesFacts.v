(** Fixed-width byte encodings and hashing to integers. *)
From Coq Require Import ZArith List Bool Lia Arith.
From Verif.Base Require Import Outcome Gmp Array.
From Verif.Model Require Import FieldInt NaiveFp.
From Verif.Spec Require Import PrimeField.
From Verif.Proofs Require Import GmpFacts.
Import ListNotations.
Open Scope Z_scope.

Lemma be_value_fold : forall l acc, be_value l acc = fold_left (fun acc x => 256 * acc + x) l acc.
Proof. induction l; simpl; intros; auto. Qed.

Lemma be_value_import : forall l, be_value l 0 = import_be l.
Proof. intros. apply be_value_fold. Qed.

Lemma be_bytes_length : forall n x, length (be_bytes n x) = n.
Proof. induction n; intros; simpl; auto. rewrite app_length, IHn. simpl. lia. Qed.

Lemma be_bytes_bytes : forall n x, Forall is_byte (be_bytes n x).
Proof.
  induction n; intros; simpl; auto. apply Forall_app; split; auto.
  constructor; auto. apply Z.mod_pos_bound. lia.
Qed.

Lemma be_bytes_value : forall n x, import_be (be_bytes n x) = x mod 256 ^ Z.of_nat n.
Proof.
  induction n; intros; simpl be_bytes.
  - rewrite Z.mod_1_r. reflexivity.
  - rewrite import_be_app, IHn. cbn [length]. change (256 ^ Z.of_nat 1) with 256.
    change (import_be [x mod 256]) with (256 * 0 + x mod 256).
    rewrite Nat2Z.inj_succ, Z.pow_succ_r by lia.
    rewrite mod_mul_split by (try apply Z.pow_pos_nonneg; lia). lia.
Qed.

Lemma byte_length_fixed : forall p, 0 < p -> Z.of_nat (byte_length p) = fixed_length p.
Proof.
  intros p Hp. unfold byte_length, fixed_length, sizeinbase2.
  replace (p =? 0) with false by (symmetry; apply Z.eqb_neq; lia).
  rewrite Z.abs_eq by lia. apply Z2Nat.id. apply Z.div_pos; pose proof (Z.log2_nonneg p); lia.
Qed.

Lemma byte_length_bound : forall p, 0 < p -> p < 256 ^ Z.of_nat (byte_length p).
Proof.
  intros p Hp. rewrite byte_length_fixed by auto. unfold fixed_length.
  eapply Z.lt_le_trans; [apply (sizeinbase2_bound p); lia|].
  change 256 with (2 ^ 8). rewrite <- Z.pow_mul_r by (try apply Z.div_pos; pose proof (sizeinbase2_pos p); lia).
  apply Z.pow_le_mono_r; [lia|].
  pose proof (Z.div_mod (sizeinbase2 p + 7) 8 ltac:(lia)).
  pose proof (Z.mod_pos_bound (sizeinbase2 p + 7) 8 ltac:(lia)). lia.
Qed.

(** Number of bytes written by mpz_export is the size computed from bits. *)
Lemma export_be_exact : forall z, 0 < z -> Z.of_nat (length (export_be z)) = (sizeinbase2 z + 7) / 8.
Proof.
  intros z Hz. destruct (export_be_spec z ltac:(lia)) as [Hb Hi].
  set (n := length (export_be z)).
  set (s := sizeinbase2 z). pose proof (sizeinbase2_pos z) as Sp. fold s in Sp.
  assert (U : z < 256 ^ Z.of_nat n).
  { rewrite <- Hi at 1. apply import_be_range; auto. }
  assert (L : (n <= Z.to_nat ((s + 7) / 8))%nat).
  { apply export_be_length. split; [lia|]. rewrite Z2Nat.id by (apply Z.div_pos; lia).
    eapply Z.lt_le_trans; [apply (sizeinbase2_bound z); lia|]. fold s.
    change 256 with (2 ^ 8). rewrite <- Z.pow_mul_r by (try apply Z.div_pos; lia).
    apply Z.pow_le_mono_r; [lia|].
    pose proof (Z.div_mod (s + 7) 8 ltac:(lia)).
    pose proof (Z.mod_pos_bound (s + 7) 8 ltac:(lia)). lia. }
  assert (G : s <= 8 * Z.of_nat n).
  { unfold s, sizeinbase2. replace (z =? 0) with false by (symmetry; apply Z.eqb_neq; lia).
    rewrite Z.abs_eq by lia.
    assert (Z.log2 z < 8 * Z.of_nat n); [|lia].
    apply Z.log2_lt_pow2; [lia|]. rewrite Z.pow_mul_r by lia. exact U. }
  assert ((s + 7) / 8 <= Z.of_nat n).
  { apply Z.lt_succ_r. apply Z.div_lt_upper_bound; lia. }
  assert (0 <= (s + 7) / 8) by (apply Z.div_pos; lia). lia.
Qed.

Lemma out_raw_spec : forall n z, 0 <= z < 256 ^ Z.of_nat n ->
  pbc_mpz_out_raw_n (Z.of_nat n) z = Ok (be_bytes n z).
Proof.
  intros n z Hz. unfold pbc_mpz_out_raw_n. rewrite Nat2Z.id.
  destruct (z =? 0) eqn:E.
  - apply Z.eqb_eq in E; subst. f_equal. apply import_be_inj.
    + rewrite repeat_length, be_bytes_length. auto.
    + apply Forall_forall. intros x Hx. apply repeat_spec in Hx; subst. unfold is_byte; lia.
    + apply be_bytes_bytes.
    + rewrite be_bytes_value. rewrite <- (app_nil_r (repeat 0 n)), import_be_repeat0.
      rewrite Z.mod_0_l; [reflexivity|]. lia.
  - apply Z.eqb_neq in E. pose proof (export_be_exact z ltac:(lia)) as Ex.
    pose proof (export_be_length z n Hz) as Len.
    replace (Z.of_nat n <? (sizeinbase2 z + 7) / 8) with false by (symmetry; apply Z.ltb_ge; lia).
    rewrite Z.abs_eq by lia. destruct (export_be_spec z ltac:(lia)) as [Hb Hi].
    f_equal. apply import_be_inj.
    + rewrite app_length, repeat_length, be_bytes_length. lia.
    + apply Forall_app; split; auto.
      apply Forall_forall. intros x Hx. apply repeat_spec in Hx; subst. unfold is_byte; lia.
    + apply be_bytes_bytes.
    + rewrite import_be_repeat0, Hi, be_bytes_value, Z.mod_small by lia. reflexivity.
Qed.

Lemma to_bytes_spec : forall p x, 0 <= x < p ->
  pbc_mpz_out_raw_n (fixed_length p) x = Ok (be_bytes (byte_length p) x).
Proof.
  intros p x Hx. rewrite <- byte_length_fixed by lia. apply out_raw_spec.
  pose proof (byte_length_bound p ltac:(lia)). lia.
Qed.

(** Hashing. *)
Lemma map_nth_seq : forall (l : list Z) n, (n <= length l)%nat ->
  map (fun i => nth i l 0) (seq 0 n) = firstn n l.
Proof.
  intros l n Hn. apply nth_ext with (d := 0) (d' := 0).
  - rewrite map_length, seq_length, firstn_length. lia.
  - intros i Hi. rewrite map_length, seq_length in Hi.
    rewrite (nth_indep _ 0 (nth 0 l 0)) by (rewrite map_length, seq_length; lia).
    rewrite (map_nth (fun i => nth i l 0)), seq_nth by lia. simpl.
    clear -Hi. revert l i Hi. induction n; intros l i Hi; [lia|].
    destruct l; simpl; [destruct i; reflexivity|]. destruct i; auto. apply IHn. lia.
Qed.

Lemma hash_stream_block : forall data c i, (i < length data)%nat ->
  hash_stream data (i + c * S (length data)) = nth i data 0.
Proof.
  intros data c i Hi. unfold hash_stream.
  rewrite Nat.mod_add by lia. rewrite Nat.mod_small by lia.
  replace (i <? length data)%nat with true by (symmetry; apply Nat.ltb_lt; lia). reflexivity.
Qed.

Lemma hash_stream_counter : forall data c,
  hash_stream data (length data + c * S (length data)) = Z.of_nat c mod 256.
Proof.
  intros data c. unfold hash_stream.
  rewrite Nat.mod_add by lia. rewrite Nat.mod_small by lia.
  rewrite Nat.ltb_irrefl. rewrite Nat.div_add by lia. rewrite Nat.div_small by lia. reflexivity.
Qed.

Lemma seq_add_map : forall n k, seq k n = map (fun i => (i + k)%nat) (seq 0 n).
Proof.
  induction n; intros; simpl; auto. f_equal. rewrite (IHn (S k)), (IHn 1%nat), map_map.
  apply map_ext. intros; lia.
Qed.

Lemma hash_fill_spec : forall fuel room data c, (room < fuel)%nat ->
  hash_fill fuel room data (Z.of_nat c mod 256) =
  Ok (map (hash_stream data) (seq (c * S (length data)) room)).
Proof.
  induction fuel; intros room data c Hf; [lia|]. cbn [hash_fill].
  set (L := length data).
  assert (Blk : forall n, (n <= L)%nat -> map (hash_stream data) (seq (c * S L) n) = firstn n data).
  { intros n Hn. rewrite <- map_nth_seq by auto. rewrite seq_add_map, map_map.
    apply map_ext_in. intros i Hi. apply in_seq in Hi. apply hash_stream_block. fold L. lia. }
  destruct (room <=? L)%nat eqn:E.
  - apply Nat.leb_le in E. rewrite Blk by auto. reflexivity.
  - apply Nat.leb_gt in E.
    assert (Eroom : room = (L + (1 + (room - L - 1)))%nat) by lia.
    destruct (room - L - 1 =? 0)%nat eqn:E2.
    + apply Nat.eqb_eq in E2. rewrite Eroom, E2, Nat.add_0_r, seq_app, map_app.
      rewrite Blk by auto. rewrite (firstn_all2 data) by (fold L; lia). cbn [seq map].
      rewrite Nat.add_comm. unfold L. rewrite hash_stream_counter. reflexivity.
    + apply Nat.eqb_neq in E2.
      replace ((Z.of_nat c mod 256 + 1) mod 256) with (Z.of_nat (S c) mod 256).
      2:{ rewrite Z.add_mod_idemp_l by lia. f_equal. lia. }
      rewrite IHfuel by lia. cbn [bind].
      rewrite Eroom at 2. rewrite seq_app, map_app, Blk by auto. rewrite (firstn_all2 data) by (fold L; lia).
      cbn [Nat.add seq map]. f_equal. f_equal. f_equal.
      * rewrite Nat.add_comm. unfold L. rewrite hash_stream_counter. reflexivity.
      * f_equal. f_equal. fold L. lia.
Qed.

Lemma shift_down_spec : forall fuel z limit, 0 <= limit -> 0 <= z < 2 ^ Z.of_nat fuel ->
  exists k, shift_down (S fuel) z limit = Ok (z / 2 ^ Z.of_nat k) /\ z / 2 ^ Z.of_nat k <= limit /\
    forall j, (j < k)%nat -> limit < z / 2 ^ Z.of_nat j.
Proof.
  induction fuel; intros z limit Hl Hz.
  - assert (z = 0) by (simpl in Hz; lia). subst. exists O. cbn [shift_down].
    replace (0 >? limit) with false by (symmetry; rewrite Z.gtb_ltb; apply Z.ltb_ge; lia).
    rewrite Z.div_1_r. repeat split; [lia|intros; lia].
  - cbn [shift_down]. destruct (z >? limit) eqn:E.
    + rewrite Z.gtb_ltb in E. apply Z.ltb_lt in E.
      assert (0 <= z / 2 < 2 ^ Z.of_nat fuel).
      { split; [apply Z.div_pos; lia|]. apply Z.div_lt_upper_bound; [lia|].
        rewrite Nat2Z.inj_succ, Z.pow_succ_r in Hz by lia. lia. }
      destruct (IHfuel (z / 2) limit Hl H) as [k [E1 [E2 E3]]].
      assert (D : forall j, z / 2 / 2 ^ Z.of_nat j = z / 2 ^ Z.of_nat (S j)).
      { intros j. rewrite Z.div_div by (try apply Z.pow_pos_nonneg; lia).
        f_equal. rewrite Nat2Z.inj_succ, Z.pow_succ_r by lia. reflexivity. }
      exists (S k). rewrite <- D. cbn [shift_down] in E1. split; [exact E1|]. split; auto.
      intros [|j] Hj; [rewrite Z.div_1_r; auto|]. rewrite <- D. apply E3. lia.
    + rewrite Z.gtb_ltb in E. apply Z.ltb_ge in E. exists O. rewrite Z.div_1_r.
      repeat split; auto. intros; lia.
Qed.

Lemma from_hash_spec : forall limit data, 0 < limit -> Forall is_byte data ->
  exists z, pbc_mpz_from_hash limit data = Ok z /\ hashes_to limit data z /\ 0 <= z <= limit.
Proof.
  intros limit data Hl Hd. unfold pbc_mpz_from_hash.
  pose proof (byte_length_fixed limit Hl) as BL. unfold fixed_length in BL. rewrite <- BL, Nat2Z.id.
  set (n := byte_length limit) in *.
  pose proof (hash_fill_spec (S n) n data 0 ltac:(lia)) as HF. simpl Z.of_nat in HF.
  rewrite Zmod_0_l in HF. rewrite HF. cbn [bind]. simpl (0 * _)%nat.
  set (V := map (hash_stream data) (seq 0 n)).
  assert (HV : Forall is_byte V).
  { apply Forall_forall. intros x Hx. apply in_map_iff in Hx. destruct Hx as [i [<- _]].
    unfold hash_stream. destruct (i mod S (length data) <? length data)%nat eqn:E.
    - apply Nat.ltb_lt in E. apply (proj1 (Forall_forall is_byte data) Hd). apply nth_In; auto.
    - apply Z.mod_pos_bound. lia. }
  pose proof (import_be_range V HV) as R. unfold V in R at 3. rewrite map_length, seq_length in R.
  assert (R2 : 0 <= import_be V < 2 ^ Z.of_nat (8 * n)).
  { split; [lia|]. rewrite Nat2Z.inj_mul, Z.pow_mul_r by lia. exact (proj2 R). }
  destruct (shift_down_spec (8 * n) (import_be V) limit ltac:(lia) R2) as [k [E1 [E2 E3]]].
  rewrite Nat.add_1_r, E1. eexists. split; [reflexivity|]. split.
  - unfold hashes_to. fold n. fold V. rewrite be_value_import. exists k. auto.
  - split; auto. apply Z.div_pos; [lia|]. apply Z.pow_pos_nonneg; lia.
Qed.

Lemma hashes_to_unique : forall limit data z1 z2, hashes_to limit data z1 -> hashes_to limit data z2 -> z1 = z2.
Proof.
  intros limit data z1 z2 [k1 [-> [L1 M1]]] [k2 [-> [L2 M2]]].
  destruct (lt_eq_lt_dec k1 k2) as [[H| ->]|H]; auto.
  - specialize (M2 _ H). lia.
  - specialize (M1 _ H). lia.
Qed.
