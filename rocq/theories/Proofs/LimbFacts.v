(** Limb-level addition, subtraction, doubling, halving modulo p. *)
From Coq Require Import ZArith List Bool Lia.
From Verif.Base Require Import Outcome Gmp Array.
From Verif.Model Require Import FieldInt NaiveFp FastFp FasterFp.
From Verif.Proofs Require Import GmpFacts ArrayFacts.
Import ListNotations.
Open Scope Z_scope.

Record fpdata_ok (f : fpdata) : Prop := {
  fo_p : 1 < order f;
  fo_t : (0 < nlimbs f)%nat;
  fo_lt : order f < Bpow (nlimbs f);
  fo_prime : primelimbs f = limbs (nlimbs f) (order f)
}.

Lemma Bpow_pow2 : forall t, Bpow t = 2 ^ (64 * Z.of_nat t).
Proof. intros. unfold Bpow. rewrite Z.pow_mul_r by lia. reflexivity. Qed.

Lemma mpz_size_ok : forall p, 1 < p -> (0 < mpz_size p)%nat /\ p < Bpow (mpz_size p).
Proof.
  intros p Hp. unfold mpz_size. pose proof (sizeinbase2_pos p).
  pose proof (Z.div_mod (sizeinbase2 p + 63) 64 ltac:(lia)) as D.
  pose proof (Z.mod_pos_bound (sizeinbase2 p + 63) 64 ltac:(lia)).
  split; [lia|].
  rewrite Bpow_pow2, Z2Nat.id by lia.
  eapply Z.lt_le_trans; [apply sizeinbase2_bound; lia|].
  apply Z.pow_le_mono_r; lia.
Qed.

Lemma fpdata_init_ok : forall p, 1 < p -> fpdata_ok (fpdata_init p).
Proof. intros p Hp. destruct (mpz_size_ok p Hp). constructor; simpl; auto. Qed.

Lemma mod_once : forall s p, 0 <= s < 2 * p -> s mod p = if s <? p then s else s - p.
Proof.
  intros s p H. destruct (s <? p) eqn:E.
  - apply Z.ltb_lt in E. apply Z.mod_small; lia.
  - apply Z.ltb_ge in E. symmetry. apply Z.mod_unique with 1; lia.
Qed.

Lemma sgn_ge0 : forall x, (Z.sgn x >=? 0) = (0 <=? x).
Proof. intros [|x|x]; reflexivity. Qed.
Lemma sgn_eq0 : forall x, (Z.sgn x =? 0) = (x =? 0).
Proof. intros [|x|x]; reflexivity. Qed.
Lemma sgn_gt0 : forall x, (Z.sgn x >? 0) = (0 <? x).
Proof. intros [|x|x]; reflexivity. Qed.
Lemma sgn_lt0 : forall x, (Z.sgn x <? 0) = (x <? 0).
Proof. intros [|x|x]; reflexivity. Qed.

Section S.
Variable f : fpdata.
Hypothesis HF : fpdata_ok f.
Notation p := (order f).
Notation t := (nlimbs f).
Notation P := (primelimbs f).

Lemma fP_wf : wf t P.
Proof. rewrite (fo_prime _ HF). apply limbs_wf. Qed.
Lemma fP_val : val P = p.
Proof. rewrite (fo_prime _ HF). apply val_limbs_small. pose proof (fo_lt _ HF). pose proof (fo_p _ HF). lia. Qed.

Lemma limbs_small_spec : forall x, 0 <= x < p -> wf t (limbs t x) /\ val (limbs t x) = x.
Proof. intros. split; auto. apply val_limbs_small. pose proof (fo_lt _ HF). lia. Qed.

Lemma export_small : forall x, 0 <= x < p -> export_limbs t x = Ok (limbs t x).
Proof.
  intros x H. unfold export_limbs. pose proof (fo_lt _ HF).
  replace (0 <=? x) with true by (symmetry; apply Z.leb_le; lia).
  replace (x <? Bpow t) with true by (symmetry; apply Z.ltb_lt; lia). reflexivity.
Qed.

(** carry/limbs of a sum s < 2p *)
Lemma sum_split : forall s, 0 <= s < 2 * p ->
  (s / Bpow t = 0 /\ val (limbs t s) = s) \/ (s / Bpow t = 1 /\ val (limbs t s) = s - Bpow t).
Proof.
  intros s H. pose proof (fo_lt _ HF). pose proof (Bpow_pos t). rewrite val_limbs.
  destruct (Z_lt_dec s (Bpow t)).
  - left. split; [apply Z.div_small | apply Z.mod_small]; lia.
  - right. split; symmetry; [apply Z.div_unique with (s - Bpow t) | apply Z.mod_unique with 1]; lia.
Qed.

Lemma reduce_add_spec : forall s, 0 <= s < 2 * p ->
  let r := limbs t s in
  let c := s / Bpow t in
  let o := if negb (c =? 0) || (mpn_cmp r P >=? 0) then fst (mpn_sub_n r P t) else r in
  wf t o /\ val o = s mod p.
Proof.
  intros s H. cbv zeta. pose proof (fo_lt _ HF). pose proof (fo_p _ HF).
  rewrite mod_once by lia. unfold mpn_cmp, mpn_sub_n. cbn [fst]. rewrite fP_val, sgn_ge0.
  destruct (sum_split s H) as [[-> V]|[-> V]]; rewrite V; simpl.
  - destruct (0 <=? s - p) eqn:E.
    + apply Z.leb_le in E. replace (s <? p) with false by (symmetry; apply Z.ltb_ge; lia).
      split; auto. apply val_limbs_small. lia.
    + apply Z.leb_gt in E. replace (s <? p) with true by (symmetry; apply Z.ltb_lt; lia).
      split; auto.
  - pose proof (limbs_range t s). assert (0 <= val (limbs t s)) by (apply (val_range t); auto).
    replace (s <? p) with false by (symmetry; apply Z.ltb_ge; lia).
    split; auto. rewrite val_limbs. symmetry. apply Z.mod_unique with (-1); lia.
Qed.

Lemma fast_add_spec : forall a b, 0 <= val a < p -> 0 <= val b < p ->
  wf t (fast_add f a b) /\ val (fast_add f a b) = (val a + val b) mod p.
Proof. intros a b Ha Hb. apply (reduce_add_spec (val a + val b)). lia. Qed.

Lemma fast_double_spec : forall a, 0 <= val a < p ->
  wf t (fast_double f a) /\ val (fast_double f a) = (2 * val a) mod p.
Proof. intros a Ha. apply (reduce_add_spec (2 * val a)). lia. Qed.

Lemma fast_sub_spec : forall a b, 0 <= val a < p -> 0 <= val b < p ->
  wf t (fast_sub f a b) /\ val (fast_sub f a b) = (val a - val b) mod p.
Proof.
  intros a b Ha Hb. pose proof (fo_lt _ HF). pose proof (Bpow_pos t).
  unfold fast_sub, mpn_sub_n, mpn_add_n. set (s := val a - val b).
  destruct (Z_le_dec 0 s).
  - replace (s / Bpow t) with 0 by (symmetry; apply Z.div_small; lia).
    simpl. split; auto. rewrite val_limbs_small, Z.mod_small; lia.
  - replace (s / Bpow t) with (-1) by (apply Z.div_unique with (s + Bpow t); lia).
    simpl. split; auto. rewrite fP_val, !val_limbs, Z.add_mod_idemp_l by lia.
    rewrite Z.mod_small by lia. apply Z.mod_unique with (-1); lia.
Qed.

(** p - a for a non-zero *)
Lemma sub_from_p_spec : forall a, 0 < val a < p ->
  wf t (fst (mpn_sub_n P a t)) /\ val (fst (mpn_sub_n P a t)) = p - val a.
Proof.
  intros a Ha. unfold mpn_sub_n. cbn [fst]. rewrite fP_val. split; auto.
  apply val_limbs_small. pose proof (fo_lt _ HF). lia.
Qed.

Lemma neg_mod : forall x, 0 <= x < p -> (- x) mod p = if x =? 0 then 0 else p - x.
Proof.
  intros x H. destruct (x =? 0) eqn:E.
  - apply Z.eqb_eq in E; subst. apply Z.mod_0_l. lia.
  - apply Z.eqb_neq in E. symmetry. apply Z.mod_unique with (-1); lia.
Qed.

Lemma t_S' : exists t', t = S t'.
Proof. pose proof (fo_t _ HF). destruct t; [lia|eauto]. Qed.

Lemma first_limb_odd : forall a, wf t a -> exists a0 l, a = a0 :: l /\ get a 0 = Ok a0 /\ Z.odd a0 = Z.odd (val a).
Proof.
  intros a Ha. destruct t_S' as [t' E]. rewrite E in Ha.
  destruct (wf_S_inv _ _ Ha) as [a0 [l [-> _]]]. exists a0, l.
  repeat split. symmetry. apply val_odd.
Qed.

Lemma is0_spec : forall a, wf t a -> fast_is0 a = (val a =? 0).
Proof.
  intros a [_ Ha]. unfold fast_is0. induction Ha as [|x l Hx Hl IH]; auto.
  cbn [forallb val]. rewrite IH.
  assert (0 <= val l) by (apply (val_range (length l)); split; auto).
  destruct (x =? 0) eqn:E; simpl.
  - apply Z.eqb_eq in E; subst. destruct (val l =? 0) eqn:E2.
    + apply Z.eqb_eq in E2. rewrite E2. reflexivity.
    + apply Z.eqb_neq in E2. symmetry. apply Z.eqb_neq. pose proof B_pos. nia.
  - apply Z.eqb_neq in E. symmetry. apply Z.eqb_neq. pose proof B_pos. nia.
Qed.

Lemma is1_spec : forall a, wf t a -> fast_is1 a = (val a =? 1).
Proof.
  intros a Ha. destruct t_S' as [t' Et]. rewrite Et in Ha.
  destruct (wf_S_inv _ _ Ha) as [x [l [-> [Hx Hl]]]].
  cbn [fast_is1 val]. destruct Hl as [Hlen Hl].
  assert (HH : forallb (fun x => x =? 0) l = (val l =? 0)).
  { clear - Hl. induction Hl as [|x l Hx Hl IH]; auto.
    cbn [forallb val]. rewrite IH.
    assert (0 <= val l) by (apply (val_range (length l)); split; auto).
    destruct (x =? 0) eqn:E; simpl.
    - apply Z.eqb_eq in E; subst. destruct (val l =? 0) eqn:E2.
      + apply Z.eqb_eq in E2. rewrite E2. reflexivity.
      + apply Z.eqb_neq in E2. symmetry. apply Z.eqb_neq. pose proof B_pos. nia.
    - apply Z.eqb_neq in E. symmetry. apply Z.eqb_neq. pose proof B_pos. nia. }
  rewrite HH. assert (0 <= val l) by (apply (val_range (length l)); split; auto).
  pose proof B_gt1.
  destruct (x =? 1) eqn:E; simpl.
  - apply Z.eqb_eq in E; subst. destruct (val l =? 0) eqn:E2.
    + apply Z.eqb_eq in E2. rewrite E2. reflexivity.
    + apply Z.eqb_neq in E2. symmetry. apply Z.eqb_neq. nia.
  - apply Z.eqb_neq in E. symmetry. apply Z.eqb_neq. destruct (Z.eq_dec (val l) 0); nia.
Qed.

(** Top bit set by the carry of the halving. *)
Lemma lor_top : forall x, 0 <= x < 9223372036854775808 ->
  Z.lor x 9223372036854775808 = x + 9223372036854775808.
Proof.
  intros x H. rewrite <- Z.lxor_lor, <- Z.add_nocarry_lxor; auto.
  - apply Z.bits_inj'. intros n Hn. rewrite Z.land_spec, Z.bits_0.
    change 9223372036854775808 with (2 ^ 63). rewrite Z.pow2_bits_eqb by lia.
    destruct (Z.eqb_spec 63 n); [|apply andb_false_r].
    subst n. rewrite andb_true_r. apply Z.testbit_false; [lia|].
    rewrite Z.div_small by (change (2^63) with 9223372036854775808; lia). reflexivity.
  - apply Z.bits_inj'. intros n Hn. rewrite Z.land_spec, Z.bits_0.
    change 9223372036854775808 with (2 ^ 63). rewrite Z.pow2_bits_eqb by lia.
    destruct (Z.eqb_spec 63 n); [|apply andb_false_r].
    subst n. rewrite andb_true_r. apply Z.testbit_false; [lia|].
    rewrite Z.div_small by (change (2^63) with 9223372036854775808; lia). reflexivity.
Qed.

Lemma wf_last' : forall n w, wf (S n) w -> exists w' x, w = w' ++ [x] /\ wf n w' /\ 0 <= x < B.
Proof.
  intros n w [Hl Hr].
  destruct (exists_last (l := w)) as [w' [x E]]; [intro; subst; discriminate|].
  exists w', x. subst. rewrite app_length in Hl. simpl in Hl.
  apply Forall_app in Hr. destruct Hr as [H1 H2]. inversion H2; subst.
  repeat split; auto; lia.
Qed.

Lemma halve_limbs_spec : forall a, wf t a -> 0 <= val a < p -> Z.odd p = true ->
  exists r, halve_limbs f a = Ok r /\ wf t r /\ 0 <= val r < p /\ (2 * val r) mod p = val a.
Proof.
  intros a Ha Hv Hodd. destruct (first_limb_odd a Ha) as [a0 [l [_ [Hg Ho]]]].
  unfold halve_limbs. rewrite Hg. cbn [bind]. rewrite Ho.
  pose proof (fo_lt _ HF) as Hlt. pose proof (fo_p _ HF). pose proof (Bpow_pos t).
  pose proof (Z.div_mod (val a) 2 ltac:(lia)) as D.
  rewrite Zmod_odd in D.
  destruct (Z.odd (val a)) eqn:Eo.
  - unfold mpn_add_n. rewrite fP_val. set (s := val a + p).
    assert (Hs : s = 2 * (s / 2)).
    { pose proof (Z.div_mod s 2 ltac:(lia)) as D2. rewrite Zmod_odd in D2.
      assert (Os : Z.odd s = false) by (unfold s; rewrite Z.odd_add, Eo, Hodd; reflexivity).
      rewrite Os in D2. lia. }
    assert (Hr : 0 <= s / 2 < p) by (unfold s in *; lia).
    assert (Hm : (2 * (s / 2)) mod p = val a).
    { rewrite <- Hs. unfold s. rewrite mod_once by lia.
      replace (val a + p <? p) with false by (symmetry; apply Z.ltb_ge; lia). lia. }
    unfold mpn_rshift1.
    destruct (sum_split s ltac:(unfold s; lia)) as [[-> V]|[-> V]]; rewrite V; cbn [Z.eqb].
    + exists (limbs t (s / 2)). split; auto. split; auto.
      rewrite val_limbs_small by lia. auto.
    + (* carry out: the top bit is put back *)
      destruct t_S' as [t' Et].
      pose proof (limbs_wf t ((s - Bpow t) / 2)) as W.
      set (q := limbs t ((s - Bpow t) / 2)) in *.
      pose proof W as W'. rewrite Et in W'.
      destruct (wf_last' _ _ W') as [lo [x [Eq [Hlo Hx]]]].
      assert (Hq : val q = s / 2 - Bpow t / 2 /\ Bpow t = 2 * (Bpow t / 2)).
      { assert (Eb : Bpow t = 2 * (Bpow t / 2)).
        { pose proof (Z.div_mod (Bpow t) 2 ltac:(lia)) as D3. rewrite Bpow_mod2 in D3 by lia. lia. }
        split; auto. unfold q. rewrite val_limbs_small.
        - rewrite Eb at 1. replace (s - 2 * (Bpow t / 2)) with (s + (- (Bpow t / 2)) * 2) by lia.
          rewrite Z.div_add by lia. lia.
        - assert (0 <= s - Bpow t) by (rewrite <- V; apply (val_range t); auto).
          split; [apply Z.div_pos; lia | apply Z.div_lt_upper_bound; lia]. }
      destruct Hq as [Hq Eb].
      assert (Eb2 : Bpow t / 2 = Bpow t' * 9223372036854775808).
      { rewrite Et, Bpow_S in Eb |- *. rewrite B_even in *.
        replace (2 * 9223372036854775808 * Bpow t') with (Bpow t' * 9223372036854775808 * 2) by ring.
        apply Z.div_mul. lia. }
      assert (Vq : val q = val lo + Bpow t' * x).
      { rewrite Eq, val_app. destruct Hlo as [-> _]. cbn [val]. lia. }
      pose proof (val_range _ _ Hlo) as Rlo. pose proof (Bpow_pos t').
      assert (Hx2 : 0 <= x < 9223372036854775808).
      { split; [lia|]. 
        assert (val q < Bpow t' * 9223372036854775808) by lia. nia. }
      rewrite Eq, Et. replace (S t' - 1)%nat with t' by lia.
      rewrite get_app by (destruct Hlo; auto). cbn [bind].
      rewrite put_app by (destruct Hlo; auto). rewrite lor_top by lia.
      eexists. split; [reflexivity|].
      assert (Vr : val (lo ++ [x + 9223372036854775808]) = s / 2).
      { rewrite val_app. destruct Hlo as [-> _]. cbn [val]. lia. }
      rewrite Vr. split; [|auto].
      replace (S t') with (t' + 1)%nat by lia. apply wf_app; auto.
      split; auto. constructor; auto. rewrite B_even. lia.
  - cbn [Z.eqb]. exists (mpn_rshift1 a t). split; auto. unfold mpn_rshift1. split; auto.
    rewrite val_limbs_small by lia. split; [lia|].
    replace (2 * (val a / 2)) with (val a) by lia. apply Z.mod_small; lia.
Qed.

Lemma fast_mul_spec : forall a b, wf t a -> wf t b ->
  wf t (fast_mul f a b) /\ val (fast_mul f a b) = (val a * val b) mod p.
Proof.
  intros a b Ha Hb. unfold fast_mul, mpn_tdiv_r, mpn_mul_n.
  pose proof (fo_lt _ HF). pose proof (fo_p _ HF).
  pose proof (val_range _ _ Ha). pose proof (val_range _ _ Hb).
  split; auto. rewrite fP_val.
  rewrite (val_limbs_small (2 * t)).
  - apply val_limbs_small. pose proof (Z.mod_pos_bound (val a * val b) p). lia.
  - replace (2 * t)%nat with (t + t)%nat by lia. rewrite Bpow_add. nia.
Qed.

Lemma fast_square_spec : forall a, exists r, fast_square f a = Ok r /\
  wf t r /\ val r = (val a * val a) mod p.
Proof.
  intros a. unfold fast_square. pose proof (fo_p _ HF). pose proof (fo_lt _ HF).
  rewrite mpz_powm_spec by lia. cbn [of_option bind].
  assert (R : 0 <= val a ^ 2 mod p < p) by (apply Z.mod_pos_bound; lia).
  rewrite export_small by auto. eexists; split; [reflexivity|].
  split; auto. rewrite val_limbs_small by lia. f_equal. ring.
Qed.

Lemma fast_set1_spec : exists r, fast_set1 f = Ok r /\ wf t r /\ val r = 1.
Proof.
  unfold fast_set1. destruct t_S' as [t' Et]. rewrite Et.
  eexists; split; [reflexivity|]. split.
  - apply wf_cons; [pose proof B_gt1; lia|]. split; [apply repeat_length|].
    apply Forall_forall. intros x Hx. apply repeat_spec in Hx. subst. pose proof B_pos; lia.
  - cbn [val]. replace (val (repeat 0 t')) with 0; [lia|].
    clear. induction t'; simpl; auto. lia.
Qed.

Lemma val_repeat0 : forall n, val (repeat 0 n) = 0.
Proof. induction n; cbn [repeat val]; lia. Qed.

Lemma wf_repeat0 : forall n, wf n (repeat 0 n).
Proof.
  intros. split; [apply repeat_length|].
  apply Forall_forall. intros x Hx. apply repeat_spec in Hx. subst. pose proof B_pos; lia.
Qed.

Lemma fast_set_si_spec : forall op, - p < op < p -> - B / 2 < op < B / 2 ->
  exists r, fast_set_si f op = Ok r /\ wf t r /\ val r = op mod p.
Proof.
  intros op Hop Hl. unfold fast_set_si. pose proof (fo_p _ HF). pose proof (fo_lt _ HF).
  change (- B / 2) with LONG_MIN in Hl. change (B / 2) with 9223372036854775808 in Hl.
  destruct (op <? 0) eqn:E.
  - apply Z.ltb_lt in E. replace (op =? LONG_MIN) with false by (symmetry; apply Z.eqb_neq; lia).
    eexists; split; [reflexivity|]. unfold mpn_sub_1. cbn [fst]. split; auto.
    rewrite fP_val. rewrite val_limbs_small by lia. apply Z.mod_unique with (-1); lia.
  - apply Z.ltb_ge in E. destruct t_S' as [t' Et]. rewrite Et.
    eexists; split; [reflexivity|]. split.
    + apply wf_cons; [rewrite B_even; lia | apply wf_repeat0].
    + cbn [val]. rewrite val_repeat0, Z.mod_small; lia.
Qed.

Lemma fast_mul_si_limbs : forall a op, wf t a -> LONG_MIN < op < B / 2 ->
  let '(lo, hi) := mpn_mul_1 a t (Z.abs op) in
  let e := mpn_tdiv_r (lo ++ [hi]) (primelimbs f) t in
  wf t e /\ val e = (val a * Z.abs op) mod p.
Proof.
  intros a op Ha Hop. unfold mpn_mul_1, mpn_tdiv_r. split; auto.
  pose proof (fo_p _ HF). pose proof (fo_lt _ HF). rewrite fP_val.
  assert (E : val (limbs t (val a * Z.abs op) ++ [val a * Z.abs op / Bpow t]) = val a * Z.abs op).
  { rewrite val_app, limbs_length, val_limbs. cbn [val]. 
    pose proof (Z.div_mod (val a * Z.abs op) (Bpow t) ltac:(pose proof (Bpow_pos t); lia)). lia. }
  rewrite E. apply val_limbs_small. pose proof (Z.mod_pos_bound (val a * Z.abs op) p). lia.
Qed.
End S.
