(** pbc_mpz_set_str, pbc_trial_divide, pbc_mpz_trickle. *)
From Coq Require Import ZArith Znumtheory List Bool Lia Zquot.
From Verif.Base Require Import Outcome Gmp.
From Verif.Model Require Import IntText.
From Verif.Spec Require Import Numerals.
Import ListNotations.
Open Scope Z_scope.

Lemma isspace_spec : forall c, isspace c = true <-> white c.
Proof. intros c. unfold isspace, white. rewrite orb_true_iff, andb_true_iff, Z.eqb_eq, !Z.leb_le. lia. Qed.

Lemma digit_of_char_spec : forall b c, b <= 36 ->
  (forall d, digit_of_char c = Some d -> d < b -> digit_value b c d) /\
  (forall d, digit_value b c d -> digit_of_char c = Some d).
Proof.
  intros b c Hb. unfold digit_of_char, digit_value, isdigit. split.
  - intros d. destruct ((48 <=? c) && (c <=? 57)) eqn:E1.
    + intros E; injection E as <-. lia.
    + destruct ((65 <=? c) && (c <=? 90)) eqn:E2.
      * intros E; injection E as <-. lia.
      * destruct ((97 <=? c) && (c <=? 122)) eqn:E3; [|discriminate].
        intros E; injection E as <-. lia.
  - intros d [H [[H1 ->]|[[H1 ->]|[H1 ->]]]].
    + replace ((48 <=? c) && (c <=? 57)) with true by lia. reflexivity.
    + replace ((48 <=? c) && (c <=? 57)) with false by lia.
      replace ((65 <=? c) && (c <=? 90)) with true by lia. f_equal. lia.
    + replace ((48 <=? c) && (c <=? 57)) with false by lia.
      replace ((65 <=? c) && (c <=? 90)) with false by lia.
      replace ((97 <=? c) && (c <=? 122)) with true by lia. f_equal. lia.
Qed.

Lemma digit_not_white : forall b c d, digit_value b c d -> isspace c = false /\ c <> 0.
Proof. intros b c d [_ H]. split; [|lia]. destruct (isspace c) eqn:E; auto. apply isspace_spec in E. unfold white in E. lia. Qed.

Lemma set_str_loop_spec : forall b, 2 <= b <= 36 -> forall body ds, scan b body ds ->
  forall c rest z i, stops b c ->
  set_str_loop (body ++ c :: rest) b z i = Ok (fold_left (fun acc d => acc * b + d) ds z, i + Z.of_nat (length body)).
Proof.
  intros b Hb body ds H. induction H as [|x body ds Hw Hs IH|x d body ds Hd Hs IH]; intros c rest z i Hc.
  - cbn. destruct Hc as [Hw Hd]. destruct (c =? 0); [repeat f_equal; lia|].
    destruct (isspace c) eqn:E. { apply isspace_spec in E. tauto. }
    destruct (digit_of_char c) as [j|] eqn:Ej; [|repeat f_equal; lia].
    destruct (j >=? b) eqn:G; [repeat f_equal; lia|].
    exfalso. apply (Hd j). apply (proj1 (digit_of_char_spec b c ltac:(lia))); auto; lia.
  - cbn [app set_str_loop]. replace (x =? 0) with false by (unfold white in Hw; lia).
    replace (isspace x) with true by (symmetry; apply isspace_spec; auto).
    rewrite IH by auto. cbn [length]. do 2 f_equal. lia.
  - cbn [app set_str_loop]. destruct (digit_not_white b x d Hd) as [W N0].
    replace (x =? 0) with false by lia. rewrite W.
    rewrite (proj2 (digit_of_char_spec b x ltac:(lia)) d Hd).
    replace (d >=? b) with false by (destruct Hd; lia). rewrite IH by auto.
    cbn [length fold_left]. do 2 f_equal. lia.
Qed.

Lemma set_str_spec : forall b body ds c rest, 2 <= b <= 36 -> scan b body ds -> stops b c ->
  pbc_mpz_set_str (body ++ c :: rest) b = Ok (horner b ds, Z.of_nat (length body)).
Proof.
  intros b body ds c rest Hb Hs Hc. unfold pbc_mpz_set_str.
  replace (b =? 0) with false by lia. replace ((b <? 2) || (b >? 36)) with false by lia.
  rewrite (set_str_loop_spec b Hb body ds Hs c rest 0 0 Hc). reflexivity.
Qed.

Lemma set_str_default : forall s, pbc_mpz_set_str s 0 = pbc_mpz_set_str s 10.
Proof. reflexivity. Qed.

Lemma nul_stops : forall b, stops b 0.
Proof. intros b. unfold stops, white, digit_value. split; [lia|]. intros d H. lia. Qed.

(** Every NUL-terminated string has such a decomposition. *)
Lemma scan_exists : forall b s, 2 <= b <= 36 -> In 0 s ->
  exists body ds c rest, s = body ++ c :: rest /\ scan b body ds /\ stops b c.
Proof.
  intros b s Hb. induction s as [|x s IH]; intros H0; [destruct H0|].
  destruct (isspace x) eqn:W.
  - apply isspace_spec in W. destruct H0 as [->|H0]; [unfold white in W; lia|].
    destruct (IH H0) as (body & ds & c & rest & -> & Hs & Hc).
    exists (x :: body), ds, c, rest. split; auto. split; auto. apply scan_white; auto.
  - assert (NW : ~ white x) by (rewrite <- isspace_spec, W; discriminate).
    destruct (digit_of_char x) as [d|] eqn:E.
    + destruct (Z_lt_dec d b) as [L|L].
      * assert (D : digit_value b x d) by (apply (proj1 (digit_of_char_spec b x ltac:(lia))); auto; lia).
        destruct H0 as [->|H0]; [destruct D; lia|].
        destruct (IH H0) as (body & ds & c & rest & -> & Hs & Hc).
        exists (x :: body), (d :: ds), c, rest. split; auto. split; auto. apply scan_digit; auto.
      * exists [], [], x, s. split; auto. split; [constructor|]. split; auto.
        intros d' D. pose proof (proj2 (digit_of_char_spec b x ltac:(lia)) d' D) as E'. rewrite E in E'.
        injection E' as ->. destruct D; lia.
    + exists [], [], x, s. split; auto. split; [constructor|]. split; auto.
      intros d' D. pose proof (proj2 (digit_of_char_spec b x ltac:(lia)) d' D) as E'. rewrite E in E'. discriminate.
Qed.

Lemma digit_char_value : forall b d, b <= 36 -> 0 <= d < b -> digit_value b (digit_char d) d.
Proof. intros b d Hb Hd. unfold digit_value, digit_char. destruct (Z.ltb_spec d 10); lia. Qed.

Lemma scan_digits : forall b ds, b <= 36 -> Forall (fun d => 0 <= d < b) ds -> scan b (map digit_char ds) ds.
Proof.
  intros b ds Hb H. induction H; simpl; [apply scan_nil|]. apply scan_digit; auto. apply digit_char_value; auto.
Qed.
Lemma scan_whites : forall b ws body ds, Forall white ws -> scan b body ds -> scan b (ws ++ body) ds.
Proof. intros b ws body ds H Hs. induction H; simpl; auto. apply scan_white; auto. Qed.

Lemma set_str_round_trip : forall b n ws text c rest, 2 <= b <= 36 ->
  is_numeral b n text -> Forall white ws -> stops b c ->
  pbc_mpz_set_str (ws ++ text ++ c :: rest) b = Ok (n, Z.of_nat (length ws + length text)).
Proof.
  intros b n ws text c rest Hb (ds & -> & Hd & _ & _ & <-) Hw Hc.
  rewrite app_assoc, (set_str_spec b (ws ++ map digit_char ds) ds c rest); auto.
  - rewrite app_length. reflexivity.
  - apply scan_whites; auto. apply scan_digits; auto. lia.
Qed.

(** Every non-negative integer has a numeral. *)
Lemma horner_snoc : forall b ds d, horner b (ds ++ [d]) = horner b ds * b + d.
Proof. intros. unfold horner. rewrite fold_left_app. reflexivity. Qed.

Lemma numeral_exists : forall b n, 2 <= b -> 0 <= n -> exists text, is_numeral b n text.
Proof.
  intros b n Hb Hn. generalize Hn. pattern n. apply Z_lt_induction; auto. clear n Hn.
  intros n IH Hn. destruct (Z_lt_dec n b) as [L|L].
  - exists (map digit_char [n]), [n]. repeat split; auto; try discriminate.
    simpl. intros ->. reflexivity.
  - destruct (IH (n / b)) as (text & ds & -> & Hd & Hne & Hz & Hv).
    { split; [apply Z.div_pos; lia|apply Z.div_lt; lia]. }
    { apply Z.div_pos; lia. }
    exists (map digit_char (ds ++ [n mod b])), (ds ++ [n mod b]). repeat split; auto.
    + apply Forall_app. split; auto. constructor; auto. apply Z.mod_pos_bound; lia.
    + destruct ds; discriminate.
    + destruct ds as [|x ds]; [congruence|]. simpl. simpl in Hz. intros E. specialize (Hz E).
      rewrite Hz in Hv. unfold horner in Hv. simpl in Hv.
      assert (1 <= n / b) by (apply Z.div_le_lower_bound; lia). lia.
    + rewrite horner_snoc, Hv. pose proof (Z.div_mod n b ltac:(lia)). lia.
Qed.

(** pbc_mpz_trickle *)
Lemma trickle_loop_spec : forall base, 2 <= base <= 10 -> forall fuel len z,
  0 <= len -> 0 <= z < base ^ (len + 1) -> (Z.to_nat len < fuel)%nat ->
  exists ds z' len', trickle_loop fuel base z (base ^ len) len = Ok (map (fun d => 48 + d) ds, z', len') /\
    0 <= len' <= len /\ 0 <= z' < base /\ Forall (fun d => 0 <= d < base) ds /\
    Z.of_nat (length ds) = len - len' /\
    forall a, fold_left (fun acc d => acc * base + d) ds a * base ^ (len' + 1) + z' = a * base ^ (len + 1) + z /\
    (ds = [] -> z < base) /\ (ds <> [] -> hd 0 ds = z / base ^ len).
Proof.
  intros base Hb. induction fuel as [|fuel IH]; intros len z Hl Hz Hf; [lia|].
  cbn [trickle_loop]. destruct (Z.geb_spec z base) as [G|G].
  - assert (P : 0 < base ^ len) by (apply Z.pow_pos_nonneg; lia).
    replace (base ^ len =? 0) with false by lia.
    assert (L1 : 1 <= len). { destruct (Z.eq_dec len 0) as [->|]; [|lia]. rewrite Z.add_0_l, Z.pow_1_r in Hz. lia. }
    assert (D : base ^ len / base = base ^ (len - 1)).
    { replace len with (len - 1 + 1) at 1 by lia. rewrite Z.pow_add_r, Z.pow_1_r by lia. apply Z.div_mul. lia. }
    rewrite D. destruct (IH (len - 1) (z mod base ^ len)) as (ds & z' & len' & E & H1 & H2 & H3 & H4 & H5); try lia.
    { replace (len - 1 + 1) with len by lia. apply Z.mod_pos_bound; lia. }
    rewrite E. cbn [bind]. exists (z / base ^ len :: ds), z', len'. split; [reflexivity|].
    split; [lia|]. split; auto. split.
    { constructor; auto. split; [apply Z.div_pos; lia|]. apply Z.div_lt_upper_bound; [lia|].
      rewrite Z.pow_add_r, Z.pow_1_r in Hz by lia. lia. }
    split; [cbn [length]; lia|]. intros a. split; [|split].
    + cbn [fold_left]. destruct (H5 (a * base + z / base ^ len)) as [H6 _]. rewrite H6.
      replace (len - 1 + 1) with len by lia. rewrite Z.pow_add_r, Z.pow_1_r by lia.
      pose proof (Z.div_mod z (base ^ len) ltac:(lia)). nia.
    + discriminate.
    + reflexivity.
  - exists [], z, len. split; [reflexivity|]. split; [lia|]. split; [lia|]. split; [constructor|]. split; [simpl; lia|].
    intros a. split; [reflexivity|]. split; [auto|intros X; exfalso; apply X; reflexivity].
Qed.

Lemma horner_zeros : forall b n acc, fold_left (fun acc d => acc * b + d) (repeat 0 n) acc = acc * b ^ Z.of_nat n.
Proof.
  intros b n. induction n; intros acc.
  - simpl. lia.
  - cbn [repeat fold_left]. rewrite IHn. rewrite Nat2Z.inj_succ, Z.pow_succ_r by lia. ring.
Qed.


Lemma trickle_spec : forall base z size, 2 <= base <= 10 -> 0 <= z -> 1 <= size -> z < base ^ size ->
  exists ds, pbc_mpz_trickle base z size = Ok (map (fun d => 48 + d) ds) /\
    Forall (fun d => 0 <= d < base) ds /\ horner base ds = z /\ Z.of_nat (length ds) = size /\
    (base ^ (size - 1) <= z -> 0 < z -> hd 0 ds <> 0).
Proof.
  intros base z size Hb Hz Hs Hlt. unfold pbc_mpz_trickle.
  replace (base ^ size >? z) with true by lia.
  assert (D : base ^ size / base = base ^ (size - 1)).
  { replace size with (size - 1 + 1) at 1 by lia. rewrite Z.pow_add_r, Z.pow_1_r by lia. apply Z.div_mul. lia. }
  rewrite D.
  destruct (trickle_loop_spec base Hb (S (Z.to_nat size)) (size - 1) z) as (ds & z' & len' & E & H1 & H2 & H3 & H4 & H5); try lia.
  { replace (size - 1 + 1) with size by lia. lia. }
  rewrite E. cbn [bind]. replace (len' <? 0) with false by lia.
  exists (ds ++ repeat 0 (Z.to_nat len') ++ [z']). split; [|split; [|split; [|split]]].
  - rewrite !map_app. replace (map (fun d => 48 + d) (repeat 0 (Z.to_nat len'))) with (repeat 48 (Z.to_nat len')); [reflexivity|].
    clear. generalize (Z.to_nat len'). intros n. induction n; simpl; [reflexivity|]. rewrite IHn. reflexivity.
  - apply Forall_app. split; auto. apply Forall_app. split; [|repeat constructor; lia].
    apply Forall_forall. intros x Hx. apply repeat_spec in Hx. lia.
  - unfold horner. rewrite !fold_left_app. rewrite horner_zeros. cbn [fold_left].
    destruct (H5 0) as [H6 _]. rewrite Z2Nat.id by lia. rewrite Z.pow_add_r, Z.pow_1_r in H6 by lia. lia.
  - rewrite !app_length, repeat_length. cbn [length]. lia.
  - intros Hge Hp. destruct (H5 0) as [_ [H6 H7]]. destruct ds as [|d ds].
    + simpl in H4. assert (size - 1 = 0). 
      { specialize (H6 eq_refl). destruct (Z.eq_dec (size - 1) 0); auto.
        assert (base ^ 1 <= base ^ (size - 1)) by (apply Z.pow_le_mono_r; lia). rewrite Z.pow_1_r in *. lia. }
      replace (Z.to_nat len') with 0%nat by lia. simpl.
      simpl in E. destruct (Z.geb_spec z base). { specialize (H6 eq_refl). lia. }
      injection E as <- <-. lia.
    + simpl. simpl in H7. rewrite H7 by discriminate.
      assert (1 <= z / base ^ (size - 1)). { apply Z.div_le_lower_bound; [apply Z.pow_pos_nonneg; lia|lia]. } lia.
Qed.

Lemma trickle_numeral : forall base z size, 2 <= base <= 10 -> 0 <= z -> digits_count base z size ->
  exists text, pbc_mpz_trickle base z size = Ok text /\ is_numeral base z text.
Proof.
  intros base z size Hb Hz [H1 [H2 H3]].
  destruct (trickle_spec base z size Hb Hz H1 H2) as (ds & E & Hd & Hv & Hl & Hh).
  eexists. split; [exact E|]. exists ds. split; [|split; [auto|split; [|split]]]; auto.
  - apply map_ext_in. intros d Hin. rewrite Forall_forall in Hd. specialize (Hd d Hin).
    unfold digit_char. destruct (Z.ltb_spec d 10); lia.
  - intros ->. simpl in Hl. lia.
  - intros H0. destruct (Z.eq_dec z 0) as [->|N].
    + destruct (Z.eq_dec size 1) as [->|].
      * destruct ds as [|d [|]]; simpl in Hl; try lia. simpl in H0. subst. reflexivity.
      * assert (0 < base ^ (size - 1)) by (apply Z.pow_pos_nonneg; lia). lia.
    + exfalso. assert (X : base ^ (size - 1) <= z). { destruct H3 as [H3| ->]; auto. simpl. lia. }
      apply (Hh X); auto. lia.
Qed.

(** pbc_trial_divide *)
Lemma divide_out_spec : forall fuel m p mul, 2 <= p -> 1 <= m -> (p | m) -> 0 <= mul -> (Z.to_nat m <= fuel)%nat ->
  exists m' k, divide_out fuel m p mul = Ok (m', mul + k) /\ 1 <= k /\ m = p ^ k * m' /\ 1 <= m' /\ ~ (p | m').
Proof.
  induction fuel as [|fuel IH]; intros m p mul Hp Hm [c Hc] Hk Hf; [lia|].
  cbn [divide_out]. assert (E : m / p = c) by (rewrite Hc; apply Z.div_mul; lia).
  rewrite E. assert (1 <= c) by nia.
  destruct (Z.eqb_spec (c mod p) 0) as [D|D].
  - assert (c < m) by nia.
    destruct (IH c p (mul + 1)) as (m' & k & -> & K1 & K2 & K3 & K4); auto; try lia.
    { apply Z.mod_divide; lia. }
    exists m', (k + 1). split; [f_equal; f_equal; lia|]. split; [lia|]. split; auto.
    rewrite Z.pow_add_r, Z.pow_1_r by lia. rewrite Hc, K2 at 1. ring.
  - exists c, 1. split; auto. split; [lia|]. rewrite Z.pow_1_r. split; [lia|]. split; auto.
    intros X. apply D. apply Z.mod_divide; auto. lia.
Qed.

Section Trial.
Variables (isprime : Z -> bool) (nextprime : Z -> Z).
Hypothesis Hip : forall m, 1 <= m -> isprime m = true <-> prime m.
Hypothesis Hnp : forall p, prime p -> p < nextprime p /\ prime (nextprime p) /\ forall q, prime q -> p < q -> nextprime p <= q.

Definition factor_ok (limit : option Z) (fk : Z * Z) : Prop :=
  2 <= fst fk /\ 1 <= snd fk /\
  (prime (fst fk) \/ exists l, limit = Some l /\ forall q, prime q -> (q | fst fk) -> l < q).

Lemma trial_one : forall fuel p limit, (1 <= fuel)%nat -> trial_loop isprime nextprime fuel 1 p limit = Ok [].
Proof. intros [|f] p limit H; [lia|]. reflexivity. Qed.

Lemma prime_factor_exists : forall n, 2 <= n -> exists q, prime q /\ (q | n).
Proof.
  intros n Hn. assert (0 <= n) by lia. revert Hn. pattern n. apply Z_lt_induction; auto. clear n H.
  intros n IH Hn. destruct (prime_dec n) as [P|P].
  - exists n. split; auto. apply Z.divide_refl.
  - destruct (not_prime_divide n ltac:(lia) P) as [d [Hd D]].
    destruct (IH d ltac:(lia) ltac:(lia)) as [q [Q1 Q2]]. exists q. split; auto. eapply Z.divide_trans; eauto.
Qed.

Lemma self_case : forall fuel m limit (p' : Z), 2 <= m -> (1 <= fuel)%nat ->
  factor_ok limit (m, 1) ->
  exists fs, (r <- divide_out (Z.to_nat m) m m 0 ;;
       rest <- trial_loop isprime nextprime fuel (fst r) p' limit ;; Ok ((m, snd r) :: rest)) = Ok fs /\
     product fs = m /\ Forall (factor_ok limit) fs.
Proof.
  intros fuel m limit p' Hm Hf Hk.
  destruct (divide_out_spec (Z.to_nat m) m m 0) as (m' & k & -> & K1 & K2 & K3 & K4); try lia.
  { apply Z.divide_refl. }
  assert (X : k = 1 /\ m' = 1).
  { destruct (Z.eq_dec k 1) as [->|]. { rewrite Z.pow_1_r in K2. split; auto. nia. }
    exfalso. replace k with (1 + (k - 1)) in K2 by lia. rewrite Z.pow_add_r, Z.pow_1_r in K2 by lia.
    assert (2 <= m ^ (k - 1)).
    { apply Z.le_trans with (m ^ 1); [rewrite Z.pow_1_r; lia|]. apply Z.pow_le_mono_r; lia. }
    set (X := m ^ (k - 1)) in *. clearbody X.
    assert (m * 2 * 1 <= m * X * m') by (apply Z.mul_le_mono_nonneg; try lia; apply Z.mul_le_mono_nonneg_l; lia). lia. }
  destruct X as [-> ->]. cbn [bind fst snd]. rewrite trial_one by auto. cbn [bind].
  eexists. split; [reflexivity|]. split. { cbn [product]. change (0 + 1) with 1. rewrite Z.pow_1_r. lia. }
  constructor; auto.
Qed.

Lemma trial_spec : forall fuel m p limit, 1 <= m -> prime p -> (forall q, prime q -> (q | m) -> p <= q) ->
  (Z.to_nat (m + 2 - p) <= fuel)%nat -> (1 <= fuel)%nat ->
  exists fs, trial_loop isprime nextprime fuel m p limit = Ok fs /\ product fs = m /\ Forall (factor_ok limit) fs.
Proof.
  induction fuel as [|fuel IH]; intros m p limit Hm Hp Hq Hf Hf1; [lia|].
  cbn [trial_loop]. destruct (Z.eqb_spec m 1) as [->|N1]. { exists []. repeat split; auto. }
  assert (M2 : 2 <= m) by lia.
  destruct (prime_factor_exists m M2) as [q0 [P0 D0]].
  assert (PM : p <= m). { apply Z.le_trans with q0; [auto|]. apply Z.divide_pos_le; auto. lia. }
  pose proof (prime_ge_2 p Hp) as P2.
  assert (Fu : (1 <= fuel)%nat) by lia.
  destruct (isprime m) eqn:EP.
  - assert (PR : prime m) by (apply Hip; auto; lia).
    replace (match limit with Some l => if m >? l then m else m | None => m end) with m by (destruct limit as [l|]; auto; destruct (m >? l); auto).
    rewrite Z.mod_same by lia. cbn [Z.eqb]. apply self_case; auto.
    split; [|split]; simpl; auto; try lia.
  - set (p1 := match limit with Some l => if p >? l then m else p | None => p end).
    assert (C : p1 = p \/ (p1 = m /\ exists l, limit = Some l /\ l < p)).
    { unfold p1. destruct limit as [l|]; auto. destruct (Z.gtb_spec p l); auto. right. split; auto. exists l. auto. }
    destruct C as [C|[C [l [Hl1 Hl2]]]]; rewrite C.
    + destruct (Z.eqb_spec (m mod p) 0) as [D|D].
      * apply Z.mod_divide in D; [|lia].
        destruct (divide_out_spec (Z.to_nat m) m p 0) as (m' & k & -> & K1 & K2 & K3 & K4); auto; try lia.
        cbn [bind fst snd]. destruct (Hnp p Hp) as [N2 [N3 N4]].
        assert (m' < m). { assert (p ^ 1 <= p ^ k) by (apply Z.pow_le_mono_r; lia). rewrite Z.pow_1_r in *. nia. }
        destruct (IH m' (nextprime p) limit) as (fs & -> & F1 & F2); auto; try lia.
        { intros q Q1 Q2. apply N4; auto. assert (p <= q). { apply Hq; auto. rewrite K2. apply Z.divide_mul_r. auto. }
          destruct (Z.eq_dec p q) as [->|]; [tauto|lia]. }
        cbn [bind]. eexists. split; [reflexivity|]. split.
        { cbn [product]. rewrite F1, Z.add_0_l. auto. }
        constructor; auto. split; [|split]; simpl; auto; lia.
      * destruct (Hnp p Hp) as [N2 [N3 N4]].
        assert (p < m). { destruct (Z.eq_dec p m) as [->|]; [|lia]. rewrite Z.mod_same in D; lia. }
        apply IH; auto; try lia.
        intros q Q1 Q2. apply N4; auto. assert (p <= q) by auto.
        destruct (Z.eq_dec p q) as [->|]; [|lia]. exfalso. apply D. apply Z.mod_divide; auto. lia.
    + rewrite Z.mod_same by lia. cbn [Z.eqb]. apply self_case; auto.
      split; [|split]; simpl; try lia. right. exists l. split; auto.
      intros q Q1 Q2. specialize (Hq q Q1 Q2). lia.
Qed.

Lemma trial_divide_spec : forall n limit, 1 <= n ->
  exists fs, pbc_trial_divide isprime nextprime (Z.to_nat n) n limit = Ok fs /\ product fs = n /\ Forall (factor_ok limit) fs.
Proof.
  intros n limit Hn. apply trial_spec; auto; try lia.
  - apply prime_2.
  - intros q Q _. apply prime_ge_2; auto.
Qed.
End Trial.
