(** Generic exponentiation computes powers. *)
From Coq Require Import ZArith List Bool Lia.
From Verif.Base Require Import Outcome Gmp Array Algebra.
From Verif.Model Require Import GenericPow.
From Verif.Proofs Require Import GmpFacts.
Import ListNotations.
Open Scope Z_scope.

Section Pow.
Variable G : monoid.
Hypothesis L : monoid_laws G.
Notation mul := (mmul G).
Notation one := (mone G).

Lemma npow_add : forall (x : G) i j, npow x (i + j) = mul (npow x i) (npow x j).
Proof.
  intros x i j. induction i; simpl.
  - symmetry. apply L.
  - rewrite IHi. apply L.
Qed.
Lemma npow_1 : forall x : G, npow x 1 = x. Proof. intros; simpl; apply L. Qed.
Lemma npow_mul : forall (x : G) i j, npow x (i * j) = npow (npow x i) j.
Proof.
  intros x i j. rewrite Nat.mul_comm. induction j; simpl; auto. rewrite npow_add, IHj. reflexivity.
Qed.
Lemma npow_one : forall n, npow one n = one.
Proof. induction n; simpl; auto. rewrite IHn. apply L. Qed.

Lemma zpow_0 : forall x : G, zpow x 0 = one. Proof. reflexivity. Qed.
Lemma zpow_1 : forall x : G, zpow x 1 = x. Proof. intros. apply npow_1. Qed.
Lemma zpow_add : forall (x : G) i j, 0 <= i -> 0 <= j -> zpow x (i + j) = mul (zpow x i) (zpow x j).
Proof. intros. unfold zpow. rewrite Z2Nat.inj_add by auto. apply npow_add. Qed.
Lemma zpow_double : forall (x : G) i, 0 <= i -> zpow x (2 * i) = mul (zpow x i) (zpow x i).
Proof. intros. replace (2 * i) with (i + i) by lia. apply zpow_add; auto. Qed.
Lemma zpow_mul : forall (x : G) i j, 0 <= i -> 0 <= j -> zpow x (i * j) = zpow (zpow x i) j.
Proof. intros. unfold zpow. rewrite Z2Nat.inj_mul by auto. apply npow_mul. Qed.
Lemma zpow_one : forall n, zpow one n = one. Proof. intros. apply npow_one. Qed.
Lemma zpow_succ_r : forall (x : G) i, 0 <= i -> zpow x (i + 1) = mul (zpow x i) x.
Proof. intros. rewrite zpow_add, zpow_1 by lia. reflexivity. Qed.
Lemma zpow_comm : forall (x : G) i j, 0 <= i -> 0 <= j -> mul (zpow x i) (zpow x j) = mul (zpow x j) (zpow x i).
Proof. intros. rewrite <- !zpow_add by auto. f_equal. lia. Qed.

(** Reading bits from the top. *)
Lemma shift_bit : forall n s, 0 <= s ->
  n / 2 ^ s = 2 * (n / 2 ^ (s + 1)) + Z.b2z (Z.testbit n s).
Proof.
  intros n s Hs. rewrite Z.pow_add_r, Z.pow_1_r by lia. rewrite <- Z.div_div by (try apply Z.pow_nonzero; lia).
  rewrite <- Z.shiftr_div_pow2 by auto. pose proof (Z.shiftr_spec n s 0 ltac:(lia)) as T. rewrite Z.add_0_l in T.
  rewrite <- T.
  pose proof (Z.div_mod (Z.shiftr n s) 2 ltac:(lia)). rewrite Z.bit0_odd.
  rewrite Zmod_odd in H. destruct (Z.odd (Z.shiftr n s)); simpl Z.b2z; lia.
Qed.

Lemma sizeinbase2_top : forall n, 0 <= n -> n / 2 ^ sizeinbase2 n = 0.
Proof.
  intros n Hn. apply Z.div_small. split; auto. destruct (Z.eq_dec n 0); [subst; reflexivity|].
  apply sizeinbase2_bound. lia.
Qed.

Lemma top_ge : forall n s, 0 <= n -> sizeinbase2 n <= s -> n / 2 ^ s = 0.
Proof.
  intros n s Hn Hs. apply Z.div_small. split; auto. destruct (Z.eq_dec n 0).
  - subst. apply Z.pow_pos_nonneg; try lia. pose proof (sizeinbase2_pos 0). lia.
  - eapply Z.lt_le_trans; [apply sizeinbase2_bound; lia|]. apply Z.pow_le_mono_r; lia.
Qed.

(** build_pow_window *)
Lemma window_entries_spec : forall m (a : G) j i, 0 <= j ->
  (i < m)%nat -> nth_error (window_entries G m (zpow a j) a) i = Some (zpow a (j + 1 + Z.of_nat i)).
Proof.
  induction m; intros a j i Hj Hi; [lia|]. cbn [window_entries].
  rewrite <- zpow_succ_r by auto. destruct i; simpl nth_error.
  - f_equal. f_equal. lia.
  - rewrite IHm by lia. f_equal. f_equal. lia.
Qed.

Lemma build_pow_window_spec : forall (a : G) k w, 0 <= k -> 0 <= w < 2 ^ k ->
  get (build_pow_window G a k) (Z.to_nat w) = Ok (zpow a w).
Proof.
  intros a k w Hk Hw. unfold get, build_pow_window. destruct (Z.eq_dec w 0); [subst; reflexivity|].
  destruct (Z.to_nat w) as [|i] eqn:E; [lia|]. cbn [nth_error].
  change one with (zpow a 0) at 1. rewrite window_entries_spec by lia. f_equal. f_equal. lia.
Qed.

Lemma div_mul2 : forall m w, 0 <= w -> 2 * (m * 2 ^ w) = m * 2 ^ (w + 1).
Proof. intros. rewrite Z.pow_add_r by lia. lia. Qed.

Lemma pow_wind_loop_spec : forall (a : G) n k, 0 <= n -> 1 <= k ->
  forall (s : nat) (inword : bool) (word wbits : Z) (result : G),
  (if inword then exists m, 0 <= m /\ n / 2 ^ Z.of_nat s = m * 2 ^ wbits + word /\
       0 <= word < 2 ^ wbits /\ 1 <= wbits < k /\ result = zpow a (m * 2 ^ wbits) /\ (0 < s)%nat
   else result = zpow a (n / 2 ^ Z.of_nat s)) ->
  pow_wind_loop G n k (build_pow_window G a k) s inword word wbits result = Ok (zpow a n).
Proof.
  intros a n k Hn Hk. induction s as [|s IH]; intros inword word wbits result HI.
  - destruct inword.
    + destruct HI as [m [_ [_ [_ [_ [_ H]]]]]]. lia.
    + cbn [pow_wind_loop]. rewrite HI. simpl Z.of_nat. rewrite Z.pow_0_r, Z.div_1_r. reflexivity.
  - cbn [pow_wind_loop]. unfold mpz_tstbit.
    pose proof (shift_bit n (Z.of_nat s) ltac:(lia)) as SB.
    replace (Z.of_nat s + 1) with (Z.of_nat (S s)) in SB by lia.
    assert (NN : 0 <= n / 2 ^ Z.of_nat (S s)) by (apply Z.div_pos; auto; apply Z.pow_pos_nonneg; lia).
    destruct inword; cbn [negb andb].
    + destruct HI as [m [Hm [E [Hw [Hb [-> _]]]]]].
      set (bit := Z.testbit n (Z.of_nat s)) in *.
      assert (B01 : 0 <= Z.b2z bit <= 1) by (destruct bit; simpl; lia).
      assert (PW : 2 ^ (wbits + 1) = 2 * 2 ^ wbits) by (rewrite Z.pow_add_r by lia; lia).
      assert (P2 : 2 ^ (wbits + 1) <= 2 ^ k) by (apply Z.pow_le_mono_r; lia).
      assert (M0 : 0 <= m * 2 ^ wbits) by (apply Z.mul_nonneg_nonneg; auto; apply Z.pow_nonneg; lia).
      assert (E2 : n / 2 ^ Z.of_nat s = m * 2 ^ (wbits + 1) + (2 * word + Z.b2z bit)) by (rewrite PW; lia).
      rewrite <- zpow_double by auto. rewrite div_mul2 by lia.
      destruct ((wbits + 1 =? k) || Nat.eqb s 0) eqn:C.
      * rewrite build_pow_window_spec by lia. cbn [bind]. apply IH.
        rewrite <- zpow_add by lia. f_equal. lia.
      * apply orb_false_iff in C. destruct C as [C1 C2]. apply Z.eqb_neq in C1. apply Nat.eqb_neq in C2.
        apply IH. exists m. repeat split; auto; lia.
    + rewrite HI. rewrite <- zpow_double by auto.
      destruct (Z.testbit n (Z.of_nat s)) eqn:TB; cbn [negb].
      * simpl Z.b2z in SB. destruct ((1 =? k) || Nat.eqb s 0) eqn:C.
        -- rewrite build_pow_window_spec; [|lia|split; [lia|]].
           ++ cbn [bind]. apply IH. rewrite <- zpow_add by lia. f_equal. lia.
           ++ replace 1 with (2 ^ 0) by reflexivity. apply Z.pow_lt_mono_r; lia.
        -- apply orb_false_iff in C. destruct C as [C1 C2]. apply Z.eqb_neq in C1. apply Nat.eqb_neq in C2.
           apply IH. exists (n / 2 ^ Z.of_nat (S s)). rewrite Z.pow_1_r. repeat split; auto; try lia.
           f_equal. lia.
      * apply IH. rewrite SB. simpl Z.b2z. f_equal. lia.
Qed.

Lemma optimal_window_ge : forall n, 2 <= optimal_pow_window_size n.
Proof.
  intros n. unfold optimal_pow_window_size. cbv zeta.
  repeat match goal with |- context [if ?b then _ else _] => destruct b end; lia.
Qed.

Lemma pow_wind_spec : forall (a : G) n k, 0 <= n -> 1 <= k ->
  element_pow_wind G n k (build_pow_window G a k) = Ok (zpow a n).
Proof.
  intros a n k Hn Hk. unfold element_pow_wind. destruct (n =? 0) eqn:E.
  - apply Z.eqb_eq in E. subst. reflexivity.
  - apply pow_wind_loop_spec; auto. rewrite Z2Nat.id.
    + rewrite sizeinbase2_top by auto. reflexivity.
    + pose proof (sizeinbase2_pos n). lia.
Qed.

Lemma generic_pow_spec : forall (a : G) n, 0 <= n -> generic_pow_mpz G a n = Ok (zpow a n).
Proof.
  intros a n Hn. unfold generic_pow_mpz. destruct (n =? 0) eqn:E.
  - apply Z.eqb_eq in E. subst. reflexivity.
  - cbv zeta. pose proof (optimal_window_ge n). apply pow_wind_spec; lia.
Qed.

(** Commutative structures. *)
Section Comm.
Hypothesis C : m_commutative G.

Lemma mul4 : forall a b c d : G, mul (mul a b) (mul c d) = mul (mul a c) (mul b d).
Proof.
  intros. rewrite (m_assoc G L (mul a b)), <- (m_assoc G L a b c), (C b c), (m_assoc G L a c b).
  symmetry. apply L.
Qed.

Lemma zpow_mul_base : forall (x y : G) n, zpow (mul x y) n = mul (zpow x n) (zpow y n).
Proof.
  intros x y n. unfold zpow. induction (Z.to_nat n); simpl.
  - symmetry. apply L.
  - rewrite IHn0. apply mul4.
Qed.

Definition bitpow (a : G) (b : bool) : G := if b then a else one.
Lemma bitpow_step : forall (a : G) n s, 0 <= n ->
  zpow a (n / 2 ^ Z.of_nat s) =
  mul (mul (zpow a (n / 2 ^ Z.of_nat (S s))) (zpow a (n / 2 ^ Z.of_nat (S s)))) (bitpow a (Z.testbit n (Z.of_nat s))).
Proof.
  intros a n s Hn. pose proof (shift_bit n (Z.of_nat s) ltac:(lia)) as SB.
  replace (Z.of_nat s + 1) with (Z.of_nat (S s)) in SB by lia.
  assert (NN : 0 <= n / 2 ^ Z.of_nat (S s)) by (apply Z.div_pos; auto; apply Z.pow_pos_nonneg; lia).
  rewrite SB. rewrite <- zpow_double by auto. destruct (Z.testbit n (Z.of_nat s)); simpl Z.b2z; unfold bitpow.
  - apply zpow_succ_r. lia.
  - rewrite Z.add_0_r. symmetry. apply L.
Qed.

Lemma pow2_loop_spec : forall a1 n1 a2 n2, 0 <= n1 -> 0 <= n2 -> forall s,
  pow2_loop G s a1 n1 a2 n2 (mul a1 a2) (mul (zpow a1 (n1 / 2 ^ Z.of_nat s)) (zpow a2 (n2 / 2 ^ Z.of_nat s))) =
  mul (zpow a1 n1) (zpow a2 n2).
Proof.
  intros a1 n1 a2 n2 H1 H2. induction s as [|s IH].
  - cbn [pow2_loop]. simpl Z.of_nat. rewrite Z.pow_0_r, !Z.div_1_r. reflexivity.
  - cbn [pow2_loop]. rewrite <- IH. f_equal. unfold mpz_tstbit.
    rewrite (bitpow_step a1 n1 s H1), (bitpow_step a2 n2 s H2).
    set (x := zpow a1 _). set (y := zpow a2 _). rewrite (mul4 x y x y).
    destruct (Z.testbit n1 (Z.of_nat s)), (Z.testbit n2 (Z.of_nat s)); cbn [andb bitpow].
    + apply mul4.
    + rewrite (m_1_r G L (mul y y)).
      rewrite <- (m_assoc G L (mul x x)), (C (mul y y) a1). apply (m_assoc G L).
    + rewrite (m_1_r G L (mul x x)). symmetry. apply (m_assoc G L).
    + rewrite (m_1_r G L (mul x x)), (m_1_r G L (mul y y)). reflexivity.
Qed.

Lemma pow2_spec : forall a1 n1 a2 n2, 0 <= n1 -> 0 <= n2 ->
  element_pow2_mpz G a1 n1 a2 n2 = mul (zpow a1 n1) (zpow a2 n2).
Proof.
  intros a1 n1 a2 n2 H1 H2. unfold element_pow2_mpz.
  destruct ((n1 =? 0) && (n2 =? 0)) eqn:E.
  - apply andb_true_iff in E. destruct E as [E1 E2]. apply Z.eqb_eq in E1, E2. subst. symmetry. apply L.
  - cbv zeta. rewrite <- (pow2_loop_spec a1 n1 a2 n2 H1 H2 (Z.to_nat (if sizeinbase2 n1 >? sizeinbase2 n2 then sizeinbase2 n1 else sizeinbase2 n2))).
    f_equal. pose proof (sizeinbase2_pos n1). pose proof (sizeinbase2_pos n2).
    rewrite Z2Nat.id by (destruct (sizeinbase2 n1 >? sizeinbase2 n2); lia).
    rewrite !top_ge; auto; try (destruct (Z.gtb_spec (sizeinbase2 n1) (sizeinbase2 n2)); lia).
    symmetry. apply L.
Qed.

Lemma mul6 : forall x y z a b c : G,
  mul (mul (mul x y) z) (mul (mul a b) c) = mul (mul (mul x a) (mul y b)) (mul z c).
Proof. intros. rewrite mul4. f_equal. apply mul4. Qed.

Lemma pow3_loop_spec : forall a1 n1 a2 n2 a3 n3, 0 <= n1 -> 0 <= n2 -> 0 <= n3 -> forall s,
  pow3_loop G s n1 n2 n3 [one; a1; a2; mul a1 a2; a3; mul a1 a3; mul a2 a3; mul (mul a2 a3) a1]
    (mul (mul (zpow a1 (n1 / 2 ^ Z.of_nat s)) (zpow a2 (n2 / 2 ^ Z.of_nat s))) (zpow a3 (n3 / 2 ^ Z.of_nat s))) =
  Ok (mul (mul (zpow a1 n1) (zpow a2 n2)) (zpow a3 n3)).
Proof.
  intros a1 n1 a2 n2 a3 n3 H1 H2 H3. induction s as [|s IH].
  - cbn [pow3_loop]. simpl Z.of_nat. rewrite Z.pow_0_r, !Z.div_1_r. reflexivity.
  - cbn [pow3_loop]. unfold mpz_tstbit. cbv zeta.
    assert (E : forall b1 b2 b3 : bool,
      get [one; a1; a2; mul a1 a2; a3; mul a1 a3; mul a2 a3; mul (mul a2 a3) a1]
        (Z.to_nat (Z.b2z b1 + 2 * Z.b2z b2 + 4 * Z.b2z b3)) =
      Ok (mul (mul (bitpow a1 b1) (bitpow a2 b2)) (bitpow a3 b3))).
    { pose proof (m_1_l G L) as E1. pose proof (m_1_r G L) as E2.
      intros [] [] []; cbn [bitpow]; unfold get; simpl nth_error; rewrite ?E1, ?E2; auto.
      f_equal. rewrite (C _ a1). f_equal. apply (m_assoc G L). }
    rewrite E. cbn [bind]. rewrite <- IH. f_equal.
    rewrite (bitpow_step a1 n1 s H1), (bitpow_step a2 n2 s H2), (bitpow_step a3 n3 s H3).
    set (x := zpow a1 _). set (y := zpow a2 _). set (z := zpow a3 _).
    rewrite (mul6 x y z x y z). apply mul6.
Qed.

Lemma pow3_spec : forall a1 n1 a2 n2 a3 n3, 0 <= n1 -> 0 <= n2 -> 0 <= n3 ->
  element_pow3_mpz G a1 n1 a2 n2 a3 n3 = Ok (mul (mul (zpow a1 n1) (zpow a2 n2)) (zpow a3 n3)).
Proof.
  intros a1 n1 a2 n2 a3 n3 H1 H2 H3. unfold element_pow3_mpz.
  destruct ((n1 =? 0) && (n2 =? 0) && (n3 =? 0)) eqn:E.
  - rewrite !andb_true_iff in E. destruct E as [[E1 E2] E3]. apply Z.eqb_eq in E1, E2, E3. subst.
    rewrite !zpow_0, !(m_1_l G L). reflexivity.
  - cbv zeta. set (s := if sizeinbase2 n1 >? sizeinbase2 n2 then _ else _).
    rewrite <- (pow3_loop_spec a1 n1 a2 n2 a3 n3 H1 H2 H3 (Z.to_nat s)). f_equal.
    pose proof (sizeinbase2_pos n1). pose proof (sizeinbase2_pos n2). pose proof (sizeinbase2_pos n3).
    assert (sizeinbase2 n1 <= s /\ sizeinbase2 n2 <= s /\ sizeinbase2 n3 <= s).
    { unfold s. destruct (Z.gtb_spec (sizeinbase2 n1) (sizeinbase2 n2)), (Z.gtb_spec (sizeinbase2 n1) (sizeinbase2 n3)), (Z.gtb_spec (sizeinbase2 n2) (sizeinbase2 n3)); lia. }
    rewrite Z2Nat.id by lia. rewrite !top_ge by lia. rewrite !zpow_0, !(m_1_l G L). reflexivity.
Qed.
End Comm.

(** Base tables. *)
Lemma base_row_spec : forall m (a : G) j i, 0 <= j -> (i < m)%nat ->
  nth_error (base_row G m (zpow a j) a) i = Some (zpow a (j + 1 + Z.of_nat i)).
Proof.
  induction m; intros a j i Hj Hi; [lia|]. cbn [base_row].
  assert (E : mul a (zpow a j) = zpow a (j + 1)).
  { rewrite Z.add_comm, zpow_add, zpow_1 by lia. reflexivity. }
  rewrite E. destruct i; simpl nth_error.
  - f_equal. f_equal. lia.
  - rewrite IHm by lia. f_equal. f_equal. lia.
Qed.
Lemma base_row_length : forall m (p a : G), length (base_row G m p a) = m.
Proof. induction m; intros; simpl; auto. Qed.

Definition row_of (size : nat) (a : G) : list G := one :: base_row G (size - 1) one a.
Lemma row_of_spec : forall size (a : G) i, (i < size)%nat -> nth_error (row_of size a) i = Some (zpow a (Z.of_nat i)).
Proof.
  intros size a [|i] H; [reflexivity|]. unfold row_of. cbn [nth_error]. change one with (zpow a 0).
  rewrite base_row_spec by lia. f_equal. f_equal. lia.
Qed.
Lemma row_of_last : forall size (a : G), (0 < size)%nat -> last (row_of size a) one = zpow a (Z.of_nat size - 1).
Proof.
  intros size a H. assert (LL : length (row_of size a) = size) by (unfold row_of; simpl; rewrite base_row_length; lia).
  assert (X : nth_error (row_of size a) (size - 1) = Some (last (row_of size a) one)).
  { rewrite (app_removelast_last one (l := row_of size a)) at 1 by (unfold row_of; discriminate).
    assert (length (removelast (row_of size a)) = (size - 1)%nat) by (rewrite removelast_firstn_len, firstn_length, LL; lia).
    rewrite nth_error_app2 by lia. rewrite H0, Nat.sub_diag. reflexivity. }
  rewrite row_of_spec in X by lia. assert (Y : zpow a (Z.of_nat (size - 1)) = last (row_of size a) one) by congruence.
  rewrite <- Y. f_equal. lia.
Qed.

Lemma base_table_spec : forall rows size (a : G) i, (0 < size)%nat -> (i < rows)%nat ->
  nth_error (base_table G rows size a) i = Some (row_of size (zpow a (Z.of_nat size ^ Z.of_nat i))).
Proof.
  induction rows; intros size a i Hs Hi; [lia|]. cbn [base_table]. fold (row_of size a).
  rewrite row_of_last by auto.
  assert (E : mul a (zpow a (Z.of_nat size - 1)) = zpow a (Z.of_nat size)).
  { rewrite <- (zpow_1 a) at 1. rewrite <- zpow_add by lia. f_equal. lia. }
  rewrite E. destruct i; cbn [nth_error].
  - simpl Z.of_nat. rewrite Z.pow_0_r, zpow_1. reflexivity.
  - rewrite IHrows by lia. f_equal. f_equal. rewrite <- zpow_mul by (try apply Z.pow_nonneg; lia).
    f_equal. rewrite <- Z.pow_succ_r by lia. f_equal. lia.
Qed.

Lemma table_word_spec : forall s n base, 0 <= n -> 0 <= base ->
  table_word s n base = (n / 2 ^ base) mod 2 ^ Z.of_nat s.
Proof.
  induction s; intros n base Hn Hb.
  - simpl. rewrite Z.mod_1_r. reflexivity.
  - cbn [table_word]. rewrite IHs by auto. unfold mpz_tstbit.
    rewrite <- Z.shiftr_div_pow2 by auto. rewrite <- !Z.land_ones by lia.
    apply Z.bits_inj'. intros i Hi. rewrite Z.lor_spec, !Z.land_spec.
    rewrite !Z.testbit_ones_nonneg by lia. rewrite Z.shiftl_spec by auto.
    rewrite Nat2Z.inj_succ.
    destruct (Z.ltb_spec i (Z.of_nat s)).
    + replace (i <? Z.succ (Z.of_nat s)) with true by (symmetry; apply Z.ltb_lt; lia).
      rewrite (Z.testbit_neg_r (Z.b2z _)) by lia. rewrite orb_false_r. reflexivity.
    + rewrite andb_false_r, orb_false_l. destruct (Z.eq_dec i (Z.of_nat s)).
      * subst i. rewrite Z.sub_diag. rewrite Z.b2z_bit0.
        replace (Z.of_nat s <? Z.succ (Z.of_nat s)) with true by (symmetry; apply Z.ltb_lt; lia).
        rewrite andb_true_r, Z.shiftr_spec by lia. f_equal. lia.
      * replace (i <? Z.succ (Z.of_nat s)) with false by (symmetry; apply Z.ltb_ge; lia). rewrite andb_false_r.
        destruct (Z.testbit n (base + Z.of_nat s)); simpl Z.b2z.
        -- destruct (i - Z.of_nat s) eqn:Q; try lia. destruct p; reflexivity || (simpl; lia).
        -- apply Z.bits_0.
Qed.

Lemma base_table_loop_spec : forall (a : G) n rows, 0 <= n ->
  forall m row result, (row + m <= rows)%nat ->
  result = zpow a (n mod 2 ^ (pp_k * Z.of_nat row)) ->
  base_table_loop G m row n (base_table G rows (Z.to_nat (2 ^ pp_k)) a) result =
  Ok (zpow a (n mod 2 ^ (pp_k * Z.of_nat (row + m)))).
Proof.
  intros a n rows Hn. induction m as [|m IH]; intros row result Hr HI.
  - cbn [base_table_loop]. rewrite Nat.add_0_r, HI. reflexivity.
  - cbn [base_table_loop]. rewrite table_word_spec by (unfold pp_k; lia).
    set (w := _ mod _). replace (row + S m)%nat with (S row + m)%nat by lia.
    assert (Hw : 0 <= w < 2 ^ pp_k) by (apply Z.mod_pos_bound; reflexivity).
    assert (P0 : 0 < 2 ^ (pp_k * Z.of_nat row)) by (apply Z.pow_pos_nonneg; unfold pp_k; lia).
    assert (D : n mod 2 ^ (pp_k * Z.of_nat (S row)) = n mod 2 ^ (pp_k * Z.of_nat row) + 2 ^ (pp_k * Z.of_nat row) * w).
    { replace (pp_k * Z.of_nat (S row)) with (pp_k * Z.of_nat row + pp_k) by lia.
      rewrite Z.pow_add_r by (unfold pp_k; lia). unfold w. 
      rewrite Z.rem_mul_r; auto; try lia. }
    pose proof (Z.mod_pos_bound n (2 ^ (pp_k * Z.of_nat row)) P0) as MB.
    destruct (w >? 0) eqn:W.
    + unfold get at 1. rewrite base_table_spec by (unfold pp_k; simpl; lia). cbn [bind].
      unfold get. rewrite row_of_spec by (apply Z2Nat.inj_lt; lia). cbn [bind].
      rewrite !Z2Nat.id by (unfold pp_k; lia). apply IH; [lia|].
      rewrite HI, D. rewrite zpow_add by (try apply Z.mul_nonneg_nonneg; lia). f_equal.
      rewrite <- Z.pow_mul_r by (unfold pp_k; lia).
      rewrite zpow_mul by (try apply Z.pow_nonneg; lia). reflexivity.
    + apply IH; [lia|]. rewrite HI, D.
      assert (w = 0) by (destruct (Z.gtb_spec w 0); [discriminate|lia]).
      rewrite H. f_equal. lia.
Qed.

Lemma sizeinbase2_mono : forall a b, 0 <= a <= b -> sizeinbase2 a <= sizeinbase2 b.
Proof.
  intros a b H. unfold sizeinbase2. destruct (Z.eqb_spec a 0), (Z.eqb_spec b 0); try lia.
  - pose proof (Z.log2_nonneg (Z.abs b)). lia.
  - rewrite !Z.abs_eq by lia. pose proof (Z.log2_le_mono a b ltac:(lia)). lia.
Qed.

Lemma pp_pow_spec : forall (a : G) n order, 0 <= n -> 0 < order ->
  (order < n -> zpow a order = one) ->
  element_pp_pow G n order (element_pp_init G a order) = Ok (zpow a n).
Proof.
  intros a n order Hn Ho HP. unfold element_pp_pow, element_pp_init. destruct (n =? 0) eqn:E.
  - apply Z.eqb_eq in E. subst. reflexivity.
  - assert (X : exists m, (if n >? order then (if order =? 0 then UB else Ok (n mod order)) else Ok n) = Ok m /\
               0 <= m <= order /\ zpow a m = zpow a n).
    { destruct (Z.gtb_spec n order).
      - replace (order =? 0) with false by (symmetry; apply Z.eqb_neq; lia).
        exists (n mod order). split; auto. pose proof (Z.mod_pos_bound n order Ho). split; [lia|].
        rewrite (Z.div_mod n order) at 2 by lia.
        assert (0 <= n / order) by (apply Z.div_pos; lia).
        rewrite zpow_add by (try apply Z.mul_nonneg_nonneg; lia).
        rewrite zpow_mul, HP, zpow_one by lia. symmetry. apply L.
      - exists n. repeat split; auto; lia. }
    destruct X as [m [-> [Hm <-]]]. cbn [bind].
    pose proof (sizeinbase2_mono m order ltac:(lia)) as MM.
    pose proof (sizeinbase2_pos m). pose proof (sizeinbase2_pos order).
    assert (DL : sizeinbase2 m / pp_k <= sizeinbase2 order / pp_k) by (apply Z.div_le_mono; unfold pp_k; lia).
    assert (D0 : 0 <= sizeinbase2 m / pp_k) by (apply Z.div_pos; unfold pp_k; lia).
    rewrite base_table_loop_spec; try lia.
    + simpl Nat.add. f_equal. f_equal. rewrite Z2Nat.id by lia. apply Z.mod_small. split; [lia|].
      assert (sizeinbase2 m <= pp_k * (sizeinbase2 m / pp_k + 1)).
      { pose proof (Z.div_mod (sizeinbase2 m) pp_k ltac:(unfold pp_k; lia)).
        pose proof (Z.mod_pos_bound (sizeinbase2 m) pp_k ltac:(unfold pp_k; lia)). lia. }
      destruct (Z.eq_dec m 0) as [->|].
      * apply Z.pow_pos_nonneg; lia.
      * eapply Z.lt_le_trans; [apply sizeinbase2_bound; lia|]. apply Z.pow_le_mono_r; lia.
    + simpl. rewrite Z.mod_1_r. reflexivity.
Qed.
End Pow.
