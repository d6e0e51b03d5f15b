(** Facts about the GMP interface of Base/Gmp.v. *)
From Coq Require Import ZArith List Lia Znumtheory Zpow_facts.
From Verif.Base Require Import Outcome Gmp.
Import ListNotations.
Open Scope Z_scope.

Lemma B_pos : 0 < B. Proof. reflexivity. Qed.
Lemma B_gt1 : 1 < B. Proof. reflexivity. Qed.
Lemma B_even : B = 2 * 9223372036854775808. Proof. reflexivity. Qed.
#[export] Hint Resolve B_pos B_gt1 : core.

Lemma Bpow_0 : Bpow 0 = 1. Proof. reflexivity. Qed.
Lemma Bpow_S : forall t, Bpow (S t) = B * Bpow t.
Proof. intros. unfold Bpow. rewrite Nat2Z.inj_succ, Z.pow_succ_r; lia. Qed.
Lemma Bpow_pos : forall t, 0 < Bpow t.
Proof. intros. unfold Bpow. apply Z.pow_pos_nonneg; [exact B_pos | lia]. Qed.
Lemma Bpow_ge1 : forall t, 1 <= Bpow t.
Proof. intros. pose proof (Bpow_pos t). lia. Qed.
Lemma Bpow_add : forall s t, Bpow (s + t) = Bpow s * Bpow t.
Proof. intros. unfold Bpow. rewrite Nat2Z.inj_add, Z.pow_add_r; lia. Qed.
#[export] Hint Resolve Bpow_pos : core.

#[global] Opaque B.

Lemma limbs_length : forall t x, length (limbs t x) = t.
Proof. induction t; simpl; intros; auto. Qed.

Lemma limbs_range : forall t x, Forall (fun y => 0 <= y < B) (limbs t x).
Proof.
  induction t; simpl; intros; constructor; auto.
  apply Z.mod_pos_bound, B_pos.
Qed.

Lemma limbs_wf : forall t x, wf t (limbs t x).
Proof. split; [apply limbs_length | apply limbs_range]. Qed.
#[export] Hint Resolve limbs_wf : core.

Lemma mod_mul_split : forall x m n, 0 < m -> 0 < n -> x mod (m * n) = x mod m + m * ((x / m) mod n).
Proof. intros. apply Z.rem_mul_r; lia. Qed.

Lemma val_limbs : forall t x, val (limbs t x) = x mod Bpow t.
Proof.
  induction t; simpl; intros.
  - rewrite Bpow_0, Z.mod_1_r. reflexivity.
  - rewrite IHt, Bpow_S, mod_mul_split; auto.
Qed.

Lemma val_limbs_small : forall t x, 0 <= x < Bpow t -> val (limbs t x) = x.
Proof. intros. rewrite val_limbs, Z.mod_small; auto. Qed.

Lemma val_range : forall t l, wf t l -> 0 <= val l < Bpow t.
Proof.
  intros t l [<- H]. induction l as [|x l IH]; simpl length.
  - rewrite Bpow_0. simpl. lia.
  - inversion H; subst. rewrite Bpow_S. simpl.
    pose proof (IH H3). pose proof B_pos. nia.
Qed.

Lemma limbs_val : forall t l, wf t l -> limbs t (val l) = l.
Proof.
  intros t l [<- H]. induction l as [|x l IH]; simpl; auto.
  inversion H; subst.
  rewrite Z.mul_comm, Z.mod_add, Z.div_add, Z.mod_small, Z.div_small by (pose proof B_pos; lia).
  f_equal. simpl. auto.
Qed.

Lemma val_inj : forall t a b, wf t a -> wf t b -> val a = val b -> a = b.
Proof. intros t a b Ha Hb H. rewrite <- (limbs_val t a), <- (limbs_val t b), H; auto. Qed.

Lemma val_app : forall a b, val (a ++ b) = val a + Bpow (length a) * val b.
Proof.
  induction a; intros; simpl app; simpl length; simpl val.
  - rewrite Bpow_0. lia.
  - rewrite IHa, Bpow_S. lia.
Qed.

Lemma wf_app : forall s t a b, wf s a -> wf t b -> wf (s + t) (a ++ b).
Proof.
  intros s t a b [Ha Ha'] [Hb Hb']. split.
  - rewrite app_length. lia.
  - apply Forall_app; auto.
Qed.

Lemma wf_cons : forall t x l, 0 <= x < B -> wf t l -> wf (S t) (x :: l).
Proof. intros t x l Hx [Hl Hl']. split; simpl; auto. Qed.

Lemma wf_cons_inv : forall t x l, wf (S t) (x :: l) -> 0 <= x < B /\ wf t l.
Proof. intros t x l [H1 H2]. inversion H2; subst. simpl in H1. repeat split; auto; lia. Qed.

Lemma wf_S_inv : forall t l, wf (S t) l -> exists x l', l = x :: l' /\ 0 <= x < B /\ wf t l'.
Proof.
  intros t [|x l] H; [destruct H; discriminate|].
  apply wf_cons_inv in H. exists x, l; tauto.
Qed.

Lemma mpn_cmp_spec : forall a b, mpn_cmp a b = Z.sgn (val a - val b).
Proof. reflexivity. Qed.

(** Parity of an array is the parity of its first limb. *)
Lemma B_mod2 : B mod 2 = 0. Proof. reflexivity. Qed.
Lemma Bpow_mod2 : forall t, (0 < t)%nat -> Bpow t mod 2 = 0.
Proof.
  intros [|t] H; [lia|]. rewrite Bpow_S, Z.mul_mod, B_mod2 by lia. reflexivity.
Qed.

Lemma val_odd : forall x l, Z.odd (val (x :: l)) = Z.odd x.
Proof.
  intros. simpl. rewrite Z.odd_add, Z.odd_mul.
  replace (Z.odd B) with false by reflexivity. simpl.
  destruct (Z.odd x); reflexivity.
Qed.

(** mpz_invert *)
Fixpoint egcd (fuel : nat) (r0 r1 s0 s1 : Z) : Z * Z :=
  match fuel with
  | O => (s0, r0)
  | S f => if r1 =? 0 then (s0, r0)
           else egcd f r1 (r0 mod r1) s1 (s0 - (r0 / r1) * s1)
  end.

Lemma mpz_invert_egcd : forall a n,
  mpz_invert a n =
  let '(x, g) := egcd (2 * Z.to_nat (Z.log2_up n) + 2)%nat (a mod n) n 1 0 in
  if g =? 1 then Some (x mod n) else None.
Proof. reflexivity. Qed.

Lemma egcd_spec : forall fuel a n r0 r1 s0 s1 x g,
  0 < n ->
  (r0 - s0 * a) mod n = 0 -> (r1 - s1 * a) mod n = 0 ->
  0 <= r0 -> 0 <= r1 ->
  egcd fuel r0 r1 s0 s1 = (x, g) ->
  (g - x * a) mod n = 0 /\ 0 <= g.
Proof.
  induction fuel; simpl; intros a n r0 r1 s0 s1 x g Hn H0 H1 P0 P1 H.
  - inversion H; subst; auto.
  - destruct (r1 =? 0) eqn:E.
    + inversion H; subst; auto.
    + apply Z.eqb_neq in E.
      eapply IHfuel in H; eauto.
      * replace (r0 mod r1 - (s0 - r0 / r1 * s1) * a)
          with ((r0 - s0 * a) - (r0 / r1) * (r1 - s1 * a))
          by (rewrite (Z.mod_eq r0 r1) by lia; ring).
        rewrite Zminus_mod, H0, Z.mul_mod, H1, Z.mul_0_r by lia.
        rewrite Z.mod_0_l by lia. reflexivity.
      * apply Z.mod_pos_bound. lia.
Qed.

Lemma egcd_gcd : forall fuel r0 r1 s0 s1 x g,
  0 <= r1 <= r0 -> r0 * r1 < 2 ^ Z.of_nat fuel ->
  egcd (S fuel) r0 r1 s0 s1 = (x, g) -> g = Z.gcd r0 r1.
Proof.
  induction fuel; intros r0 r1 s0 s1 x g Hr Hf H.
  - simpl in Hf. assert (r1 = 0) by nia. subst. simpl in H. inversion H; subst.
    rewrite Z.gcd_0_r. lia.
  - change (egcd (S (S fuel)) r0 r1 s0 s1) with
      (if r1 =? 0 then (s0, r0) else egcd (S fuel) r1 (r0 mod r1) s1 (s0 - (r0 / r1) * s1)) in H.
    destruct (r1 =? 0) eqn:E.
    + apply Z.eqb_eq in E. subst. inversion H; subst. rewrite Z.gcd_0_r. lia.
    + apply Z.eqb_neq in E. apply IHfuel in H.
      * rewrite H. rewrite Z.gcd_comm, Z.gcd_mod by lia. apply Z.gcd_comm.
      * pose proof (Z.mod_pos_bound r0 r1). lia.
      * rewrite Nat2Z.inj_succ, Z.pow_succ_r in Hf by lia.
        pose proof (Z.mod_pos_bound r0 r1 ltac:(lia)).
        pose proof (Z.div_mod r0 r1 ltac:(lia)).
        assert (1 <= r0 / r1) by (apply Z.div_le_lower_bound; lia).
        nia.
Qed.

Lemma mpz_invert_some : forall a n x, 1 < n ->
  mpz_invert a n = Some x -> 0 <= x < n /\ (a * x) mod n = 1.
Proof.
  intros a n x Hn. rewrite mpz_invert_egcd.
  destruct (egcd _ _ _ _ _) as [y g] eqn:E.
  destruct (g =? 1) eqn:G; [|discriminate]. intro H; inversion H; subst. clear H.
  apply Z.eqb_eq in G; subst.
  apply (egcd_spec _ a n) in E; try lia.
  - destruct E as [E _]. split; [apply Z.mod_pos_bound; lia|].
    rewrite Zmult_mod_idemp_r.
    replace (a * y) with (1 - (1 - y * a)) by ring.
    rewrite Zminus_mod, E, Z.sub_0_r, Z.mod_mod by lia. apply Z.mod_small; lia.
  - rewrite Z.mul_1_l, Zminus_mod, Z.mod_mod, Z.sub_diag by lia. apply Z.mod_0_l; lia.
  - rewrite Z.mul_0_l, Z.sub_0_r. apply Z.mod_same; lia.
  - apply Z.mod_pos_bound; lia.
Qed.

Lemma mpz_invert_exists : forall a n, 1 < n -> Z.gcd a n = 1 ->
  exists x, mpz_invert a n = Some x.
Proof.
  intros a n Hn Hg. rewrite mpz_invert_egcd.
  destruct (egcd _ _ _ _ _) as [y g] eqn:E.
  assert (g = 1); [|subst; simpl; eauto].
  replace (2 * Z.to_nat (Z.log2_up n) + 2)%nat
    with (S (S (2 * Z.to_nat (Z.log2_up n)))) in E by lia.
  change (egcd (S (S (2 * Z.to_nat (Z.log2_up n)))) (a mod n) n 1 0) with
     (if n =? 0 then (1, a mod n) else
      egcd (S (2 * Z.to_nat (Z.log2_up n))) n ((a mod n) mod n) 0 (1 - (a mod n) / n * 0)) in E.
  destruct (n =? 0) eqn:En; [apply Z.eqb_eq in En; lia|].
  rewrite Z.mod_mod in E by lia.
  apply egcd_gcd in E.
  - rewrite E, Z.gcd_comm, Z.gcd_mod, Z.gcd_comm by lia. exact Hg.
  - pose proof (Z.mod_pos_bound a n). lia.
  - pose proof (Z.mod_pos_bound a n ltac:(lia)).
    pose proof (Z.log2_up_spec n Hn) as [_ Hup].
    replace (Z.of_nat (2 * Z.to_nat (Z.log2_up n))) with (Z.log2_up n + Z.log2_up n)
      by (pose proof (Z.log2_up_nonneg n); lia).
    rewrite Z.pow_add_r by apply Z.log2_up_nonneg. nia.
Qed.

Lemma prime_gcd : forall p a, prime p -> a mod p <> 0 -> Z.gcd a p = 1.
Proof.
  intros p a Hp Ha.
  rewrite Z.gcd_comm. apply Zgcd_1_rel_prime. apply prime_rel_prime; auto.
  intro D. apply Ha. apply Z.mod_divide; auto. pose proof (prime_ge_2 p Hp). lia.
Qed.

Lemma mpz_invert_prime : forall p a, prime p -> a mod p <> 0 ->
  exists x, mpz_invert a p = Some x /\ 0 <= x < p /\ (a * x) mod p = 1.
Proof.
  intros p a Hp Ha. pose proof (prime_ge_2 p Hp).
  destruct (mpz_invert_exists a p ltac:(lia) (prime_gcd p a Hp Ha)) as [x Hx].
  exists x. split; auto. apply mpz_invert_some; auto; lia.
Qed.

Lemma mpz_invert_odd : forall a t, Z.odd a = true -> exists x, mpz_invert a (2 ^ Z.of_nat (S t)) = Some x.
Proof.
  intros a t Ho. apply mpz_invert_exists.
  - apply Z.pow_gt_1; lia.
  - rewrite Z.gcd_comm. apply Zgcd_1_rel_prime. apply rel_prime_sym. apply rel_prime_Zpower_r; [lia|].
    apply rel_prime_sym. apply prime_rel_prime; [apply prime_2|].
    intros [k Hk]. rewrite Hk, Z.odd_mul in Ho. rewrite Bool.andb_comm in Ho. discriminate.
Qed.

(** mpz_powm *)
Lemma powm_pos_spec : forall e a n, 0 < n -> powm_pos a e n = a ^ (Zpos e) mod n.
Proof.
  induction e; intros a n Hn; simpl powm_pos.
  - rewrite IHe by auto. rewrite <- Z.mul_mod, Z.mul_mod_idemp_l by lia.
    f_equal. rewrite <- Z.pow_add_r by lia.
    rewrite <- (Z.pow_1_r a) at 2. rewrite <- Z.pow_add_r by lia. f_equal. lia.
  - rewrite IHe by auto. rewrite <- Z.mul_mod by lia. f_equal.
    rewrite <- Z.pow_add_r by lia. f_equal. lia.
  - rewrite Z.pow_1_r. reflexivity.
Qed.

Lemma mpz_powm_spec : forall a e n, 0 < n -> 0 <= e -> mpz_powm a e n = Some (a ^ e mod n).
Proof.
  intros a [|e|e] n Hn He; simpl mpz_powm.
  - rewrite Z.pow_0_r. reflexivity.
  - rewrite powm_pos_spec; auto.
  - lia.
Qed.

(** Bytes *)
Lemma import_be_acc : forall l z,
  fold_left (fun acc x => 256 * acc + x) l z = z * 256 ^ Z.of_nat (length l) + import_be l.
Proof.
  unfold import_be. induction l as [|x l IH]; intros z.
  - simpl. lia.
  - change (length (x :: l)) with (S (length l)). rewrite Nat2Z.inj_succ, Z.pow_succ_r by lia.
    cbn [fold_left]. rewrite IH, (IH (256 * 0 + x)). ring.
Qed.

Lemma import_be_app : forall a b, import_be (a ++ b) = import_be a * 256 ^ Z.of_nat (length b) + import_be b.
Proof. intros a b. unfold import_be at 1. rewrite fold_left_app, import_be_acc. reflexivity. Qed.

Lemma import_be_cons : forall x l, import_be (x :: l) = x * 256 ^ Z.of_nat (length l) + import_be l.
Proof. intros. change (x :: l) with ([x] ++ l). rewrite import_be_app. reflexivity. Qed.

Lemma import_be_range : forall l, Forall is_byte l -> 0 <= import_be l < 256 ^ Z.of_nat (length l).
Proof.
  induction l as [|x l IH]; intros H.
  - simpl. unfold import_be; simpl; lia.
  - inversion H as [|? ? Hx Hl]; subst. rewrite import_be_cons. simpl length.
    rewrite Nat2Z.inj_succ, Z.pow_succ_r by lia. unfold is_byte in Hx. specialize (IH Hl). nia.
Qed.

Lemma import_be_repeat0 : forall n l, import_be (repeat 0 n ++ l) = import_be l.
Proof. induction n; intros; simpl app; auto. rewrite import_be_cons, IHn. lia. Qed.

Lemma import_be_inj : forall a b, length a = length b -> Forall is_byte a -> Forall is_byte b ->
  import_be a = import_be b -> a = b.
Proof.
  induction a as [|x a IH]; intros [|y b] Hl Ha Hb H; simpl in Hl; try discriminate; auto.
  inversion Ha; inversion Hb; subst. rewrite !import_be_cons in H.
  assert (Hl' : length a = length b) by lia. rewrite Hl' in H.
  pose proof (import_be_range a H3). pose proof (import_be_range b H7). rewrite Hl' in H0.
  unfold is_byte in *.
  assert (x = y) by nia. subst. f_equal. apply IH; auto. lia.
Qed.

Lemma export_be_fuel_spec : forall fuel z acc,
  0 <= z < 2 ^ Z.of_nat fuel -> Forall is_byte acc ->
  Forall is_byte (export_be_fuel fuel z acc) /\
  import_be (export_be_fuel fuel z acc) = z * 256 ^ Z.of_nat (length acc) + import_be acc.
Proof.
  induction fuel; intros z acc Hz Ha; simpl export_be_fuel.
  - simpl in Hz. assert (z = 0) by lia. subst. split; auto.
  - destruct (z =? 0) eqn:E.
    + apply Z.eqb_eq in E; subst. split; auto.
    + apply Z.eqb_neq in E.
      rewrite Nat2Z.inj_succ, Z.pow_succ_r in Hz by lia.
      destruct (IHfuel (z / 256) (z mod 256 :: acc)) as [I1 I2].
      * split; [apply Z.div_pos; lia | apply Z.div_lt_upper_bound; lia].
      * constructor; auto. apply Z.mod_pos_bound; lia.
      * split; auto. rewrite I2, import_be_cons.
        change (length (z mod 256 :: acc)) with (S (length acc)).
        rewrite Nat2Z.inj_succ, Z.pow_succ_r by lia.
        pose proof (Z.div_mod z 256 ltac:(lia)). nia.
Qed.

Lemma sizeinbase2_bound : forall z, 0 <= z -> z < 2 ^ sizeinbase2 z.
Proof.
  intros z Hz. unfold sizeinbase2. destruct (z =? 0) eqn:E.
  - apply Z.eqb_eq in E; subst. reflexivity.
  - apply Z.eqb_neq in E. rewrite Z.abs_eq by auto.
    pose proof (Z.log2_spec z ltac:(lia)). lia.
Qed.

Lemma sizeinbase2_pos : forall z, 1 <= sizeinbase2 z.
Proof.
  intros z. unfold sizeinbase2. destruct (z =? 0); [lia|].
  pose proof (Z.log2_nonneg (Z.abs z)). lia.
Qed.

Lemma sizeinbase2_le : forall z n, 0 <= z -> 1 <= n -> z < 2 ^ n -> sizeinbase2 z <= n.
Proof.
  intros z n Hz Hn H. unfold sizeinbase2. destruct (z =? 0) eqn:E; [lia|].
  apply Z.eqb_neq in E. rewrite Z.abs_eq by auto.
  assert (Z.log2 z < n) by (apply Z.log2_lt_pow2; lia). lia.
Qed.

Lemma export_be_spec : forall z, 0 <= z -> Forall is_byte (export_be z) /\ import_be (export_be z) = z.
Proof.
  intros z Hz. unfold export_be.
  destruct (export_be_fuel_spec (Z.to_nat (sizeinbase2 z)) z []) as [H1 H2].
  - rewrite Z2Nat.id by (pose proof (sizeinbase2_pos z); lia). pose proof (sizeinbase2_bound z Hz). lia.
  - constructor.
  - split; auto. rewrite H2. simpl. change (import_be []) with 0. lia.
Qed.

Lemma export_be_fuel_length : forall fuel z acc n,
  0 <= z < 256 ^ Z.of_nat n -> (length (export_be_fuel fuel z acc) <= n + length acc)%nat.
Proof.
  induction fuel; intros z acc n Hz; simpl; [lia|].
  destruct (z =? 0) eqn:E; [lia|]. apply Z.eqb_neq in E.
  destruct n; [simpl in Hz; lia|].
  rewrite Nat2Z.inj_succ, Z.pow_succ_r in Hz by lia.
  specialize (IHfuel (z / 256) (z mod 256 :: acc) n).
  simpl in IHfuel. assert (0 <= z / 256 < 256 ^ Z.of_nat n)
    by (split; [apply Z.div_pos; lia | apply Z.div_lt_upper_bound; lia]).
  specialize (IHfuel H). lia.
Qed.

Lemma export_be_length : forall z n, 0 <= z < 256 ^ Z.of_nat n -> (length (export_be z) <= n)%nat.
Proof.
  intros. unfold export_be. pose proof (export_be_fuel_length (Z.to_nat (sizeinbase2 z)) z [] n H). simpl in *. lia.
Qed.
