(** Modular arithmetic facts used by the back-end proofs. *)
From Coq Require Import ZArith Znumtheory Lia Bool.
Open Scope Z_scope.

Lemma cong_eq : forall p x y k, 0 <= x < p -> 0 <= y < p -> x = y + k * p -> x = y.
Proof. intros p x y k Hx Hy E. assert (k = 0) by nia. subst. lia. Qed.

Lemma mod_eq_cong : forall p x y, 0 < p -> x mod p = y mod p -> exists k, x = y + k * p.
Proof.
  intros p x y Hp E. exists (x / p - y / p).
  pose proof (Z.div_mod x p ltac:(lia)). pose proof (Z.div_mod y p ltac:(lia)). lia.
Qed.

Lemma cong_mod_eq : forall p x y k, x = y + k * p -> x mod p = y mod p.
Proof.
  intros p x y k ->. destruct (Z.eq_dec p 0).
  - subst. rewrite Z.mul_0_r, Z.add_0_r. reflexivity.
  - apply Z.mod_add; auto.
Qed.

Lemma mod_rep : forall p x, 0 < p -> exists k, x mod p = x + k * p.
Proof. intros p x Hp. exists (- (x / p)). pose proof (Z.div_mod x p ltac:(lia)). lia. Qed.

(** cancellation of a factor prime to the modulus *)
Lemma cancel_coprime : forall p m x y k, 0 < p -> Z.gcd m p = 1 -> 0 <= x < p -> 0 <= y < p ->
  x * m = y * m + k * p -> x = y.
Proof.
  intros p m x y k Hp Hg Hx Hy E.
  assert (D : (p | m * (x - y))) by (exists k; lia).
  apply Gauss in D.
  - destruct D as [q Hq]. apply cong_eq with p q; lia.
  - apply Zgcd_1_rel_prime. rewrite Z.gcd_comm. auto.
Qed.

Lemma cancel_mod : forall p m x y, 0 < p -> Z.gcd m p = 1 -> 0 <= x < p -> 0 <= y < p ->
  (x * m) mod p = (y * m) mod p -> x = y.
Proof.
  intros p m x y Hp Hg Hx Hy E. destruct (mod_eq_cong p _ _ Hp E) as [k Hk].
  eapply cancel_coprime; eauto.
Qed.

Lemma prime_gcd_small : forall p x, prime p -> 0 < x < p -> Z.gcd x p = 1.
Proof.
  intros p x Hp Hx. apply Zgcd_1_rel_prime. apply rel_prime_le_prime; auto. lia.
Qed.

Lemma prime_mul_nonzero : forall p x y, prime p -> 0 < x < p -> 0 < y < p -> 0 < (x * y) mod p.
Proof.
  intros p x y Hp Hx Hy.
  pose proof (Z.mod_pos_bound (x * y) p ltac:(lia)).
  destruct (Z.eq_dec ((x * y) mod p) 0) as [E|E]; [|lia].
  apply Z.mod_divide in E; [|lia]. apply prime_mult in E; auto.
  destruct E as [D|D]; apply Z.divide_pos_le in D; lia.
Qed.

Lemma prime_pow_nonzero : forall p x n, prime p -> 0 < x < p -> 0 <= n -> 0 < x ^ n mod p.
Proof.
  intros p x n Hp Hx Hn. pattern n. apply natlike_ind; auto; clear n Hn.
  - rewrite Z.mod_small; lia.
  - intros n Hn IH. rewrite Z.pow_succ_r by auto.
    rewrite <- Z.mul_mod_idemp_r by lia. apply prime_mul_nonzero; auto.
    pose proof (Z.mod_pos_bound (x ^ n) p). lia.
Qed.

Lemma pow_mod : forall p x n, 0 < p -> 0 <= n -> (x mod p) ^ n mod p = x ^ n mod p.
Proof.
  intros p x n Hp Hn. pattern n. apply natlike_ind; auto; clear n Hn.
  intros n Hn IH. rewrite !Z.pow_succ_r by auto.
  rewrite <- Z.mul_mod_idemp_r, IH, Z.mul_mod_idemp_r, Z.mul_mod_idemp_l by lia. reflexivity.
Qed.

Lemma odd_gcd2 : forall p, Z.odd p = true -> Z.gcd 2 p = 1.
Proof.
  intros p H. apply Zgcd_1_rel_prime. apply prime_rel_prime; [apply prime_2|].
  intros [k Hk]. subst. rewrite Z.odd_mul in H. simpl in H. rewrite andb_false_r in H. discriminate.
Qed.
