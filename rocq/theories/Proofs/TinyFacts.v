(** tinyfp.c against arithmetic modulo p. *)
From Coq Require Import ZArith Znumtheory List Bool Lia.
From Verif.Base Require Import Outcome Gmp.
From Verif.Model Require Import FieldInt NaiveFp FpMachine TinyFp.
From Verif.Spec Require Import PrimeField.
From Verif.Proofs Require Import GmpFacts BytesFacts ModFacts FpBackends.
Import ListNotations.
Open Scope Z_scope.

Lemma ul_small : forall x, 0 <= x < 2 ^ 64 -> ul x = x. Proof. intros. apply Z.mod_small. auto. Qed.
Section W.
Variable p : Z.
Hypothesis Hp : 1 < p < 2 ^ 64.
Lemma t_add : forall a b, 0 <= a < p -> 0 <= b < p -> tiny_add p a b = (a + b) mod p.
Proof.
  intros a b Ha Hb. unfold tiny_add. destruct (Z.lt_ge_cases (a + b) (2 ^ 64)) as [L | L].
  - rewrite ul_small by lia. destruct (Z.ltb_spec (a + b) a); [lia | reflexivity].
  - assert (E : ul (a + b) = a + b - 2 ^ 64) by (unfold ul; symmetry; apply Z.mod_unique with 1; lia). rewrite E.
    destruct (Z.ltb_spec (a + b - 2 ^ 64) a); [ | lia].
    assert (E2 : ul (a + b - 2 ^ 64 - p) = a + b - p) by (unfold ul; symmetry; apply Z.mod_unique with (-1); lia).
    rewrite E2. replace (a + b - p) with (a + b + (-1) * p) by ring. apply Z.mod_add. lia.
Qed.
Lemma t_double : forall a, 0 <= a < p -> tiny_double p false a = (2 * a) mod p.
Proof. intros a Ha. replace (2 * a) with (a + a) by ring. rewrite <- t_add by auto. unfold tiny_double, tiny_add. replace (2 * a) with (a + a) by ring. reflexivity. Qed.
Lemma t_double_in_place : forall a, p <= 2 ^ 63 -> 0 <= a < p -> tiny_double p true a = (2 * a) mod p.
Proof. intros a P Ha. unfold tiny_double. rewrite ul_small by lia. rewrite Z.ltb_irrefl. reflexivity. Qed.
Lemma t_sub : forall a b, 0 <= a < p -> 0 <= b < p -> tiny_sub p a b = (a - b) mod p.
Proof.
  intros a b Ha Hb. unfold tiny_sub. destruct (Z.leb_spec b a); [symmetry; apply Z.mod_small; lia | ].
  rewrite (ul_small (p - b)) by lia. rewrite ul_small by lia. apply Z.mod_unique with (-1); lia.
Qed.
Lemma t_neg : forall a, 0 <= a < p -> tiny_neg p a = (- a) mod p.
Proof.
  intros a Ha. unfold tiny_neg. destruct (Z.eqb_spec a 0) as [-> | N]; [symmetry; apply Z.mod_0_l; lia | ].
  rewrite ul_small by lia. apply Z.mod_unique with (-1); lia.
Qed.
Lemma t_set_si : forall n, - 2 ^ 63 < n < 2 ^ 63 -> (n < 0 -> n mod p <> 0) -> tiny_set_si p n = Ok (n mod p).
Proof.
  intros n Hn Hz. unfold tiny_set_si. destruct (Z.ltb_spec n 0) as [L | L]; [ | reflexivity].
  destruct (Z.eqb_spec n (- 2 ^ 63)); [lia | ]. f_equal. pose proof (Z.mod_pos_bound (- n) p ltac:(lia)) as B.
  rewrite Z.mod_opp_l_nz in * by (lia || auto). rewrite ul_small; lia.
Qed.
Lemma t_set_si_multiple : forall k, 0 < k -> k * p < 2 ^ 63 -> tiny_set_si p (- (k * p)) = Ok p.
Proof.
  intros k Hk Hb. assert (0 < k * p) by nia. unfold tiny_set_si. destruct (Z.ltb_spec (- (k * p)) 0); [ | lia]. destruct (Z.eqb_spec (- (k * p)) (- 2 ^ 63)); [lia | ].
  rewrite Z.opp_involutive, Z.mod_mul by lia. rewrite Z.sub_0_r, ul_small by lia. reflexivity.
Qed.
Lemma t_length : exists n, tiny_length p = Ok n /\ n = byte_length p.
Proof.
  assert (A : forall fuel n, (1 <= n)%nat -> (n + fuel = 10)%nat -> (1 <= fuel)%nat -> (n <= 8)%nat -> 256 ^ Z.of_nat (n - 1) <= p -> exists n', tiny_length_loop p fuel n (256 ^ Z.of_nat n - 1) = Ok n' /\ 256 ^ Z.of_nat (n' - 1) <= p < 256 ^ Z.of_nat n' /\ (1 <= n')%nat).
  { induction fuel; intros n N1 E F N8 L; [lia | ]. cbn [tiny_length_loop]. destruct (Z.ltb_spec (256 ^ Z.of_nat n - 1) p) as [Q | Q].
    - assert (N7 : (n <= 7)%nat). { destruct (Nat.eq_dec n 8) as [-> | ]; [ | lia]. exfalso. change (256 ^ Z.of_nat 8) with (2 ^ 64) in Q. lia. }
      assert (B : 256 ^ Z.of_nat n <= 256 ^ 7) by (apply Z.pow_le_mono_r; lia). change (256 ^ 7) with (2 ^ 56) in B.
      assert (P0 : 0 < 256 ^ Z.of_nat n) by (apply Z.pow_pos_nonneg; lia).
      rewrite (ul_small ((256 ^ Z.of_nat n - 1) * 256)) by lia. rewrite ul_small by lia.
      replace ((256 ^ Z.of_nat n - 1) * 256 + 255) with (256 ^ Z.of_nat (S n) - 1) by (rewrite Nat2Z.inj_succ, Z.pow_succ_r by lia; ring).
      apply IHfuel; try lia. replace (S n - 1)%nat with n by lia. lia.
    - exists n. split; [reflexivity | split; lia]. }
  destruct (A 9%nat 1%nat) as (n & E & B & N1); try lia; [cbn; lia | ]. exists n. split; [exact E | ].
  unfold byte_length. apply Nat2Z.inj. rewrite Z2Nat.id by (apply Z.div_pos; pose proof (Z.log2_nonneg p); lia).
  assert (L1 : Z.log2 p < 8 * Z.of_nat n). { apply Z.log2_lt_pow2; [lia | ]. rewrite Z.pow_mul_r by lia. exact (proj2 B). }
  assert (L2 : 8 * Z.of_nat (n - 1) <= Z.log2 p). { apply Z.log2_le_pow2; [lia | ]. rewrite Z.pow_mul_r by lia. exact (proj1 B). }
  assert (EN : Z.of_nat (n - 1) = Z.of_nat n - 1) by lia. rewrite EN in L2. clear - L1 L2. apply Z.div_unique with (Z.log2 p + 1 + 7 - 8 * Z.of_nat n); lia.
Qed.
Lemma put_bytes : forall n x acc, tiny_put n x acc = be_bytes n x ++ acc.
Proof. induction n; intros; cbn [tiny_put be_bytes]; auto. rewrite IHn, <- app_assoc. reflexivity. Qed.
Lemma t_to_bytes : forall a, 0 <= a < p -> tiny_to_bytes p a = Ok (be_bytes (byte_length p) a).
Proof. intros a Ha. unfold tiny_to_bytes. destruct t_length as (n & -> & ->). cbn [bind]. rewrite put_bytes, app_nil_r. reflexivity. Qed.
Lemma t_from_bytes : forall l, Forall (fun x => 0 <= x < 256) l -> be_value l 0 < p -> tiny_from_bytes l = be_value l 0.
Proof.
  intros l Fl Hb. unfold tiny_from_bytes. rewrite be_value_fold in *.
  cut (forall acc, 0 <= acc -> fold_left (fun a y => 256 * a + y) l acc < p -> fold_left (fun acc x => ul (ul (acc * 256) + x)) l acc = fold_left (fun a y => 256 * a + y) l acc); [intro C; apply C; [lia | exact Hb] | ]. clear Hb.
  induction l as [ | x l IH]; intros acc Ha Hb; [reflexivity | ]. cbn [fold_left] in *. inversion Fl as [ | ? ? Fx Fl']. subst.
  assert (M : forall l acc, Forall (fun x => 0 <= x < 256) l -> 0 <= acc -> acc <= fold_left (fun a y => 256 * a + y) l acc).
  { clear. induction l as [ | y l IH]; intros acc F A; cbn [fold_left]; [lia | ]. inversion F. subst. specialize (IH (256 * acc + y) ltac:(auto) ltac:(lia)). lia. }
  pose proof (M l (256 * acc + x) Fl' ltac:(lia)). rewrite (ul_small (acc * 256)) by lia. rewrite ul_small by lia.
  replace (acc * 256 + x) with (256 * acc + x) by ring. apply IH; auto. lia.
Qed.
End W.

Section Session.
Variable p : Z.
Hypothesis Hp : 1 < p < 2 ^ 64.
Hypothesis Hodd : Z.odd p = true.
Lemma t_mul : forall a b, 0 <= a < p -> 0 <= b < p -> a * b < 2 ^ 64 -> tiny_mul p a b = (a * b) mod p.
Proof. intros a b Ha Hb L. unfold tiny_mul. rewrite ul_small; [reflexivity | ]. split; [apply Z.mul_nonneg_nonneg; lia | auto]. Qed.
Lemma t_mul32 : forall a b, p <= 2 ^ 32 -> 0 <= a < p -> 0 <= b < p -> tiny_mul p a b = (a * b) mod p.
Proof. intros a b P Ha Hb. apply t_mul; auto. assert (a * b < 2 ^ 32 * 2 ^ 32) by (apply Z.mul_lt_mono_nonneg; lia). lia. Qed.
Lemma t_invert : forall a, 0 <= a < p -> Z.gcd a p = 1 -> exists x, tiny_invert p a = Ok x /\ 0 <= x < p /\ (x * a) mod p = 1.
Proof.
  intros a Ha G. destruct (invert_spec p ltac:(lia) a Ha G) as (x & E & Hx & H1). exists x. unfold tiny_invert. rewrite E. cbn [of_option bind].
  rewrite ul_small by lia. split; auto. split; [lia | auto].
Qed.
Lemma t_div : forall a b x, 0 <= a < p -> 0 <= b < p -> 0 <= x < p -> (x * b) mod p = 1 -> ((x * a) mod p * b) mod p = a.
Proof.
  intros a b x Ha Hb Hx H1. rewrite Z.mul_mod_idemp_l by lia. replace (x * a * b) with (a * (x * b)) by ring.
  rewrite <- Z.mul_mod_idemp_r, H1, Z.mul_1_r by lia. apply Z.mod_small. auto.
Qed.
Lemma tiny_sound_asg : sound_asg (tiny_be p) p (allowed_tiny p) (naive_rep p).
Proof.
  pose proof (p_ge3 p ltac:(lia) Hodd) as P3.
  intros o s s' r HR HA [Hres HS].
  assert (HR1 : forall i, s i = s' i) by (intro i; apply HR).
  assert (HR2 : forall i, 0 <= s' i < p) by (intro i; apply HR).
  unfold naive_rep.
  destruct o; cbn [exec tiny_be b_set0 b_set1 b_set_si b_set_mpz b_set b_add b_sub b_mul b_neg b_double b_halve b_square b_invert b_mul_mpz b_mul_si b_pow_mpz b_from_bytes b_from_hash allowed_tiny] in *;
    rewrite ?HR1; subst; try (eexists; split; [reflexivity|]; split; [|exact Hres]).
  - reflexivity.
  - reflexivity.
  - destruct HA as [Hn Hz]. rewrite (t_set_si p Hp n Hn Hz). eexists; split; [reflexivity | auto].
  - reflexivity.
  - reflexivity.
  - apply t_add; auto.
  - apply t_sub; auto.
  - apply t_mul; auto.
  - destruct HA as [P HA]. destruct (t_invert (s' b) (HR2 b) HA) as (x & E & Hx & H1). unfold b_div. cbn [tiny_be b_init b_invert b_mul]. rewrite E. cbn [bind].
    exists ((x * s' a) mod p). split.
    + rewrite t_mul32 by auto. destruct (Nat.eqb c a); reflexivity.
    + split; [ | exact Hres]. apply div_unique with p (s' a) (s' b); auto; try lia; try (apply Z.mod_pos_bound; lia). apply t_div; auto.
  - rewrite t_neg by auto. symmetry. apply neg_unique; auto. lia.
  - apply t_double; auto.
  - destruct (t_invert (2 mod p)) as (x & E & Hx & H1); [apply Z.mod_pos_bound; lia | rewrite Z.mod_small by lia; apply odd_gcd2; auto | ].
    unfold tiny_halve. change (tiny_set_si p 2) with (Ok (2 mod p)). cbn [bind]. rewrite E. cbn [bind]. rewrite t_mul32 by auto.
    eexists; split; [reflexivity | ]. split; [ | exact Hres]. apply halve_unique with p (s' a); auto; try lia; try (apply Z.mod_pos_bound; lia).
    rewrite Z.mul_mod_idemp_r by lia. replace (2 * (s' a * x)) with (s' a * (x * 2)) by ring. rewrite (Z.mod_small 2) in H1 by lia.
    rewrite <- Z.mul_mod_idemp_r, H1, Z.mul_1_r by lia. apply Z.mod_small. auto.
  - apply t_mul; auto.
  - destruct (t_invert (s' a) (HR2 a) HA) as (x & E & Hx & H1). rewrite E. eexists; split; [reflexivity | ]. split; [ | exact Hres]. apply inv_unique with p (s' a); auto; lia.
  - unfold tiny_mul_mpz, tiny_set_mpz. rewrite t_mul32 by (auto; apply Z.mod_pos_bound; lia). rewrite Z.mul_mod_idemp_r by lia. f_equal. ring.
  - destruct HA as [Hn Hb]. unfold tiny_mul_si. rewrite (ul_small n) by lia. pose proof (HR2 a). rewrite ul_small by (split; [apply Z.mul_nonneg_nonneg; lia | lia]). f_equal. ring.
  - unfold tiny_pow_mpz. rewrite mpz_powm_spec by lia. cbn [of_option bind]. rewrite ul_small by (unfold residue in Hres; lia). eexists; split; [reflexivity|]. auto.
  - destruct HA as (F & _ & L). apply (t_from_bytes p); auto.
  - contradiction HA.
Qed.
Lemma tiny_sound_qry : sound_qry (tiny_be p) p (naive_rep p).
Proof.
  intros q s s' HR HA.
  assert (HR1 : forall i, s i = s' i) by (intro i; apply HR).
  assert (HR2 : forall i, 0 <= s' i < p) by (intro i; apply HR).
  destruct q; cbn [observe tiny_be b_to_mpz b_is0 b_is1 b_cmp b_sign b_is_sqr b_to_bytes answer bind]; rewrite ?HR1; auto.
  - unfold tiny_cmp. destruct (s' a =? s' b); reflexivity.
  - rewrite t_to_bytes by auto. reflexivity.
Qed.
Lemma tiny_exact : forall h vs, spec_run p (fun a => mpz_legendre a p) (allowed_tiny p) h fresh vs -> tiny_session p h = Ok vs.
Proof.
  intros h vs H. apply (run_sound (tiny_be p) p (allowed_tiny p) (naive_rep p) tiny_sound_asg tiny_sound_qry h _ fresh vs); auto.
  intro i. split; [reflexivity | unfold residue, fresh; lia].
Qed.
End Session.
