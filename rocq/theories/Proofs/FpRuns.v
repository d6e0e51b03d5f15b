(** Sessions of API calls on an F_p field. *)
From Coq Require Import ZArith Znumtheory List Bool Lia.
From Verif.Base Require Import Outcome Gmp Array.
From Verif.Model Require Import FieldInt NaiveFp FastFp FasterFp MontFp FpMachine.
From Verif.Spec Require Import PrimeField.
From Verif.Proofs Require Import GmpFacts ArrayFacts LimbFacts BytesFacts ModFacts MontMulFacts FpBackends MontBackend.
Import ListNotations.
Open Scope Z_scope.

Definition leg (p a : Z) : Z := mpz_legendre a p.

Lemma mpz_size_words : forall p, 1 < p -> Z.of_nat (mpz_size p) = words p.
Proof.
  intros p Hp. unfold mpz_size, words, sizeinbase2.
  replace (p =? 0) with false by (symmetry; apply Z.eqb_neq; lia). rewrite Z.abs_eq by lia.
  pose proof (Z.log2_nonneg p).
  rewrite Z2Nat.id by (apply Z.div_pos; lia).
  replace (Z.log2 p + 1 + 63) with (Z.log2 p + 1 * 64) by lia. rewrite Z.div_add by lia. reflexivity.
Qed.

Lemma top_word_ok : forall p f, 1 < p -> base f = fpdata_init p -> top_word p < 2 ^ 64 - 1 -> top_ok f.
Proof.
  intros p f Hp E H. unfold top_ok. rewrite E. cbn [order nlimbs fpdata_init].
  rewrite Bpow_pow2, mpz_size_words by auto. unfold top_word in H.
  assert (W : 1 <= words p).
  { unfold words. pose proof (Z.div_pos (Z.log2 p) 64 (Z.log2_nonneg p) ltac:(lia)). lia. }
  set (w := words p) in *. change B with (2 ^ 64).
  replace (2 ^ (64 * w)) with (2 ^ (64 * (w - 1)) * 2 ^ 64) by (rewrite <- Z.pow_add_r by lia; f_equal; lia).
  set (M := 2 ^ (64 * (w - 1))) in *. assert (0 < M) by (apply Z.pow_pos_nonneg; lia).
  pose proof (Z.div_mod p M ltac:(lia)). pose proof (Z.mod_pos_bound p M ltac:(lia)).
  assert (p / M <= 2 ^ 64 - 2) by lia.
  assert (p <= M * (2 ^ 64 - 1)).
  { assert (M * (p / M) <= M * (2 ^ 64 - 2)) by (apply Z.mul_le_mono_nonneg_l; lia). lia. }
  assert (p * (2 ^ 64 + 1) <= M * (2 ^ 64 - 1) * (2 ^ 64 + 1)) by (apply Z.mul_le_mono_nonneg_r; lia).
  lia.
Qed.

Lemma any_wf : forall junk, any_memory junk -> forall n, wf n (junk n).
Proof. intros junk H n. apply H. Qed.

Lemma mont_session : forall p junk h vs, 1 < p -> Z.odd p = true -> top_word p < 2 ^ 64 - 1 -> any_memory junk ->
  spec_run p (leg p) (allowed_mont p) h fresh vs -> option_session UseMont p junk h = Ok vs.
Proof.
  intros p junk h vs Hp Ho Ht Hj HS. unfold option_session, option_fpinit.
  destruct (mont_field_init_ok p Hp Ho) as [f [-> [HM [E1 E2]]]]. cbn [bind].
  pose proof (top_word_ok p f Hp E2 Ht) as HT.
  apply run_sound with (p := p) (ok := allowed_mont p) (rep := mont_rep f) (s' := fresh); auto;
  rewrite <- E1 in *.
  - apply mont_sound_asg; auto using any_wf.
  - apply mont_sound_qry; auto using any_wf.
  - intros i. apply mrep_init; auto using any_wf.
Qed.

Lemma faster_session : forall p junk h vs, 1 < p -> Z.odd p = true -> any_memory junk ->
  spec_run p (leg p) (allowed_mod p) h fresh vs -> option_session UseFaster p junk h = Ok vs.
Proof.
  intros p junk h vs Hp Ho Hj HS. unfold option_session, option_fpinit. cbn [bind].
  pose proof (fpdata_init_ok p Hp) as F.
  apply run_sound with (p := p) (ok := allowed_mod p) (rep := faster_rep (fpdata_init p)) (s' := fresh); auto.
  - apply (faster_sound_asg (fpdata_init p)); auto using any_wf.
  - apply (faster_sound_qry (fpdata_init p)); auto using any_wf.
  - intros i. apply faster_init_rep; auto using any_wf.
Qed.

Lemma fast_session : forall p junk h vs, 1 < p -> Z.odd p = true ->
  spec_run p (leg p) (allowed_mod p) h fresh vs -> option_session UseFast p junk h = Ok vs.
Proof.
  intros p junk h vs Hp Ho HS. unfold option_session, option_fpinit. cbn [bind].
  pose proof (fpdata_init_ok p Hp) as F.
  apply run_sound with (p := p) (ok := allowed_mod p) (rep := fast_rep (fpdata_init p)) (s' := fresh); auto.
  - apply (fast_sound_asg (fpdata_init p)); auto.
  - apply (fast_sound_qry (fpdata_init p)); auto.
  - intros i. unfold fast_rep, start, fast_be, b_init, fast_init, fresh.
    split; [apply wf_repeat0|]. split; [apply val_repeat0 | unfold residue; simpl; lia].
Qed.

Lemma naive_session : forall p junk h vs, 1 < p -> Z.odd p = true ->
  spec_run p (leg p) (allowed_mod p) h fresh vs -> option_session UseNaive p junk h = Ok vs.
Proof.
  intros p junk h vs Hp Ho HS. unfold option_session, option_fpinit. cbn [bind].
  apply run_sound with (p := p) (ok := allowed_mod p) (rep := naive_rep p) (s' := fresh); auto.
  - apply naive_sound_asg; auto.
  - apply naive_sound_qry; auto.
  - intros i. split; [reflexivity | unfold residue, fresh; lia].
Qed.

Lemma allowed_mont_of_mod : forall p o s, 1 < p -> allowed_mod p o s -> allowed_mont p o s.
Proof.
  intros p o s Hp H. destruct o; simpl in *; auto.
  - intros E. destruct H as [_ H]. destruct (H E) as [->|]; auto.
  - intros E. destruct H as [_ [_ H]]. destruct (H E) as [->|]; auto.
Qed.

Definition residues p (s : nat -> Z) := forall i, residue p (s i).

Lemma spec_run_mono : forall p l (ok1 ok2 : asg -> (nat -> Z) -> Prop),
  (forall o s, residues p s -> ok1 o s -> ok2 o s) ->
  forall h s vs, residues p s -> spec_run p l ok1 h s vs -> spec_run p l ok2 h s vs.
Proof.
  intros p l ok1 ok2 H h s vs HR HS. induction HS; [constructor| |constructor; auto].
  econstructor; eauto. apply IHHS. intros i. unfold upd. destruct (Nat.eqb i (target o)); auto. apply H1.
Qed.

Lemma fresh_residues : forall p, 1 < p -> residues p fresh.
Proof. intros p Hp i. unfold residue, fresh. lia. Qed.

Lemma prime_nz : forall p x y, prime p -> 0 <= x < p -> (x * y) mod p = 0 -> x = 0 \/ y mod p = 0.
Proof.
  intros p x y Hp Hx E. pose proof (prime_ge_2 p Hp). destruct (Z.eq_dec x 0); auto. right.
  apply Z.mod_divide in E; [|lia]. apply prime_mult in E; auto. destruct E as [E|E].
  - apply Z.divide_pos_le in E; lia.
  - apply Z.mod_divide; auto; lia.
Qed.

Lemma allowed_mod_of_prime : forall p o s, prime p -> residues p s -> allowed p o s -> allowed_mod p o s.
Proof.
  intros p o s Hp HR H. pose proof (prime_ge_2 p Hp). unfold residues, residue in HR.
  assert (S0 : forall i, s i mod p = 0 -> s i = 0).
  { intros i E. rewrite Z.mod_small in E; auto. }
  destruct o; simpl in *; auto.
  - intros E. apply prime_nz in E; auto. destruct E; auto.
  - apply prime_gcd_small; auto. pose proof (HR b). lia.
  - intros E. apply prime_nz in E; auto. destruct E; auto.
  - apply prime_gcd_small; auto. pose proof (HR a). lia.
  - split; auto. intros E. rewrite Z.mul_comm in E. apply prime_nz in E; auto. tauto.
  - destruct H as [H1 H2]. split; auto. split; auto.
    intros E. rewrite Z.mul_comm in E. apply prime_nz in E; auto. tauto.
  - destruct H as [H1 H2]. split; auto. split; auto. intros E.
    destruct (Z.eq_dec (s a) 0); auto. pose proof (HR a).
    pose proof (prime_pow_nonzero p (s a) n Hp ltac:(lia) H1). lia.
Qed.

Lemma allowed_mont_of_prime : forall p o s, prime p -> residues p s -> allowed_mont_prime p o s -> allowed_mont p o s.
Proof.
  intros p o s Hp HR H. pose proof (allowed_mod_of_prime p o s Hp HR) as M.
  destruct o; simpl in *; auto.
  - intros E. rewrite Z.mul_comm in E. apply prime_nz in E; auto. tauto. apply HR.
  - intros E. rewrite Z.mul_comm in E. apply prime_nz in E; auto. tauto. apply HR.
Qed.

Lemma mont_prime_session : forall p junk h vs, prime p -> Z.odd p = true -> top_word p < 2 ^ 64 - 1 -> any_memory junk ->
  spec_run p (leg p) (allowed_mont_prime p) h fresh vs -> option_session UseMont p junk h = Ok vs.
Proof.
  intros p junk h vs Hp Ho Ht Hj HS. pose proof (prime_ge_2 p Hp). apply mont_session; auto; [lia|].
  eapply spec_run_mono; [|apply fresh_residues; lia|exact HS].
  intros. apply allowed_mont_of_prime; auto.
Qed.

Lemma any_session : forall o p junk h vs, 1 < p -> Z.odd p = true -> any_memory junk ->
  (o = UseMont -> top_word p < 2 ^ 64 - 1) ->
  spec_run p (leg p) (allowed_mod p) h fresh vs -> option_session o p junk h = Ok vs.
Proof.
  intros o p junk h vs Hp Ho Hj Ht HS. destruct o.
  - apply naive_session; auto.
  - apply fast_session; auto.
  - apply faster_session; auto.
  - apply mont_session; auto. eapply spec_run_mono; [|apply fresh_residues; lia|exact HS].
    intros. apply allowed_mont_of_mod; auto.
Qed.

Lemma any_prime_session : forall o p junk h vs, prime p -> Z.odd p = true -> any_memory junk ->
  (o = UseMont -> top_word p < 2 ^ 64 - 1) ->
  spec_run p (leg p) (allowed p) h fresh vs -> option_session o p junk h = Ok vs.
Proof.
  intros o p junk h vs Hp Ho Hj Ht HS. pose proof (prime_ge_2 p Hp). apply any_session; auto; [lia|].
  eapply spec_run_mono; [|apply fresh_residues; lia|exact HS].
  intros. apply allowed_mod_of_prime; auto.
Qed.

Lemma init_session : forall o p junk h vs, 1 < p -> Z.odd p = true -> any_memory junk ->
  (o = UseMont -> top_word p < 2 ^ 64 - 1) ->
  spec_run p (leg p) (allowed_mod p) h fresh vs -> fp_session o p junk h = Ok vs.
Proof.
  intros o p junk h vs Hp Ho Hj Ht HS. unfold fp_session, field_init_fp, mpz_odd_p.
  destruct ((0 <=? p) && (p <? B)).
  - apply (naive_session p junk h vs); auto.
  - rewrite Ho. apply (any_session o p junk h vs); auto.
Qed.

(** The specification determines the observations. *)
Lemma assigns_unique : forall p o s r1 r2, 1 < p -> Z.odd p = true -> residues p s -> allowed_mod p o s ->
  assigns p o s r1 -> assigns p o s r2 -> r1 = r2.
Proof.
  intros p o s r1 r2 Hp Ho HR HA [R1 H1] [R2 H2]. unfold residue in *.
  destruct o; simpl in *; try congruence.
  - apply (div_unique p Hp (s a) (s b)); auto. apply HR.
  - assert (E : r1 = (- s a) mod p) by (apply neg_unique; auto; apply HR).
    rewrite E. symmetry. apply neg_unique; auto. apply HR.
  - apply (halve_unique p Hp Ho (s a)); auto.
  - apply (inv_unique p Hp (s a)); auto. apply HR.
  - eapply hashes_to_unique; eauto.
Qed.

Lemma spec_run_deterministic : forall p l h s vs1 vs2, 1 < p -> Z.odd p = true -> residues p s ->
  spec_run p l (allowed_mod p) h s vs1 -> spec_run p l (allowed_mod p) h s vs2 -> vs1 = vs2.
Proof.
  intros p l h s vs1 vs2 Hp Ho HR H1. revert vs2. induction H1; intros vs2 H2; inversion H2; subst; auto.
  - assert (r0 = r) by (eapply assigns_unique; eauto). subst. apply IHspec_run; auto.
    intros i. unfold upd. destruct (Nat.eqb i (target o)); auto. apply H0.
  - f_equal. apply IHspec_run; auto.
Qed.

(** Every allowed call has a specified result. *)
Lemma assigns_exists : forall p o s, 1 < p -> Z.odd p = true -> residues p s -> allowed_mod p o s ->
  exists r, assigns p o s r.
Proof.
  intros p o s Hp Ho HR HA. unfold assigns.
  assert (M : forall z, exists r, residue p r /\ r = z mod p).
  { intros z. exists (z mod p). split; auto. apply Z.mod_pos_bound; lia. }
  destruct o; simpl in *; auto.
  - exists 0. unfold residue. split; auto. lia.
  - exists 1. unfold residue. split; auto. lia.
  - exists (s a). split; auto.
  - destruct (invert_spec p Hp (s b) (HR b) HA) as [y [_ [Hy E]]].
    exists ((s a * y) mod p). split; [apply Z.mod_pos_bound; lia|].
    rewrite Z.mul_mod_idemp_l by lia. rewrite <- Z.mul_assoc, <- Z.mul_mod_idemp_r, E, Z.mul_1_r by lia.
    apply Z.mod_small, HR.
  - exists ((- s a) mod p). split; [apply Z.mod_pos_bound; lia|].
    rewrite Z.add_mod_idemp_l by lia. replace (- s a + s a) with 0 by lia. apply Z.mod_0_l; lia.
  - destruct (zp_halve_spec p Hp Ho (s a) (HR a)). exists (zp_halve p (s a)). auto.
  - destruct (invert_spec p Hp (s a) (HR a) HA) as [y [_ [Hy E]]]. exists y. split; auto. unfold residue; lia.
  - destruct HA as [H1 [H2 H3]]. exists (be_value data 0). split; auto.
    split; auto. apply bytes_value; auto.
  - destruct HA as [H1 H2]. destruct (from_hash_spec p data ltac:(lia)) as [z [_ [Hz1 Hz2]]]; auto.
    exists z. split; auto. unfold residue. destruct (Z.eq_dec z p); [subst; tauto|lia].
Qed.
