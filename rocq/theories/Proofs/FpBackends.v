(** Every F_p back-end implements residue arithmetic: per-operation facts and
    the simulation of the register machine. *)
From Coq Require Import ZArith Znumtheory List Bool Lia.
From Verif.Base Require Import Outcome Gmp Array.
From Verif.Model Require Import FieldInt NaiveFp FastFp FasterFp MontFp FpMachine.
From Verif.Spec Require Import PrimeField.
From Verif.Proofs Require Import GmpFacts ArrayFacts LimbFacts BytesFacts ModFacts MontMulFacts.
Import ListNotations.
Open Scope Z_scope.

(** [sound be p rep]: with registers related by [rep], every allowed call
    produces the specified value, every allowed query the specified answer. *)
Definition sound_asg (be : backend) (p : Z) (ok : asg -> (nat -> Z) -> Prop) (rep : elt be -> Z -> Prop) : Prop :=
  forall o s s' r, (forall i, rep (s i) (s' i)) -> ok o s' -> assigns p o s' r ->
  exists x, exec be o s = Ok x /\ rep x r.
Definition sound_qry (be : backend) (p : Z) (rep : elt be -> Z -> Prop) : Prop :=
  forall q s s', (forall i, rep (s i) (s' i)) -> allowed_qry q s' ->
  observe be q s = Ok (answer p (fun a => mpz_legendre a p) q s').

Lemma run_sound : forall be p ok rep, sound_asg be p ok rep -> sound_qry be p rep ->
  forall h s s' vs, (forall i, rep (s i) (s' i)) ->
  spec_run p (fun a => mpz_legendre a p) ok h s' vs -> run be h s = Ok vs.
Proof.
  intros be p ok rep HA HQ h. induction h as [|c h IH]; intros s s' vs HR HS;
    inversion HS as [|o h' s0 r vs' A1 A2 A3|q h' s0 vs' A1 A2]; subst; simpl.
  - reflexivity.
  - destruct (HA o s s' r HR A1 A2) as [x [-> Hx]]. cbn [bind].
    eapply IH; [|eassumption]. intros i. unfold upd.
    destruct (Nat.eqb i (target o)); auto.
  - rewrite (HQ q s s' HR A1). cbn [bind]. erewrite IH by eauto. reflexivity.
Qed.

(** Uniqueness of the specified results that are given by an equation. *)
Section Unique.
Variable p : Z.
Hypothesis Hp : 1 < p.
Hypothesis Hodd : Z.odd p = true.

Lemma p_ge3 : 3 <= p.
Proof. assert (p <> 2) by (intros ->; discriminate). lia. Qed.

Lemma inv_unique : forall a r x, 0 <= a < p -> Z.gcd a p = 1 -> 0 <= r < p -> 0 <= x < p ->
  (r * a) mod p = 1 -> (x * a) mod p = 1 -> x = r.
Proof.
  intros. apply cancel_mod with p a; auto; try lia.
Qed.

Lemma div_unique : forall a b r x, 0 <= b < p -> Z.gcd b p = 1 -> 0 <= r < p -> 0 <= x < p ->
  (r * b) mod p = a -> (x * b) mod p = a -> x = r.
Proof.
  intros. apply cancel_mod with p b; auto; try lia.
Qed.

Lemma halve_unique : forall a r x, 0 <= r < p -> 0 <= x < p ->
  (2 * r) mod p = a -> (2 * x) mod p = a -> x = r.
Proof.
  intros. apply cancel_mod with p 2; auto; try lia; [apply odd_gcd2; auto|].
  rewrite (Z.mul_comm x), (Z.mul_comm r). congruence.
Qed.

Lemma neg_unique : forall a r, 0 <= a < p -> 0 <= r < p -> (r + a) mod p = 0 -> r = (- a) mod p.
Proof.
  intros a r Ha Hr E. pose proof p_ge3.
  assert (E' : (r + a) mod p = (- a + a) mod p) by (rewrite E; replace (- a + a) with 0 by lia; symmetry; apply Z.mod_0_l; lia).
  destruct (mod_eq_cong p _ _ ltac:(lia) E') as [k Hk].
  rewrite <- (Z.mod_small r p Hr). apply cong_mod_eq with k. lia.
Qed.

Lemma hash_result : forall l r, Forall is_byte l -> hashes_to p l r -> pbc_mpz_from_hash p l = Ok r.
Proof.
  intros l r Hl Hr. pose proof p_ge3.
  destruct (from_hash_spec p l ltac:(lia) Hl) as [z [E [Hz _]]].
  rewrite (hashes_to_unique _ _ _ _ Hr Hz). exact E.
Qed.

Lemma bytes_value : forall l, Forall (fun x => 0 <= x < 256) l -> 0 <= be_value l 0.
Proof. intros. rewrite be_value_import. apply import_be_range; auto. Qed.
End Unique.

Lemma eqb_sub : forall x y, (x - y =? 0) = (x =? y).
Proof. intros. destruct (Z.eqb_spec x y); [apply Z.eqb_eq | apply Z.eqb_neq]; lia. Qed.

(** ** naivefp.c *)
Definition naive_rep (p : Z) (a : Z) (x : Z) : Prop := a = x /\ residue p x.

Section Naive.
Variable p : Z.
Hypothesis Hp : 1 < p.
Hypothesis Hodd : Z.odd p = true.

Lemma zp_add_spec : forall a b, 0 <= a < p -> 0 <= b < p -> zp_add p a b = (a + b) mod p.
Proof.
  intros. unfold zp_add. rewrite mod_once by lia. rewrite Z.geb_leb, Z.leb_antisym.
  destruct (a + b <? p); reflexivity.
Qed.
Lemma zp_sub_spec : forall a b, 0 <= a < p -> 0 <= b < p -> zp_sub p a b = (a - b) mod p.
Proof.
  intros. unfold zp_sub. destruct (a - b <? 0) eqn:E.
  - apply Z.ltb_lt in E. apply Z.mod_unique with (-1); lia.
  - apply Z.ltb_ge in E. rewrite Z.mod_small; lia.
Qed.
Lemma zp_neg_spec : forall a, 0 <= a < p -> zp_neg p a = (- a) mod p.
Proof.
  intros a Ha. unfold zp_neg. destruct (a =? 0) eqn:E.
  - apply Z.eqb_eq in E; subst. symmetry. apply Z.mod_0_l. lia.
  - apply Z.eqb_neq in E. apply Z.mod_unique with (-1); lia.
Qed.
Lemma zp_double_spec : forall a, 0 <= a < p -> zp_double p a = (2 * a) mod p.
Proof.
  intros. unfold zp_double. rewrite mod_once by lia. rewrite Z.geb_leb, Z.leb_antisym, (Z.mul_comm a).
  destruct (2 * a <? p); reflexivity.
Qed.
Lemma zp_halve_spec : forall a, 0 <= a < p -> 0 <= zp_halve p a < p /\ (2 * zp_halve p a) mod p = a.
Proof.
  intros a Ha. unfold zp_halve, mpz_odd_p. destruct (Z.odd a) eqn:E.
  - pose proof (Z.div_mod (a + p) 2 ltac:(lia)) as D. rewrite Zmod_odd, Z.odd_add, E, Hodd in D. cbn [xorb] in D.
    split; [lia|]. replace (2 * ((a + p) / 2)) with (a + p) by lia.
    rewrite mod_once by lia. replace (a + p <? p) with false by (symmetry; apply Z.ltb_ge; lia). lia.
  - pose proof (Z.div_mod a 2 ltac:(lia)) as D. rewrite Zmod_odd, E in D.
    split; [lia|]. replace (2 * (a / 2)) with a by lia. apply Z.mod_small; lia.
Qed.
Lemma invert_spec : forall a, 0 <= a < p -> Z.gcd a p = 1 ->
  exists x, mpz_invert a p = Some x /\ 0 < x < p /\ (x * a) mod p = 1.
Proof.
  intros a Ha Hn.
  destruct (mpz_invert_exists a p Hp Hn) as [x E].
  destruct (mpz_invert_some a p x Hp E) as [Hx H1].
  exists x. split; auto. rewrite Z.mul_comm in H1. split; auto.
  assert (x <> 0) by (intros ->; rewrite Z.mul_0_l, Z.mod_0_l in H1; lia). lia.
Qed.

Lemma naive_sound_asg : sound_asg (naive_be p) p (allowed_mod p) (naive_rep p).
Proof.
  pose proof (p_ge3 p Hp Hodd) as P3.
  intros o s s' r HR HA [Hres HS].
  assert (HR1 : forall i, s i = s' i) by (intro i; apply HR).
  assert (HR2 : forall i, 0 <= s' i < p) by (intro i; apply HR).
  unfold naive_rep.
  destruct o; simpl in *; rewrite ?HR1; subst; try (eexists; split; [reflexivity|]; split; [|exact Hres]).
  - reflexivity.
  - reflexivity.
  - reflexivity.
  - reflexivity.
  - reflexivity.
  - apply zp_add_spec; auto.
  - apply zp_sub_spec; auto.
  - reflexivity.
  - (* div *)
    unfold b_div; simpl. unfold zp_invert.
    destruct (invert_spec (s' b) (HR2 b) HA) as [x [E [Hx Hx1]]]. rewrite E. cbn [of_option bind].
    unfold zp_mul, mpz_mod.
    replace (if Nat.eqb c a then Ok ((x * s' a) mod p) else Ok ((x * s' a) mod p))
      with (Ok ((x * s' a) mod p)) by (destruct (Nat.eqb c a); reflexivity).
    eexists; split; [reflexivity|]. split; [|exact Hres].
    apply div_unique with p (s' a) (s' b); auto; try (apply Z.mod_pos_bound; lia).
    rewrite Z.mul_mod_idemp_l by lia. replace (x * s' a * s' b) with (s' a * (x * s' b)) by ring.
    rewrite <- Z.mul_mod_idemp_r, Hx1, Z.mul_1_r by lia. apply Z.mod_small. auto.
  - rewrite zp_neg_spec by auto. symmetry. apply neg_unique; auto.
  - apply zp_double_spec; auto.
  - destruct (zp_halve_spec (s' a) (HR2 a)). apply halve_unique with p (s' a); auto.
  - rewrite powm_pos_spec by lia. f_equal. ring.
  - unfold zp_invert. destruct (invert_spec (s' a) (HR2 a) HA) as [x [E [Hx Hx1]]]. rewrite E.
    eexists; split; [reflexivity|]. split; [|exact Hres].
    apply inv_unique with p (s' a); auto; lia.
  - unfold zp_mul_mpz, mpz_mod. f_equal. ring.
  - unfold zp_mul_si, mpz_mod. f_equal. ring.
  - unfold zp_pow_mpz. rewrite mpz_powm_spec by lia. eexists; split; [reflexivity|]. auto.
  - unfold zp_from_bytes. symmetry. apply be_value_import.
  - unfold zp_from_hash. rewrite (hash_result p Hp Hodd data r) by tauto.
    eexists; split; [reflexivity|]. auto.
Qed.

Lemma sign_odd_spec : forall a, 0 <= a < p -> zp_sign p a = (if a =? 0 then 0 else if Z.odd a then 1 else -1).
Proof. intros. unfold zp_sign, mpz_odd_p. rewrite Hodd. reflexivity. Qed.

Lemma naive_sound_qry : sound_qry (naive_be p) p (naive_rep p).
Proof.
  intros q s s' HR HA.
  assert (HR1 : forall i, s i = s' i) by (intro i; apply HR).
  assert (HR2 : forall i, 0 <= s' i < p) by (intro i; apply HR).
  destruct q; simpl in *; rewrite ?HR1; auto.
  - unfold zp_cmp. rewrite sgn_eq0, eqb_sub. reflexivity.
  - rewrite sign_odd_spec by auto. reflexivity.
  - unfold zp_to_bytes. rewrite to_bytes_spec by auto. reflexivity.
Qed.
End Naive.

(** ** fastfp.c *)
Definition fast_rep (f : fpdata) (a : list Z) (x : Z) : Prop :=
  wf (nlimbs f) a /\ val a = x /\ residue (order f) x.

Section Fast.
Variable f : fpdata.
Hypothesis HF : fpdata_ok f.
Notation p := (order f).
Notation t := (nlimbs f).
Hypothesis Hp : 1 < p.
Hypothesis Hodd : Z.odd p = true.

Lemma fast_set_mpz_spec : forall z, exists r, fast_set_mpz f z = Ok r /\ fast_rep f r (z mod p).
Proof.
  intros z. pose proof (fo_p _ HF). pose proof (Z.mod_pos_bound z p ltac:(lia)).
  unfold fast_set_mpz, fast_from_mpz, mpz_mod. rewrite (export_small f HF) by auto.
  eexists; split; [reflexivity|].
  destruct (limbs_small_spec f HF (z mod p)); auto. repeat split; auto; try apply H1; lia.
Qed.

Lemma fast_neg_spec : forall a x, fast_rep f a x -> fast_rep f (fast_neg f a) ((- x) mod p).
Proof.
  intros a x [Hw [Hv Hr]]. unfold residue in Hr. unfold fast_neg. rewrite (is0_spec f a Hw), Hv.
  rewrite (neg_mod f) by auto. pose proof (fo_p _ HF).
  destruct (x =? 0) eqn:E.
  - unfold fast_set0. split; [apply wf_repeat0|]. rewrite val_repeat0. unfold residue; lia.
  - apply Z.eqb_neq in E. destruct (sub_from_p_spec f HF a) as [W V]; [lia|].
    split; auto. split; [lia|]. unfold residue; lia.
Qed.

Lemma fast_sound_asg : sound_asg (fast_be f) p (allowed_mod p) (fast_rep f).
Proof.
  pose proof (p_ge3 p Hp Hodd) as P3.
  intros o s s' r HR HA [Hres HS].
  assert (HW : forall i, wf t (s i)) by (intro i; apply HR).
  assert (HV : forall i, val (s i) = s' i) by (intro i; apply HR).
  assert (HR2 : forall i, 0 <= s' i < p) by (intro i; apply HR).
  assert (HR3 : forall i, 0 <= val (s i) < p) by (intro i; rewrite HV; apply HR2).
  assert (FIN : forall l, wf t l -> val l = r -> fast_rep f l r) by (intros; split; auto).
  destruct o; simpl in *; subst.
  - eexists; split; [reflexivity|]. apply FIN; [apply wf_repeat0 | apply val_repeat0].
  - destruct (fast_set1_spec f HF) as [l [-> [W V]]]. eexists; split; [reflexivity|]; apply FIN; auto.
  - destruct (fast_set_si_spec f HF n) as [l [-> [W V]]]; [tauto|destruct HA as [HA _]; exact HA|]. eexists; split; [reflexivity|]; apply FIN; auto.
  - destruct (fast_set_mpz_spec n) as [l [-> L]]. eauto.
  - eexists; split; [reflexivity|]. apply FIN; unfold fast_set; auto.
  - eexists; split; [reflexivity|]. destruct (fast_add_spec f HF (s a) (s b)); auto.
    apply FIN; auto. rewrite <- !HV; auto.
  - eexists; split; [reflexivity|]. destruct (fast_sub_spec f HF (s a) (s b)); auto.
    apply FIN; auto. rewrite <- !HV; auto.
  - eexists; split; [reflexivity|]. destruct (fast_mul_spec f HF (s a) (s b)); auto.
    apply FIN; auto. rewrite <- !HV; auto.
  - unfold b_div; simpl. unfold fast_invert, fast_to_mpz. rewrite HV.
    destruct (invert_spec p Hp (s' b) (HR2 b) HA) as [x [E [Hx Hx1]]]. rewrite E. cbn [of_option bind].
    unfold fast_from_mpz. rewrite (export_small f HF) by lia. cbn [bind].
    replace (if Nat.eqb c a then Ok (fast_mul f (limbs t x) (s a)) else Ok (fast_mul f (limbs t x) (s a)))
      with (Ok (fast_mul f (limbs t x) (s a))) by (destruct (Nat.eqb c a); reflexivity).
    eexists; split; [reflexivity|].
    destruct (limbs_small_spec f HF x ltac:(lia)) as [Wx Vx].
    destruct (fast_mul_spec f HF (limbs t x) (s a)) as [W V]; auto.
    apply FIN; auto. rewrite V, Vx, HV.
    apply div_unique with p (s' a) (s' b); auto; try (apply Z.mod_pos_bound; lia).
    rewrite Z.mul_mod_idemp_l by lia. replace (x * s' a * s' b) with (s' a * (x * s' b)) by ring.
    rewrite <- Z.mul_mod_idemp_r, Hx1, Z.mul_1_r by lia. apply Z.mod_small. auto.
  - eexists; split; [reflexivity|]. rewrite (neg_unique p Hp Hodd (s' a) r); auto.
    apply fast_neg_spec. apply HR.
  - eexists; split; [reflexivity|]. destruct (fast_double_spec f HF (s a)); auto.
    apply FIN; auto. rewrite <- HV; auto.
  - unfold fast_halve. destruct (halve_limbs_spec f HF (s a)) as [l [-> [W [V1 V2]]]]; auto.
    eexists; split; [reflexivity|]. apply FIN; auto.
    apply halve_unique with p (s' a); auto. rewrite <- HV; auto.
  - destruct (fast_square_spec f HF (s a)) as [l [-> [W V]]]. rewrite HV in V. eexists; split; [reflexivity|]; apply FIN; auto.
  - unfold fast_invert, fast_to_mpz. rewrite HV.
    destruct (invert_spec p Hp (s' a) (HR2 a) HA) as [x [E [Hx Hx1]]]. rewrite E. cbn [of_option bind].
    unfold fast_from_mpz. rewrite (export_small f HF) by lia.
    eexists; split; [reflexivity|].
    destruct (limbs_small_spec f HF x ltac:(lia)) as [Wx Vx]. apply FIN; auto. rewrite Vx.
    apply inv_unique with p (s' a); auto; lia.
  - destruct (fast_set_mpz_spec n) as [l [-> [W [V _]]]]. cbn [bind]. eexists; split; [reflexivity|].
    destruct (fast_mul_spec f HF (s a) l) as [W2 V2]; auto. apply FIN; auto.
    rewrite V2, V, HV, Z.mul_mod_idemp_r by lia. f_equal. ring.
  - unfold fast_mul_si. destruct HA as [HL HA]. unfold long_range in HL.
    replace (n =? LONG_MIN) with false by (symmetry; apply Z.eqb_neq; unfold LONG_MIN; lia).
    pose proof (fast_mul_si_limbs f HF (s a) n (HW a)) as M.
    destruct (mpn_mul_1 (s a) t (Z.abs n)) as [lo hi].
    destruct M as [W V]; [unfold LONG_MIN; change (B / 2) with (2 ^ 63); lia|].
    rewrite HV in V. eexists; split; [reflexivity|].
    destruct (n <? 0) eqn:E.
    + apply Z.ltb_lt in E.
      replace ((n * s' a) mod p) with ((- ((s' a * Z.abs n) mod p)) mod p).
      * apply fast_neg_spec. split; auto. split; auto. apply Z.mod_pos_bound; lia.
      * rewrite <- (Z.sub_0_l (_ mod p)), Zminus_mod_idemp_r, Z.abs_neq by lia. f_equal. ring.
    + apply Z.ltb_ge in E. apply FIN; auto. rewrite V, Z.abs_eq by lia. f_equal. ring.
  - unfold fast_pow_mpz, fast_to_mpz. rewrite HV, mpz_powm_spec by lia. cbn [of_option bind].
    unfold fast_from_mpz. rewrite (export_small f HF) by (apply Z.mod_pos_bound; lia).
    eexists; split; [reflexivity|].
    destruct (limbs_small_spec f HF (s' a ^ n mod p)); auto.
  - unfold fast_from_bytes. rewrite be_value_import in *.
    destruct (fast_set_mpz_spec (import_be data)) as [l [-> L]].
    rewrite Z.mod_small in L by exact Hres. eauto.
  - unfold fast_from_hash. rewrite (hash_result p Hp Hodd data r) by tauto. cbn [bind].
    destruct (fast_set_mpz_spec r) as [l [-> L]]. rewrite Z.mod_small in L by exact Hres. eauto.
Qed.

Lemma fast_sound_qry : sound_qry (fast_be f) p (fast_rep f).
Proof.
  pose proof (p_ge3 p Hp Hodd) as P3.
  intros q s s' HR HA.
  assert (HW : forall i, wf t (s i)) by (intro i; apply HR).
  assert (HV : forall i, val (s i) = s' i) by (intro i; apply HR).
  assert (HR2 : forall i, 0 <= s' i < p) by (intro i; apply HR).
  destruct q; simpl in *.
  - unfold fast_to_mpz. rewrite HV. reflexivity.
  - rewrite (is0_spec f), HV by auto. reflexivity.
  - rewrite (is1_spec f HF), HV by auto. reflexivity.
  - unfold fast_cmp, mpn_cmp. rewrite sgn_eq0, !HV, eqb_sub. reflexivity.
  - unfold fast_sign, mpz_odd_p. rewrite Hodd. unfold fast_sgn_odd.
    rewrite (is0_spec f), HV by auto.
    destruct (first_limb_odd f HF (s a) (HW a)) as [a0 [l [_ [-> Ho]]]]. cbn [bind]. rewrite Ho, HV.
    destruct (s' a =? 0); reflexivity.
  - unfold fast_is_sqr, fast_to_mpz. rewrite (is0_spec f), HV by auto. reflexivity.
  - unfold fast_to_bytes, fast_to_mpz. rewrite HV, to_bytes_spec by auto. reflexivity.
Qed.
End Fast.

(** ** fasterfp.c *)
Definition faster_rep (f : fpdata) (a : flagged) (x : Z) : Prop :=
  wf (nlimbs f) (d a) /\
  ((flag a = 0 /\ x = 0) \/ (flag a = 2 /\ val (d a) = x /\ 0 < x < order f)).

Section Faster.
Variable f : fpdata.
Hypothesis HF : fpdata_ok f.
Notation p := (order f).
Notation t := (nlimbs f).

Lemma frep_residue : forall a x, faster_rep f a x -> 0 <= x < p.
Proof. intros a x [_ [[_ ->]|[_ [_ H]]]]; pose proof (fo_p _ HF); lia. Qed.

Lemma frep_zero : forall a x, faster_rep f a x -> is_zero_flag a = (x =? 0).
Proof.
  intros a x [_ [[H1 H2]|[H1 [_ H2]]]]; unfold is_zero_flag; rewrite H1.
  - subst. reflexivity.
  - symmetry. apply Z.eqb_neq. lia.
Qed.

Lemma frep_nonzero : forall a x, faster_rep f a x -> x <> 0 ->
  is_zero_flag a = false /\ flag a = 2 /\ val (d a) = x /\ 0 < x < p.
Proof.
  intros a x H Hx. pose proof (frep_zero a x H) as E.
  destruct H as [_ [[_ H]|[H1 [H2 H3]]]]; [contradiction|].
  rewrite E. split; [apply Z.eqb_neq; lia|]. repeat split; auto; lia.
Qed.

Lemma frep_clear : forall c x, faster_rep f c x -> faster_rep f (clear_flag c) 0.
Proof. intros c x [H _]. split; auto. Qed.

Lemma frep_mk : forall l x, wf t l -> val l = x -> 0 < x < p -> faster_rep f {| flag := 2; d := l |} x.
Proof. intros. split; auto. Qed.

Lemma frep_d_wf : forall a x, faster_rep f a x -> wf t (d a).
Proof. intros a x [H _]; auto. Qed.

Lemma frep_set : forall c a xc x, faster_rep f c xc -> faster_rep f a x -> faster_rep f (faster_set c a) x.
Proof.
  intros c a xc x Hc Ha. unfold faster_set. rewrite (frep_zero a x Ha).
  destruct (x =? 0) eqn:E.
  - apply Z.eqb_eq in E; subst. eapply frep_clear; eauto.
  - apply Z.eqb_neq in E. destruct (frep_nonzero a x Ha E) as [_ [_ [V R]]].
    apply frep_mk; auto. eapply frep_d_wf; eauto.
Qed.

Lemma reduce_once_spec : forall s, 0 < s < 2 * p ->
  faster_rep f (reduce_once f (limbs t s) (s / Bpow t)) (s mod p).
Proof.
  intros s Hs. unfold reduce_once. pose proof (fo_lt _ HF). pose proof (fo_p _ HF).
  rewrite mod_once by lia. unfold mpn_cmp, mpn_sub_n. cbn [fst]. rewrite (fP_val f HF), sgn_eq0, sgn_gt0.
  destruct (sum_split f HF s ltac:(lia)) as [[-> V]|[-> V]]; rewrite V; cbn [Z.eqb negb].
  - destruct (s - p =? 0) eqn:E0.
    + apply Z.eqb_eq in E0. replace (s <? p) with false by (symmetry; apply Z.ltb_ge; lia).
      replace (s - p) with 0 by lia. split; cbn; auto.
    + apply Z.eqb_neq in E0. destruct (0 <? s - p) eqn:E1.
      * apply Z.ltb_lt in E1. replace (s <? p) with false by (symmetry; apply Z.ltb_ge; lia).
        apply frep_mk; auto; [apply val_limbs_small|]; lia.
      * apply Z.ltb_ge in E1. replace (s <? p) with true by (symmetry; apply Z.ltb_lt; lia).
        apply frep_mk; auto; lia.
  - assert (0 <= val (limbs t s)) by (apply (val_range t); auto).
    replace (s <? p) with false by (symmetry; apply Z.ltb_ge; lia).
    apply frep_mk; auto; [|lia]. rewrite val_limbs. symmetry. apply Z.mod_unique with (-1); lia.
Qed.

Lemma faster_add_spec : forall c a b xc x y, faster_rep f c xc -> faster_rep f a x -> faster_rep f b y ->
  faster_rep f (faster_add f c a b) ((x + y) mod p).
Proof.
  intros c a b xc x y Hc Ha Hb. unfold faster_add.
  pose proof (frep_residue a x Ha). pose proof (frep_residue b y Hb).
  rewrite (frep_zero a x Ha), (frep_zero b y Hb).
  destruct (x =? 0) eqn:E.
  - apply Z.eqb_eq in E; subst. rewrite Z.add_0_l, Z.mod_small by auto. eapply frep_set; eauto.
  - apply Z.eqb_neq in E. destruct (y =? 0) eqn:E2.
    + apply Z.eqb_eq in E2; subst. rewrite Z.add_0_r, Z.mod_small by auto. eapply frep_set; eauto.
    + apply Z.eqb_neq in E2. destruct (frep_nonzero a x Ha E) as [_ [_ [V1 R1]]].
      destruct (frep_nonzero b y Hb E2) as [_ [_ [V2 R2]]].
      unfold mpn_add_n. rewrite V1, V2. apply reduce_once_spec. lia.
Qed.

Lemma faster_double_spec : forall c a xc x, faster_rep f c xc -> faster_rep f a x ->
  faster_rep f (faster_double f c a) ((2 * x) mod p).
Proof.
  intros c a xc x Hc Ha. unfold faster_double. pose proof (frep_residue a x Ha).
  rewrite (frep_zero a x Ha). destruct (x =? 0) eqn:E.
  - apply Z.eqb_eq in E; subst. rewrite Z.mul_0_r, Z.mod_0_l by lia. eapply frep_clear; eauto.
  - apply Z.eqb_neq in E. destruct (frep_nonzero a x Ha E) as [_ [_ [V1 R1]]].
    unfold mpn_lshift1. rewrite V1. apply reduce_once_spec. lia.
Qed.

Lemma faster_neg_spec : forall c a xc x, faster_rep f c xc -> faster_rep f a x ->
  faster_rep f (faster_neg f c a) ((- x) mod p).
Proof.
  intros c a xc x Hc Ha. unfold faster_neg. pose proof (frep_residue a x Ha).
  rewrite (neg_mod f) by auto. rewrite (frep_zero a x Ha). destruct (x =? 0) eqn:E.
  - eapply frep_clear; eauto.
  - apply Z.eqb_neq in E. destruct (frep_nonzero a x Ha E) as [_ [_ [V1 R1]]].
    destruct (sub_from_p_spec f HF (d a)) as [W V]; [lia|].
    apply frep_mk; auto; lia.
Qed.

Lemma faster_sub_spec : forall c a b xc x y, faster_rep f c xc -> faster_rep f a x -> faster_rep f b y ->
  faster_rep f (faster_sub f c a b) ((x - y) mod p).
Proof.
  intros c a b xc x y Hc Ha Hb. unfold faster_sub.
  pose proof (frep_residue a x Ha). pose proof (frep_residue b y Hb). pose proof (fo_lt _ HF).
  rewrite (frep_zero a x Ha), (frep_zero b y Hb).
  destruct (x =? 0) eqn:E.
  - apply Z.eqb_eq in E; subst. rewrite Z.sub_0_l. eapply faster_neg_spec; eauto.
  - apply Z.eqb_neq in E. destruct (y =? 0) eqn:E2.
    + apply Z.eqb_eq in E2; subst. rewrite Z.sub_0_r, Z.mod_small by auto. eapply frep_set; eauto.
    + apply Z.eqb_neq in E2. destruct (frep_nonzero a x Ha E) as [_ [_ [V1 R1]]].
      destruct (frep_nonzero b y Hb E2) as [_ [_ [V2 R2]]].
      unfold mpn_cmp, mpn_sub_n, mpn_add_n. cbn [fst]. rewrite V1, V2, sgn_eq0, sgn_lt0.
      destruct (x - y =? 0) eqn:E3.
      * apply Z.eqb_eq in E3. rewrite E3, Z.mod_0_l by lia. eapply frep_clear; eauto.
      * apply Z.eqb_neq in E3. pose proof (Bpow_pos t). destruct (x - y <? 0) eqn:E4.
        -- apply Z.ltb_lt in E4. rewrite (fP_val f HF), val_limbs.
           replace ((x - y) mod Bpow t) with (x - y + Bpow t) by (apply Z.mod_unique with (-1); lia).
           replace ((x - y) mod p) with (x - y + p) by (apply Z.mod_unique with (-1); lia).
           apply frep_mk; auto; [|lia]. rewrite val_limbs. symmetry. apply Z.mod_unique with 1; lia.
        -- apply Z.ltb_ge in E4. rewrite Z.mod_small by lia.
           apply frep_mk; auto; [apply val_limbs_small|]; lia.
Qed.

(** Halving: right unless the output element is a different element that holds 0. *)
Lemma faster_halve_spec : forall c a xc x, Z.odd p = true ->
  faster_rep f c xc -> faster_rep f a x -> xc <> 0 \/ x = 0 ->
  exists r y, faster_halve f c a = Ok r /\ faster_rep f r y /\ (2 * y) mod p = x.
Proof.
  intros c a xc x Ho Hc Ha Hpre. unfold faster_halve. pose proof (frep_residue a x Ha).
  rewrite (frep_zero a x Ha). destruct (x =? 0) eqn:E.
  - apply Z.eqb_eq in E; subst. exists (clear_flag c), 0. split; auto.
    split; [eapply frep_clear; eauto|]. apply Z.mod_0_l; lia.
  - apply Z.eqb_neq in E. destruct Hpre as [Hpre|]; [|contradiction].
    destruct (frep_nonzero a x Ha E) as [_ [_ [V1 R1]]].
    destruct (frep_nonzero c xc Hc Hpre) as [_ [FC _]].
    pose proof (frep_d_wf a x Ha) as W.
    destruct (first_limb_odd f HF (d a) W) as [a0 [l [_ [-> _]]]]. cbn [bind].
    destruct (halve_limbs_spec f HF (d a) W) as [r [-> [W2 [V2 V3]]]]; auto; [lia|]. cbn [bind].
    rewrite FC. replace (if Z.odd a0 then 2 else 2) with 2 by (destruct (Z.odd a0); auto).
    eexists; exists (val r). split; [reflexivity|]. split; [|congruence].
    apply frep_mk; auto. assert (val r <> 0); [|lia].
    intros Z0. rewrite Z0, Z.mul_0_r, Z.mod_0_l in V3; lia.
Qed.

Hypothesis Hp : 1 < p.
Hypothesis Hodd : Z.odd p = true.

Lemma faster_export : forall z, 0 < z < p ->
  exists l, export_limbs t z = Ok l /\ faster_rep f {| flag := 2; d := l |} z.
Proof.
  intros z Hz. rewrite (export_small f HF) by lia. eexists; split; [reflexivity|].
  destruct (limbs_small_spec f HF z ltac:(lia)). apply frep_mk; auto.
Qed.

Lemma faster_mul_spec : forall c a b xc x y, faster_rep f c xc -> faster_rep f a x -> faster_rep f b y ->
  ((x * y) mod p = 0 -> x = 0 \/ y = 0) ->
  faster_rep f (faster_mul f c a b) ((x * y) mod p).
Proof.
  intros c a b xc x y Hc Ha Hb Hnz. unfold faster_mul.
  pose proof (frep_residue a x Ha). pose proof (frep_residue b y Hb).
  rewrite (frep_zero a x Ha), (frep_zero b y Hb).
  destruct (x =? 0) eqn:E; [apply Z.eqb_eq in E; subst; rewrite Z.mod_0_l by lia; eapply frep_clear; eauto|].
  destruct (y =? 0) eqn:E2; [apply Z.eqb_eq in E2; subst; rewrite Z.mul_0_r, Z.mod_0_l by lia; eapply frep_clear; eauto|].
  apply Z.eqb_neq in E, E2. simpl.
  destruct (frep_nonzero a x Ha E) as [_ [_ [V1 R1]]].
  destruct (frep_nonzero b y Hb E2) as [_ [_ [V2 R2]]].
  destruct (fast_mul_spec f HF (d a) (d b)) as [W V];
    try (eapply frep_d_wf; eauto). rewrite V1, V2 in V. apply frep_mk; auto.
  pose proof (Z.mod_pos_bound (x * y) p ltac:(lia)). assert ((x * y) mod p <> 0) by tauto. lia.
Qed.

Lemma unit_nz : forall u x, 0 <= x < p -> (exists v, (u * v) mod p = 1) -> (u * x) mod p = 0 -> x = 0.
Proof.
  intros u x Hx [v Hv] E. assert (H1 : (u * x * v) mod p = 0) by (rewrite <- Z.mul_mod_idemp_l, E, Z.mul_0_l, Z.mod_0_l by lia; auto).
  replace (u * x * v) with ((u * v) * x) in H1 by ring.
  rewrite <- Z.mul_mod_idemp_l, Hv, Z.mul_1_l, Z.mod_small in H1 by lia. auto.
Qed.

Lemma faster_set_mpz_spec : forall c xc z, faster_rep f c xc -> (z mod p = 0 -> z = 0) ->
  exists r, faster_set_mpz f c z = Ok r /\ faster_rep f r (z mod p).
Proof.
  intros c xc z Hc Hz. unfold faster_set_mpz. pose proof (fo_p _ HF).
  destruct (z =? 0) eqn:E.
  - apply Z.eqb_eq in E; subst. rewrite Z.mod_0_l by lia. eexists; split; [reflexivity|]. eapply frep_clear; eauto.
  - apply Z.eqb_neq in E. pose proof (Z.mod_pos_bound z p ltac:(lia)).
    destruct (faster_export (z mod p)) as [l [E1 L]].
    { assert (z mod p <> 0) by tauto. lia. }
    unfold mpz_mod. rewrite E1. cbn [bind]. eauto.
Qed.

Variable junk : list Z.
Hypothesis HJ : wf t junk.

Lemma faster_init_rep : faster_rep f (faster_init junk) 0.
Proof. split; auto. Qed.

Lemma faster_invert_spec : forall c a xc x, faster_rep f c xc -> faster_rep f a x -> Z.gcd x p = 1 ->
  exists r y, faster_invert f c a = Ok r /\ faster_rep f r y /\ (y * x) mod p = 1.
Proof.
  intros c a xc x Hc Ha Hg. unfold faster_invert, faster_to_mpz.
  assert (Hx : x <> 0) by (intros ->; rewrite Z.gcd_0_l, Z.abs_eq in Hg; lia).
  destruct (frep_nonzero a x Ha Hx) as [-> [_ [-> R]]].
  destruct (invert_spec p Hp x ltac:(lia) Hg) as [y [-> [Hy E]]]. cbn [of_option bind].
  destruct (faster_export y Hy) as [l [-> L]]. cbn [bind]. eauto.
Qed.

Lemma faster_sound_asg : sound_asg (faster_be f junk) p (allowed_mod p) (faster_rep f).
Proof.
  pose proof (p_ge3 p Hp Hodd) as P3.
  intros o s s' r HR HA [Hres HS].
  assert (HR2 : forall i, 0 <= s' i < p) by (intro i; eapply frep_residue; apply HR).
  destruct o; simpl in *; subst.
  - eexists; split; [reflexivity|]. eapply frep_clear; apply HR.
  - unfold faster_set1. destruct (fast_set1_spec f HF) as [l [-> [W V]]]. cbn [bind].
    eexists; split; [reflexivity|]. apply frep_mk; auto; lia.
  - unfold faster_set_si. destruct (n =? 0) eqn:E.
    + apply Z.eqb_eq in E; subst. rewrite Z.mod_0_l by lia. eexists; split; [reflexivity|].
      eapply frep_clear; apply HR.
    + apply Z.eqb_neq in E. destruct HA as [HL HA].
      destruct (fast_set_si_spec f HF n) as [l [-> [W V]]]; [tauto|exact HL|]. cbn [bind].
      eexists; split; [reflexivity|]. apply frep_mk; auto.
      pose proof (Z.mod_pos_bound n p ltac:(lia)). assert (n mod p <> 0); [|lia].
      intros Z0. apply Z.mod_divide in Z0; [|lia]. destruct Z0 as [q Hq]. assert (q = 0) by nia. lia.
  - apply (faster_set_mpz_spec (s c) (s' c)); auto.
  - eexists; split; [reflexivity|]. eapply frep_set; apply HR.
  - eexists; split; [reflexivity|]. eapply faster_add_spec; apply HR.
  - eexists; split; [reflexivity|]. eapply faster_sub_spec; apply HR.
  - eexists; split; [reflexivity|]. eapply faster_mul_spec; try apply HR. auto.
  - unfold b_div; simpl.
    assert (DD : forall x, (x * s' b) mod p = 1 -> 0 <= x < p -> (x * s' a) mod p = r).
    { intros x Hx1 Hx. apply div_unique with p (s' a) (s' b); auto; try (apply Z.mod_pos_bound; lia).
      rewrite Z.mul_mod_idemp_l by lia. replace (x * s' a * s' b) with (s' a * (x * s' b)) by ring.
      rewrite <- Z.mul_mod_idemp_r, Hx1, Z.mul_1_r by lia. apply Z.mod_small. auto. }
    destruct (Nat.eqb c a).
    + destruct (faster_invert_spec _ (s b) _ (s' b) faster_init_rep (HR b) HA) as [v [y [-> [R1 E]]]].
      cbn [bind]. eexists; split; [reflexivity|]. rewrite <- (DD y E (frep_residue _ _ R1)).
      eapply faster_mul_spec; eauto. intros E0. right. eapply unit_nz; eauto.
    + destruct (faster_invert_spec _ (s b) _ (s' b) (HR c) (HR b) HA) as [v [y [-> [R1 E]]]].
      cbn [bind]. eexists; split; [reflexivity|]. rewrite <- (DD y E (frep_residue _ _ R1)).
      eapply faster_mul_spec; eauto. intros E0. right. eapply unit_nz; eauto.
  - eexists; split; [reflexivity|]. rewrite (neg_unique p Hp Hodd (s' a) r); auto.
    eapply faster_neg_spec; apply HR.
  - eexists; split; [reflexivity|]. eapply faster_double_spec; apply HR.
  - destruct (faster_halve_spec (s c) (s a) (s' c) (s' a)) as [v [y [-> [R E]]]]; auto.
    { destruct HA as [HA|[->|HA]]; auto. destruct (Z.eq_dec (s' a) 0); auto. }
    eexists; split; [reflexivity|]. replace r with y; auto.
    apply halve_unique with p (s' a); auto. eapply frep_residue; eauto.
  - unfold faster_square. rewrite (frep_zero _ _ (HR a)). destruct (s' a =? 0) eqn:E.
    + apply Z.eqb_eq in E. rewrite E, Z.mod_0_l by lia. eexists; split; [reflexivity|]. eapply frep_clear; apply HR.
    + apply Z.eqb_neq in E. destruct (frep_nonzero _ _ (HR a) E) as [_ [_ [V1 R1]]].
      destruct (fast_square_spec f HF (d (s a))) as [l [-> [W V]]]. cbn [bind].
      eexists; split; [reflexivity|]. rewrite V1 in V. apply frep_mk; auto.
      pose proof (Z.mod_pos_bound (s' a * s' a) p ltac:(lia)). assert ((s' a * s' a) mod p <> 0) by tauto. lia.
  - destruct (faster_invert_spec _ (s a) _ (s' a) (HR c) (HR a) HA) as [v [y [-> [R1 E]]]].
    eexists; split; [reflexivity|]. replace r with y; auto.
    apply inv_unique with p (s' a); auto. eapply frep_residue; eauto.
  - destruct HA as [HA1 HA2]. destruct (faster_set_mpz_spec _ _ n faster_init_rep HA1) as [e [-> He]]. cbn [bind].
    eexists; split; [reflexivity|].
    assert (EE : (s' a * (n mod p)) mod p = (n * s' a) mod p)
      by (rewrite Z.mul_mod_idemp_r by lia; f_equal; ring).
    rewrite <- EE. eapply faster_mul_spec; eauto.
    rewrite EE. intros E0. destruct (HA2 E0) as [->|]; auto.
  - unfold faster_mul_si. destruct HA as [HL [HA HA2]]. unfold long_range in HL.
    rewrite (frep_zero _ _ (HR a)). destruct (s' a =? 0) eqn:E.
    { apply Z.eqb_eq in E. rewrite E, Z.mul_0_r, Z.mod_0_l by lia. simpl.
      eexists; split; [reflexivity|]. eapply frep_clear; apply HR. }
    destruct (n =? 0) eqn:E0.
    { apply Z.eqb_eq in E0. subst. rewrite Z.mul_0_l, Z.mod_0_l by lia. simpl.
      eexists; split; [reflexivity|]. eapply frep_clear; apply HR. }
    apply Z.eqb_neq in E, E0. cbn [orb].
    replace (n =? LONG_MIN) with false by (symmetry; apply Z.eqb_neq; unfold LONG_MIN; lia).
    pose proof (fast_mul_si_limbs f HF (d (s a)) n (frep_d_wf _ _ (HR a))) as M.
    destruct (mpn_mul_1 (d (s a)) t (Z.abs n)) as [lo hi].
    destruct M as [W V]; [unfold LONG_MIN; change (B / 2) with (2 ^ 63); lia|].
    destruct (frep_nonzero _ _ (HR a) E) as [_ [_ [V1 R1]]]. rewrite V1 in V.
    assert (NZ : 0 < (s' a * Z.abs n) mod p < p).
    { split; [|apply Z.mod_pos_bound; lia].
      pose proof (Z.mod_pos_bound (s' a * Z.abs n) p ltac:(lia)).
      assert ((s' a * Z.abs n) mod p <> 0); [|lia]. intros Z0.
      assert (Z1 : (n * s' a) mod p = 0); [|destruct (HA2 Z1); auto].
      apply Z.mod_divide; [lia|]. apply Z.mod_divide in Z0; [|lia].
      rewrite Z.mul_comm. destruct (Z.abs_spec n) as [[_ En]|[_ En]]; rewrite En in Z0; [exact Z0|].
      rewrite Z.mul_opp_r in Z0. apply Z.divide_opp_r in Z0. rewrite Z.opp_involutive in Z0. exact Z0. }
    eexists; split; [reflexivity|]. destruct (n <? 0) eqn:E1.
    + apply Z.ltb_lt in E1.
      replace ((n * s' a) mod p) with ((- ((s' a * Z.abs n) mod p)) mod p).
      * eapply faster_neg_spec; apply frep_mk; eauto.
      * rewrite <- (Z.sub_0_l (_ mod p)), Zminus_mod_idemp_r, Z.abs_neq by lia. f_equal. ring.
    + apply Z.ltb_ge in E1. rewrite Z.abs_eq in * by lia. rewrite (Z.mul_comm n).
      apply frep_mk; auto.
  - unfold faster_pow_mpz. rewrite (frep_zero _ _ (HR a)). destruct HA as [HA1 [HA2 HA3]].
    destruct (s' a =? 0) eqn:E.
    + apply Z.eqb_eq in E. specialize (HA2 E). rewrite E, Z.pow_0_l, Z.mod_0_l by lia.
      eexists; split; [reflexivity|]. eapply frep_clear; apply HR.
    + apply Z.eqb_neq in E. unfold faster_to_mpz. destruct (frep_nonzero _ _ (HR a) E) as [-> [_ [-> R1]]].
      rewrite mpz_powm_spec by lia. cbn [of_option bind].
      destruct (faster_export (s' a ^ n mod p)) as [l [-> L]].
      { pose proof (Z.mod_pos_bound (s' a ^ n) p ltac:(lia)). assert (s' a ^ n mod p <> 0) by tauto. lia. }
      cbn [bind]. eauto.
  - unfold faster_from_bytes. rewrite be_value_import in *. unfold residue in Hres.
    destruct (import_be data =? 0) eqn:E.
    + apply Z.eqb_eq in E. rewrite E. eexists; split; [reflexivity|]. eapply frep_clear; apply HR.
    + apply Z.eqb_neq in E. destruct (faster_export (import_be data)) as [l [-> L]]; [lia|]. cbn [bind]. eauto.
  - unfold faster_from_hash. rewrite (hash_result p Hp Hodd data r) by tauto. cbn [bind].
    unfold residue in Hres.
    destruct (faster_set_mpz_spec (s c) (s' c) r (HR c)) as [l [-> L]].
    { rewrite Z.mod_small; auto. }
    rewrite Z.mod_small in L by auto. eauto.
Qed.

Lemma faster_sound_qry : sound_qry (faster_be f junk) p (faster_rep f).
Proof.
  pose proof (p_ge3 p Hp Hodd) as P3.
  intros q s s' HR HA.
  assert (HR2 : forall i, 0 <= s' i < p) by (intro i; eapply frep_residue; apply HR).
  assert (TM : forall i, faster_to_mpz (s i) = s' i).
  { intros i. unfold faster_to_mpz. rewrite (frep_zero _ _ (HR i)). destruct (s' i =? 0) eqn:E.
    - apply Z.eqb_eq in E. auto.
    - apply Z.eqb_neq in E. apply (frep_nonzero _ _ (HR i) E). }
  destruct q; simpl in *.
  - rewrite TM. reflexivity.
  - unfold faster_is0. rewrite (frep_zero _ _ (HR a)). reflexivity.
  - unfold faster_is1. rewrite (frep_zero _ _ (HR a)). destruct (s' a =? 0) eqn:E.
    + apply Z.eqb_eq in E. rewrite E. reflexivity.
    + apply Z.eqb_neq in E. rewrite (is1_spec f HF) by (eapply frep_d_wf; apply HR).
      destruct (frep_nonzero _ _ (HR a) E) as [_ [_ [-> _]]]. reflexivity.
  - unfold faster_cmp. rewrite (frep_zero _ _ (HR a)). destruct (s' a =? 0) eqn:E.
    + apply Z.eqb_eq in E. rewrite E. destruct (HR b) as [_ [[-> ->]|[-> [_ H]]]]; auto.
      f_equal. f_equal. symmetry. apply Z.eqb_neq. lia.
    + apply Z.eqb_neq in E. specialize (HA E).
      destruct (frep_nonzero _ _ (HR a) E) as [_ [_ [V1 _]]].
      destruct (frep_nonzero _ _ (HR b) HA) as [_ [_ [V2 _]]].
      unfold mpn_cmp. rewrite sgn_eq0, V1, V2, eqb_sub. reflexivity.
  - unfold faster_sign, mpz_odd_p. rewrite Hodd. unfold faster_sgn_odd.
    rewrite (frep_zero _ _ (HR a)). destruct (s' a =? 0) eqn:E; auto.
    apply Z.eqb_neq in E. destruct (first_limb_odd f HF (d (s a))) as [a0 [l [_ [-> Ho]]]].
    { eapply frep_d_wf; apply HR. }
    cbn [bind]. destruct (frep_nonzero _ _ (HR a) E) as [_ [_ [V1 _]]]. rewrite Ho, V1. reflexivity.
  - unfold faster_is_sqr. rewrite (frep_zero _ _ (HR a)), TM. reflexivity.
  - unfold faster_to_bytes. rewrite (frep_zero _ _ (HR a)), TM.
    rewrite to_bytes_spec by auto. destruct (s' a =? 0) eqn:E; auto.
    apply Z.eqb_eq in E. rewrite E.
    pose proof (to_bytes_spec p 0 ltac:(lia)) as T. unfold pbc_mpz_out_raw_n in T. simpl in T.
    rewrite <- byte_length_fixed in T |- * by lia. rewrite T. reflexivity.
Qed.
End Faster.
