(** montfp.c implements residue arithmetic (odd modulus whose top limb is not
    2^64 - 1). *)
From Coq Require Import ZArith Znumtheory Zpow_facts List Bool Lia.
From Verif.Base Require Import Outcome Gmp Array.
From Verif.Model Require Import FieldInt NaiveFp FastFp FasterFp MontFp FpMachine.
From Verif.Spec Require Import PrimeField.
From Verif.Proofs Require Import GmpFacts ArrayFacts LimbFacts BytesFacts ModFacts MontMulFacts FpBackends.
Import ListNotations.
Open Scope Z_scope.

Lemma base_ok : forall f, mont_ok f -> fpdata_ok (base f).
Proof. intros f H. constructor; apply H. Qed.

(** field_init_mont_fp succeeds on every odd modulus > 1. *)
Lemma mont_field_init_ok : forall p, 1 < p -> Z.odd p = true ->
  exists f, mont_field_init p = Ok f /\ mont_ok f /\ order (base f) = p /\ base f = fpdata_init p.
Proof.
  intros p Hp Ho. destruct (mpz_size_ok p Hp) as [Ht Hlt].
  pose proof (fpdata_init_ok p Hp) as FO.
  unfold mont_field_init. cbn [fpdata_init nlimbs]. set (t := mpz_size p) in *.
  pose proof (Bpow_pos t). unfold mpz_mod.
  pose proof (Z.mod_pos_bound (Bpow t) p ltac:(lia)) as R1.
  pose proof (export_small (fpdata_init p) FO (Bpow t mod p) R1) as X1. cbn [nlimbs fpdata_init] in X1. fold t in X1.
  rewrite X1. cbn [bind]. rewrite mpz_powm_spec by lia. cbn [of_option bind].
  pose proof (Z.mod_pos_bound ((Bpow t mod p) ^ 3) p ltac:(lia)) as R2.
  pose proof (export_small (fpdata_init p) FO ((Bpow t mod p) ^ 3 mod p) R2) as X2. cbn [nlimbs fpdata_init] in X2. fold t in X2.
  rewrite X2. cbn [bind].
  assert (exists z, mpz_invert p (Bpow t) = Some z) as [z Hz].
  { rewrite Bpow_pow2. replace (64 * Z.of_nat t) with (Z.of_nat (S (64 * t - 1))) by lia.
    apply mpz_invert_odd; auto. }
  rewrite Hz. cbn [of_option bind]. eexists. split; [reflexivity|].
  apply mpz_invert_some in Hz; [|lia]. destruct Hz as [Rz Ez].
  assert (HB : exists b, Bpow t = B * b).
  { destruct t as [|t']; [lia|]. rewrite Bpow_S. eauto. }
  destruct HB as [b Hb]. pose proof B_pos as PB.
  set (z0 := z mod B). pose proof (Z.mod_pos_bound z B PB) as Rz0. fold z0 in Rz0.
  assert (K : exists k, z0 * p = 1 + k * B).
  { pose proof (Z.div_mod (p * z) (Bpow t) ltac:(lia)) as D. rewrite Ez, Hb in D.
    pose proof (Z.div_mod z B ltac:(lia)) as D2. fold z0 in D2.
    exists (b * (p * z / (B * b)) - p * (z / B)).
    assert (p * z = B * b * (p * z / (B * b)) + 1) by lia.
    replace z0 with (z - B * (z / B)) by lia. lia. }
  destruct K as [k Hk].
  assert (z0 <> 0) by (intros ->; assert (k * B = -1) by lia; assert (k = -1 \/ k < -1 \/ 0 <= k) by lia; pose proof B_gt1; nia).
  assert (N : wrap (B - 1 - wrap (z0 - 1)) = B - z0).
  { unfold wrap. rewrite (Z.mod_small (z0 - 1)) by lia. rewrite Z.mod_small by lia. lia. }
  split; [|split; reflexivity].
  constructor; cbn [base negpinv Rm R3m fpdata_init order nlimbs primelimbs]; fold t; auto; fold z0; rewrite ?N.
  - exists (p - k). lia.
  - lia.
Qed.

Definition mont_rep (f : montdata) (a : flagged) (x : Z) : Prop :=
  faster_rep (base f) a ((x * Bpow (nlimbs (base f))) mod order (base f)) /\ residue (order (base f)) x.

Section Mont.
Variable f : montdata.
Variable junk : nat -> list Z.
Hypothesis HM : mont_ok f.
Hypothesis HT : top_ok f.
Hypothesis HJ : forall n, wf n (junk n).
Notation p := (order (base f)).
Notation t := (nlimbs (base f)).
Notation R := (Bpow (nlimbs (base f))).
Let HF : fpdata_ok (base f) := base_ok f HM.

Lemma R_coprime : Z.gcd R p = 1.
Proof.
  rewrite Bpow_pow2. apply Zgcd_1_rel_prime. apply rel_prime_sym. apply rel_prime_Zpower_r; [lia|].
  apply rel_prime_sym. apply Zgcd_1_rel_prime. apply odd_gcd2. apply HM.
Qed.

Lemma pgt1 : 1 < p. Proof. apply HM. Qed.

Lemma HJl : forall n, length (junk n) = n.
Proof. intros n. apply HJ. Qed.

(** Montgomery images determine residues. *)
Lemma R_cancel : forall x y, 0 <= x < p -> 0 <= y < p -> (x * R) mod p = (y * R) mod p -> x = y.
Proof. intros. pose proof pgt1. apply cancel_mod with p R; auto; [lia | apply R_coprime]. Qed.

Lemma Rimg_zero : forall x, 0 <= x < p -> ((x * R) mod p =? 0) = (x =? 0).
Proof.
  intros x Hx. pose proof pgt1. destruct (Z.eqb_spec x 0).
  - subst. rewrite Z.mul_0_l, Z.mod_0_l by lia. reflexivity.
  - apply Z.eqb_neq. intros E. apply n. apply R_cancel; [auto|lia|].
    rewrite E, Z.mul_0_l, Z.mod_0_l by lia. reflexivity.
Qed.

Lemma Rimg_pos : forall x, 0 < x < p -> 0 < (x * R) mod p < p.
Proof.
  intros x Hx. pose proof (Z.mod_pos_bound (x * R) p ltac:(lia)).
  pose proof (Rimg_zero x ltac:(lia)) as E.
  destruct (Z.eqb_spec ((x * R) mod p) 0); [symmetry in E; apply Z.eqb_eq in E|]; lia.
Qed.

Lemma mrep_zero : forall a x, mont_rep f a x -> is_zero_flag a = (x =? 0).
Proof. intros a x [H Hr]. rewrite (frep_zero _ a _ H). apply Rimg_zero. exact Hr. Qed.

Lemma mrep_nonzero : forall a x, mont_rep f a x -> x <> 0 ->
  is_zero_flag a = false /\ flag a = 2 /\ val (d a) = (x * R) mod p /\ 0 < val (d a) < p /\ wf t (d a).
Proof.
  intros a x [H Hr] Hx. unfold residue in Hr.
  pose proof (Rimg_pos x ltac:(lia)).
  destruct (frep_nonzero _ a _ H) as [A [B0 [C D]]]; [lia|].
  repeat split; auto; try lia; eapply frep_d_wf; eauto.
Qed.

Lemma mrep_mk : forall l x, wf t l -> val l = (x * R) mod p -> 0 < x < p ->
  mont_rep f {| flag := 2; d := l |} x.
Proof.
  intros l x W V Hx. split; [|unfold residue; lia].
  apply frep_mk; auto. apply Rimg_pos; auto.
Qed.

Lemma mrep_clear : forall c x, mont_rep f c x -> mont_rep f (clear_flag c) 0.
Proof.
  intros c x [H _]. pose proof pgt1. split; [|unfold residue; lia].
  rewrite Z.mul_0_l, Z.mod_0_l by lia. eapply frep_clear; eauto.
Qed.

Lemma mrep_init : mont_rep f (mont_init f junk) 0.
Proof.
  pose proof pgt1. split; [|unfold residue; lia]. rewrite Z.mul_0_l, Z.mod_0_l by lia.
  split; [apply HJ | left; auto].
Qed.

(** linear operations *)
Lemma lift_mod : forall x, ((x mod p) * R) mod p = (x * R) mod p.
Proof. intros. pose proof pgt1. apply Z.mul_mod_idemp_l. lia. Qed.

Lemma mont_add_spec : forall c a b xc x y, mont_rep f c xc -> mont_rep f a x -> mont_rep f b y ->
  mont_rep f (mont_add f c a b) ((x + y) mod p).
Proof.
  intros c a b xc x y [Hc _] [Ha Rx] [Hb Ry]. pose proof pgt1.
  split; [|apply Z.mod_pos_bound; lia]. rewrite lift_mod.
  pose proof (faster_add_spec (base f) HF c a b _ _ _ Hc Ha Hb) as A.
  rewrite <- Z.add_mod, <- Z.mul_add_distr_r in A by lia. exact A.
Qed.

Lemma mont_sub_spec : forall c a b xc x y, mont_rep f c xc -> mont_rep f a x -> mont_rep f b y ->
  mont_rep f (mont_sub f c a b) ((x - y) mod p).
Proof.
  intros c a b xc x y [Hc _] [Ha Rx] [Hb Ry]. pose proof pgt1.
  split; [|apply Z.mod_pos_bound; lia]. rewrite lift_mod.
  pose proof (faster_sub_spec (base f) HF c a b _ _ _ Hc Ha Hb) as A.
  rewrite <- Zminus_mod, <- Z.mul_sub_distr_r in A by lia. exact A.
Qed.

Lemma mont_neg_spec : forall c a xc x, mont_rep f c xc -> mont_rep f a x ->
  mont_rep f (mont_neg f c a) ((- x) mod p).
Proof.
  intros c a xc x [Hc _] [Ha Rx]. pose proof pgt1.
  split; [|apply Z.mod_pos_bound; lia]. rewrite lift_mod.
  pose proof (faster_neg_spec (base f) HF c a _ _ Hc Ha) as A.
  rewrite <- (Z.sub_0_l (_ mod p)), Zminus_mod_idemp_r, Z.sub_0_l, <- Z.mul_opp_l in A. exact A.
Qed.

Lemma mont_double_spec : forall c a xc x, mont_rep f c xc -> mont_rep f a x ->
  mont_rep f (mont_double f c a) ((2 * x) mod p).
Proof.
  intros c a xc x [Hc _] [Ha Rx]. pose proof pgt1.
  split; [|apply Z.mod_pos_bound; lia]. rewrite lift_mod.
  pose proof (faster_double_spec (base f) HF c a _ _ Hc Ha) as A.
  rewrite Z.mul_mod_idemp_r, Z.mul_assoc in A by lia. exact A.
Qed.

Lemma mont_set_spec : forall c a xc x, mont_rep f c xc -> mont_rep f a x -> mont_rep f (mont_set c a) x.
Proof.
  intros c a xc x [Hc _] [Ha Rx]. split; auto. eapply frep_set; eauto.
Qed.

Lemma half_exists : forall x, 0 <= x < p -> exists h, 0 <= h < p /\ (2 * h) mod p = x.
Proof.
  intros x Hx. exists (zp_halve p x). apply zp_halve_spec; auto; [apply pgt1 | apply HM].
Qed.

Lemma mont_halve_spec : forall c a xc x, mont_rep f c xc -> mont_rep f a x -> xc <> 0 \/ x = 0 ->
  exists r y, mont_halve f c a = Ok r /\ mont_rep f r y /\ (2 * y) mod p = x.
Proof.
  intros c a xc x [Hc Rc] [Ha Rx] Hpre. pose proof pgt1. unfold residue in *.
  destruct (faster_halve_spec (base f) HF c a _ _ (mo_odd _ HM) Hc Ha) as [r [y [E [Hr Hy]]]].
  { destruct Hpre as [Hpre| ->]; [left|right].
    - pose proof (Rimg_zero xc Rc) as Z0. intros E. rewrite E in Z0. symmetry in Z0. apply Z.eqb_eq in Z0. auto.
    - rewrite Z.mul_0_l. apply Z.mod_0_l. lia. }
  destruct (half_exists x Rx) as [h [Hh1 Hh2]].
  exists r, h. split; [exact E|]. split; [|exact Hh2]. split; auto.
  replace ((h * R) mod p) with y; auto.
  apply cancel_mod with p 2; try lia; [apply odd_gcd2; apply HM | eapply frep_residue; eauto | apply Z.mod_pos_bound; lia |].
  rewrite Z.mul_mod_idemp_l by lia. replace (h * R * 2) with ((2 * h) * R) by ring.
  rewrite <- (Z.mul_mod_idemp_l (2 * h)), Hh2 by lia. rewrite Z.mul_comm. exact Hy.
Qed.

(** multiplication; the product of two non-zero residues must be non-zero *)
Lemma mont_mul_elt_spec : forall c a b xc x y, mont_rep f c xc -> mont_rep f a x -> mont_rep f b y ->
  ((x * y) mod p = 0 -> x = 0 \/ y = 0) ->
  exists r, mont_mul_elt f junk c a b = Ok r /\ mont_rep f r ((x * y) mod p).
Proof.
  intros c a b xc x y Hc Ha Hb Hnz. pose proof pgt1. unfold mont_mul_elt.
  rewrite (mrep_zero a x Ha), (mrep_zero b y Hb).
  destruct (x =? 0) eqn:E; [apply Z.eqb_eq in E; subst; rewrite Z.mod_0_l by lia; eexists; split; [reflexivity|]; eapply mrep_clear; eauto|].
  destruct (y =? 0) eqn:E2; [apply Z.eqb_eq in E2; subst; rewrite Z.mul_0_r, Z.mod_0_l by lia; eexists; split; [reflexivity|]; eapply mrep_clear; eauto|].
  apply Z.eqb_neq in E, E2. cbn [orb].
  destruct (mrep_nonzero a x Ha E) as [_ [_ [V1 [R1 W1]]]].
  destruct (mrep_nonzero b y Hb E2) as [_ [_ [V2 [R2 W2]]]].
  destruct (mont_mul_spec f junk HM (d a) (d b) HT HJl W1 W2 ltac:(lia)) as [r [-> [W [Rr [k Hk]]]]].
  cbn [bind]. eexists; split; [reflexivity|].
  pose proof (Z.mod_pos_bound (x * y) p ltac:(lia)).
  apply mrep_mk; auto; [|assert ((x * y) mod p <> 0) by tauto; lia].
  rewrite lift_mod. apply R_cancel; [auto | apply Z.mod_pos_bound; lia |].
  rewrite Z.mul_mod_idemp_l by lia.
  rewrite V1, V2 in Hk. rewrite Z.mul_comm.
  rewrite (cong_mod_eq p _ _ k Hk). rewrite <- Z.mul_mod by lia. f_equal. ring.
Qed.

Lemma val_app0 : forall a n, val (a ++ repeat 0 n) = val a.
Proof. intros. rewrite val_app, val_repeat0. lia. Qed.

Lemma mont_to_mpz_spec : forall a x, mont_rep f a x -> mont_to_mpz f a = Ok x.
Proof.
  intros a x Ha. unfold mont_to_mpz. rewrite (mrep_zero a x Ha).
  pose proof pgt1. pose proof (proj2 Ha) as Rx. unfold residue in Rx.
  destruct (x =? 0) eqn:E.
  - apply Z.eqb_eq in E. subst. reflexivity.
  - apply Z.eqb_neq in E. destruct (mrep_nonzero a x Ha E) as [_ [_ [V [R1 W]]]].
    replace (d a) with ([] ++ d a ++ []) at 1 by (simpl; apply app_nil_r).
    rewrite slice_app by (auto; destruct W; auto). cbn [bind].
    destruct (mont_reduce_spec f HM (d a ++ repeat 0 t)) as [r [-> [Wr [Rr [k Hk]]]]].
    { rewrite app_length, repeat_length. destruct W as [-> _]. lia. }
    { apply Forall_app; split; [apply W | apply (wf_repeat0 t)]. }
    { rewrite val_app0. apply val_range; auto. }
    cbn [bind]. rewrite val_app0, V in Hk.
    assert (Ev : val r = x).
    { apply R_cancel; auto. rewrite Z.mul_comm, (cong_mod_eq p _ _ k Hk).
      rewrite Z.mod_mod by lia. reflexivity. }
    rewrite Ev. replace (x =? 0) with false by (symmetry; apply Z.eqb_neq; lia). reflexivity.
Qed.

Lemma mont_export : forall x, 0 < x < p ->
  exists l, export_limbs t ((x * R) mod p) = Ok l /\ mont_rep f {| flag := 2; d := l |} x.
Proof.
  intros x Hx. pose proof (Rimg_pos x Hx). rewrite (export_small (base f) HF) by lia.
  eexists; split; [reflexivity|].
  destruct (limbs_small_spec (base f) HF ((x * R) mod p)); [lia|]. apply mrep_mk; auto.
Qed.

Lemma mont_set_mpz_spec : forall c xc z, mont_rep f c xc ->
  exists r, mont_set_mpz f c z = Ok r /\ mont_rep f r (z mod p).
Proof.
  intros c xc z Hc. unfold mont_set_mpz, to_mont, mpz_mod. pose proof pgt1.
  pose proof (Z.mod_pos_bound z p ltac:(lia)).
  destruct (z =? 0) eqn:E.
  - apply Z.eqb_eq in E; subst. rewrite Z.mod_0_l by lia. eexists; split; [reflexivity|]. eapply mrep_clear; eauto.
  - rewrite <- lift_mod. rewrite Rimg_zero by auto. destruct (z mod p =? 0) eqn:E2.
    + apply Z.eqb_eq in E2. rewrite E2. eexists; split; [reflexivity|]. eapply mrep_clear; eauto.
    + apply Z.eqb_neq in E2. destruct (mont_export (z mod p)) as [l [-> L]]; [lia|]. cbn [bind]. eauto.
Qed.

Lemma mont_set1_spec : forall c, mont_rep f (mont_set1 f c) 1.
Proof.
  intros c. unfold mont_set1. pose proof pgt1. rewrite (mo_R _ HM).
  pose proof (Z.mod_pos_bound R p ltac:(lia)).
  destruct (limbs_small_spec (base f) HF (R mod p)); auto.
  apply mrep_mk; [auto | rewrite Z.mul_1_l; auto | lia].
Qed.

Lemma mont_is1_spec : forall a x, mont_rep f a x -> mont_is1 f a = (x =? 1).
Proof.
  intros a x Ha. unfold mont_is1. rewrite (mrep_zero a x Ha). pose proof pgt1.
  pose proof (proj2 Ha) as Rx. unfold residue in Rx. destruct (x =? 0) eqn:E.
  - apply Z.eqb_eq in E; subst. reflexivity.
  - apply Z.eqb_neq in E. destruct (mrep_nonzero a x Ha E) as [_ [_ [V [R1 W]]]].
    unfold mpn_cmp. rewrite sgn_eq0, eqb_sub, V, (mo_R _ HM).
    pose proof (Z.mod_pos_bound R p ltac:(lia)).
    destruct (limbs_small_spec (base f) HF (R mod p)) as [_ ->]; auto.
    destruct (Z.eqb_spec x 1).
    + subst. rewrite Z.mul_1_l. apply Z.eqb_refl.
    + apply Z.eqb_neq. intros E2. apply n. apply R_cancel; auto; [lia|]. rewrite Z.mul_1_l. auto.
Qed.

Lemma mont_invert_spec : forall c a xc x, mont_rep f c xc -> mont_rep f a x -> Z.gcd x p = 1 ->
  exists r y, mont_invert f junk c a = Ok r /\ mont_rep f r y /\ (y * x) mod p = 1.
Proof.
  intros c a xc x Hc Ha Hg. pose proof pgt1. pose proof (proj2 Ha) as Rx. unfold residue in Rx.
  assert (Hx : x <> 0) by (intros ->; rewrite Z.gcd_0_l, Z.abs_eq in Hg; lia).
  destruct (mrep_nonzero a x Ha Hx) as [_ [_ [V [R1 W]]]].
  unfold mont_invert.
  assert (Gv : Z.gcd (val (d a)) p = 1).
  { rewrite V. rewrite Z.gcd_mod by lia. apply Zgcd_1_rel_prime.
    apply rel_prime_mult; apply rel_prime_sym, Zgcd_1_rel_prime; [exact Hg | apply R_coprime]. }
  destruct (mpz_invert_exists (val (d a)) p ltac:(lia) Gv) as [i Hi]. rewrite Hi. cbn [of_option bind].
  apply mpz_invert_some in Hi; [|lia]. destruct Hi as [Ri Ei].
  rewrite (export_small (base f) HF) by auto. cbn [bind].
  destruct (limbs_small_spec (base f) HF i Ri) as [Wi Vi].
  pose proof (Z.mod_pos_bound ((R mod p) ^ 3) p ltac:(lia)) as R3.
  destruct (limbs_small_spec (base f) HF ((R mod p) ^ 3 mod p) R3) as [W3 V3].
  rewrite (mo_R3 _ HM).
  destruct (mont_mul_spec f junk HM (limbs t i) (limbs t ((R mod p) ^ 3 mod p)) HT HJl Wi W3 ltac:(lia))
    as [r [-> [Wr [Rr [k Hk]]]]].
  cbn [bind]. rewrite Vi, V3 in Hk.
  destruct (mpz_invert_exists x p ltac:(lia) Hg) as [y Hy].
  apply mpz_invert_some in Hy; [|lia]. destruct Hy as [Ry Ey].
  eexists; exists y. split; [reflexivity|].
  assert (Ey' : (y * x) mod p = 1) by (rewrite Z.mul_comm; auto).
  split; auto.
  assert (y <> 0) by (intros ->; rewrite Z.mul_0_l, Z.mod_0_l in Ey'; lia).
  apply mrep_mk; auto; [|lia].
  (* val r = y R mod p: multiply both by x R^2 *)
  apply cancel_mod with p (x * R * R); try lia; [| apply Z.mod_pos_bound; lia |].
  { apply Zgcd_1_rel_prime. apply rel_prime_sym.
    repeat apply rel_prime_mult; apply rel_prime_sym, Zgcd_1_rel_prime; try apply R_coprime; exact Hg. }
  rewrite Z.mul_mod_idemp_l by lia.
  assert (E3 : (R mod p) ^ 3 mod p = R ^ 3 mod p) by (apply pow_mod; lia).
  rewrite E3 in Hk.
  assert (A1 : (val r * (x * R * R)) mod p = ((i * (x * R)) * R ^ 3) mod p).
  { replace (val r * (x * R * R)) with ((R * val r) * (x * R)) by ring. rewrite Hk.
    replace ((i * (R ^ 3 mod p) + k * p) * (x * R)) with (i * (x * R) * (R ^ 3 mod p) + (k * (x * R)) * p) by ring.
    rewrite Z.mod_add, Z.mul_mod_idemp_r by lia. reflexivity. }
  assert (A2 : (i * (x * R)) mod p = 1).
  { rewrite <- Z.mul_mod_idemp_r, <- V by lia. rewrite Z.mul_comm. exact Ei. }
  rewrite A1, <- Z.mul_mod_idemp_l, A2, Z.mul_1_l by lia.
  replace (y * R * (x * R * R)) with ((y * x) * R ^ 3) by ring.
  rewrite <- (Z.mul_mod_idemp_l (y * x)), Ey', Z.mul_1_l by lia. reflexivity.
Qed.

Lemma mont_from_bytes_spec : forall c xc l, mont_rep f c xc -> Forall is_byte l ->
  (import_be l mod p = 0 -> import_be l = 0) ->
  exists r, mont_from_bytes f c l = Ok r /\ mont_rep f r (import_be l mod p).
Proof.
  intros c xc l Hc Hl Hz. unfold mont_from_bytes, to_mont, mpz_mod. pose proof pgt1.
  destruct (import_be l =? 0) eqn:E.
  - apply Z.eqb_eq in E. rewrite E, Z.mod_0_l by lia. eexists; split; [reflexivity|]. eapply mrep_clear; eauto.
  - apply Z.eqb_neq in E. pose proof (Z.mod_pos_bound (import_be l) p ltac:(lia)).
    rewrite <- lift_mod. destruct (mont_export (import_be l mod p)) as [r [-> L]].
    { assert (import_be l mod p <> 0) by tauto. lia. }
    cbn [bind]. eauto.
Qed.

Section Sound.
Let Hp : 1 < p := pgt1.
Let Hodd : Z.odd p = true := mo_odd _ HM.

Lemma mont_sound_asg : sound_asg (mont_be f junk) p (allowed_mont p) (mont_rep f).
Proof.
  pose proof (p_ge3 p Hp Hodd) as P3.
  intros o s s' r HR HA [Hres HS].
  assert (HR2 : forall i, 0 <= s' i < p) by (intro i; apply HR).
  destruct o; simpl in *; subst.
  - eexists; split; [reflexivity|]. eapply mrep_clear; apply HR.
  - eexists; split; [reflexivity|]. apply mont_set1_spec.
  - unfold mont_set_si. apply (mont_set_mpz_spec (s c) (s' c)). apply HR.
  - apply (mont_set_mpz_spec (s c) (s' c)). apply HR.
  - eexists; split; [reflexivity|]. eapply mont_set_spec; apply HR.
  - eexists; split; [reflexivity|]. eapply mont_add_spec; apply HR.
  - eexists; split; [reflexivity|]. eapply mont_sub_spec; apply HR.
  - eapply mont_mul_elt_spec; try apply HR. auto.
  - unfold b_div; simpl.
    assert (G : Z.gcd (s' b) p = 1) by (exact HA).
    assert (DD : forall x, (x * s' b) mod p = 1 -> 0 <= x < p -> (x * s' a) mod p = r).
    { intros x Hx1 Hx. apply div_unique with p (s' a) (s' b); auto; try (apply Z.mod_pos_bound; lia).
      rewrite Z.mul_mod_idemp_l by lia. replace (x * s' a * s' b) with (s' a * (x * s' b)) by ring.
      rewrite <- Z.mul_mod_idemp_r, Hx1, Z.mul_1_r by lia. apply Z.mod_small. auto. }
    destruct (Nat.eqb c a).
    + destruct (mont_invert_spec _ (s b) _ (s' b) mrep_init (HR b) G) as [v [y [-> [R1 E]]]].
      cbn [bind]. rewrite <- (DD y E (proj2 R1)).
      eapply mont_mul_elt_spec; eauto. intros E0. right. eapply unit_nz; eauto.
    + destruct (mont_invert_spec _ (s b) _ (s' b) (HR c) (HR b) G) as [v [y [-> [R1 E]]]].
      cbn [bind]. rewrite <- (DD y E (proj2 R1)).
      eapply mont_mul_elt_spec; eauto. intros E0. right. eapply unit_nz; eauto.
  - eexists; split; [reflexivity|]. rewrite (neg_unique p Hp Hodd (s' a) r); auto.
    eapply mont_neg_spec; apply HR.
  - eexists; split; [reflexivity|]. eapply mont_double_spec; apply HR.
  - destruct (mont_halve_spec (s c) (s a) (s' c) (s' a)) as [v [y [-> [R1 E]]]]; auto.
    { destruct HA as [HA|[->|HA]]; auto. destruct (Z.eq_dec (s' a) 0); auto. }
    eexists; split; [reflexivity|]. replace r with y; auto.
    apply halve_unique with p (s' a); auto. apply R1.
  - unfold mont_square. eapply mont_mul_elt_spec; try apply HR. auto.
  - assert (G : Z.gcd (s' a) p = 1) by (exact HA).
    destruct (mont_invert_spec _ (s a) _ (s' a) (HR c) (HR a) G) as [v [y [-> [R1 E]]]].
    eexists; split; [reflexivity|]. replace r with y; auto.
    apply inv_unique with p (s' a); auto. apply R1.
  - unfold mont_mul_mpz. destruct (mont_set_mpz_spec _ _ n mrep_init) as [e [-> He]]. cbn [bind].
    assert (EE : (s' a * (n mod p)) mod p = (n * s' a) mod p)
      by (rewrite Z.mul_mod_idemp_r by lia; f_equal; ring).
    rewrite <- EE. eapply mont_mul_elt_spec; eauto.
    rewrite EE. intros E0. destruct (HA E0); auto.
  - unfold mont_mul_si, mont_set_si. destruct (mont_set_mpz_spec _ _ n mrep_init) as [e [-> He]]. cbn [bind].
    assert (EE : (s' a * (n mod p)) mod p = (n * s' a) mod p)
      by (rewrite Z.mul_mod_idemp_r by lia; f_equal; ring).
    rewrite <- EE. eapply mont_mul_elt_spec; eauto.
    rewrite EE. intros E0. destruct (HA E0); auto.
  - unfold mont_pow_mpz. rewrite (mrep_zero _ _ (HR a)). destruct HA as [HA1 [HA2 HA3]].
    destruct (s' a =? 0) eqn:E.
    + apply Z.eqb_eq in E. specialize (HA2 E). rewrite E, Z.pow_0_l, Z.mod_0_l by lia.
      eexists; split; [reflexivity|]. eapply mrep_clear; apply HR.
    + apply Z.eqb_neq in E. rewrite (mont_to_mpz_spec _ _ (HR a)). cbn [bind].
      rewrite mpz_powm_spec by lia. cbn [of_option bind]. unfold to_mont, mpz_mod.
      destruct (mont_export (s' a ^ n mod p)) as [l [-> L]].
      { pose proof (Z.mod_pos_bound (s' a ^ n) p ltac:(lia)). assert (s' a ^ n mod p <> 0) by tauto. lia. }
      cbn [bind]. eauto.
  - rewrite be_value_import in *. unfold residue in Hres.
    destruct (mont_from_bytes_spec (s c) (s' c) data (HR c)) as [v [-> L]]; [apply HA| |].
    { rewrite Z.mod_small by lia. auto. }
    rewrite Z.mod_small in L by lia. eauto.
  - unfold mont_from_hash. rewrite (hash_result p Hp Hodd data r) by tauto. cbn [bind].
    destruct (mont_set_mpz_spec (s c) (s' c) r (HR c)) as [l [-> L]].
    rewrite Z.mod_small in L by auto. eauto.
Qed.

Lemma mont_sound_qry : sound_qry (mont_be f junk) p (mont_rep f).
Proof.
  pose proof (p_ge3 p Hp Hodd) as P3.
  intros q s s' HR HA.
  assert (HR2 : forall i, 0 <= s' i < p) by (intro i; apply HR).
  destruct q; simpl in *.
  - rewrite (mont_to_mpz_spec _ _ (HR a)). reflexivity.
  - unfold mont_is0. rewrite (mrep_zero _ _ (HR a)). reflexivity.
  - rewrite (mont_is1_spec _ _ (HR a)). reflexivity.
  - unfold mont_cmp. rewrite (mrep_zero _ _ (HR a)). destruct (s' a =? 0) eqn:E.
    + apply Z.eqb_eq in E. rewrite E. pose proof (mrep_zero _ _ (HR b)) as Z0. unfold is_zero_flag in Z0.
      rewrite Z0, Z.eqb_sym. reflexivity.
    + apply Z.eqb_neq in E. specialize (HA E).
      destruct (mrep_nonzero _ _ (HR a) E) as [_ [_ [V1 _]]].
      destruct (mrep_nonzero _ _ (HR b) HA) as [_ [_ [V2 _]]].
      unfold mpn_cmp. rewrite sgn_eq0, V1, V2, eqb_sub. f_equal. f_equal.
      destruct (Z.eqb_spec (s' a) (s' b)) as [->|N]; [apply Z.eqb_refl|].
      apply Z.eqb_neq. intros X. apply N. apply R_cancel; auto.
  - unfold mont_sgn_odd. rewrite (mrep_zero _ _ (HR a)). destruct (s' a =? 0) eqn:E; auto.
    rewrite (mont_to_mpz_spec _ _ (HR a)). reflexivity.
  - unfold mont_is_sqr. rewrite (mrep_zero _ _ (HR a)). destruct (s' a =? 0) eqn:E; auto.
    rewrite (mont_to_mpz_spec _ _ (HR a)). reflexivity.
  - unfold mont_to_bytes. rewrite (mont_to_mpz_spec _ _ (HR a)). cbn [bind].
    rewrite to_bytes_spec by auto. reflexivity.
Qed.
End Sound.
End Mont.
