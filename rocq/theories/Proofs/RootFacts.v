(** Square roots and squareness. *)
From Coq Require Import ZArith Znumtheory List Bool Lia Ring Field.
From Verif.Base Require Import Outcome Gmp Array Algebra.
From Verif.Model Require Import FieldInt FpMachine Tonelli.
From Verif.Spec Require Import PrimeField FiniteField.
From Verif.Proofs Require Import PowFacts FieldFacts ZpField TonelliFacts ModFacts MontBackend FpRuns FpCorollaries FpWitness.
Import ListNotations.
Open Scope Z_scope.

Section FF.
Variable K : fld.
Hypothesis HK : fld_laws K.
Variable q : Z.
Hypothesis Hq : has_order K q.
Add Field Kf2 : (fl_field K HK).

Lemma order_gt_1 : 1 < q.
Proof.
  destruct Hq as (l & N & C & L). pose proof (C f0) as A. pose proof (C f1) as B.
  pose proof (f_1_neq_0 K HK). destruct l as [|x [|y l]]; simpl in *; try lia.
  destruct A as [A|[]], B as [B|[]]. congruence.
Qed.

Lemma fermat_f : forall x : K, x <> f0 -> fpow x (q - 1) = f1.
Proof.
  intros x Hx. destruct Hq as (l & N & C & L). pose proof order_gt_1.
  pose proof (fermat K HK l N C x Hx) as F. unfold fpow, zpow.
  replace (Z.to_nat (q - 1)) with (length l - 1)%nat by lia. exact F.
Qed.

Hypothesis Hodd : Z.odd q = true.

Lemma half_eq : forall l : list K, Z.of_nat (length l) = q ->
  (length l / 2)%nat = Z.to_nat ((q - 1) / 2) /\ length l = (2 * (length l / 2) + 1)%nat.
Proof.
  intros l L. pose proof order_gt_1. pose proof (Z.div_mod q 2 ltac:(lia)) as D. rewrite Zmod_odd, Hodd in D.
  assert (E : (q - 1) / 2 = q / 2) by (symmetry; apply Z.div_unique with 0; lia).
  assert (E2 : (length l / 2)%nat = Z.to_nat (q / 2)).
  { rewrite <- L. change 2 with (Z.of_nat 2). rewrite <- Nat2Z.inj_div, Nat2Z.id. reflexivity. }
  rewrite E, E2. lia.
Qed.

Lemma euler_f : forall x : K, x <> f0 -> (fpow x ((q - 1) / 2) = f1 <-> is_square x).
Proof.
  intros x Hx. destruct Hq as (l & N & C & L). destruct (half_eq l L) as [H1 H2].
  unfold fpow, zpow. rewrite <- H1. split.
  - intros E. exact (euler K HK l N C H2 x Hx E).
  - intros [y Hy]. exact (square_power K HK l N C H2 x y Hx Hy).
Qed.

Lemma nonsquare_f : forall x : K, ~ is_square x -> fpow x ((q - 1) / 2) = fopp f1.
Proof.
  intros x Hn. destruct Hq as (l & N & C & L). destruct (half_eq l L) as [H1 H2].
  assert (Hx : x <> f0). { intros ->. apply Hn. exists f0. ring. }
  unfold fpow, zpow. rewrite <- H1. apply (nonsquare_power K HK l N C H2 x Hx).
  intros y E. apply Hn. exists y. exact E.
Qed.

Lemma tonelli_correct : forall nqr a : K, ~ is_square nqr -> is_square a ->
  exists x, element_tonelli K q nqr a = Ok x /\ fmul x x = a.
Proof.
  intros g a Hg Ha. pose proof order_gt_1.
  assert (G0 : g <> f0). { intros ->. apply Hg. exists f0. ring. }
  destruct (f_eq_dec K HK a f0) as [->|N].
  - destruct (tonelli_zero K HK q g ltac:(lia) G0) as [x [E ->]]. exists f0. split; auto. ring.
  - apply tonelli_spec; auto.
    + apply nonsquare_f; auto.
    + apply euler_f; auto.
Qed.
End FF.

Lemma Zp_order : forall p (Hp : 1 < p), has_order (Zp p Hp) p.
Proof.
  intros p Hp. exists (zp_elems p Hp). split; [apply zp_elems_nodup|]. split; [apply zp_elems_in|].
  rewrite zp_elems_length. lia.
Qed.

(** element_is_sqr in every back-end. *)
Section S.
Variables (o : fp_choice) (p : Z) (junk : nat -> list Z).
Hypothesis Hp : prime p.
Hypothesis Ho : Z.odd p = true.
Hypothesis Hj : any_memory junk.
Hypothesis Ht : o = UseMont -> top_word p < 2 ^ 64 - 1.

Lemma is_sqr_cor : forall x, 0 <= x < p ->
  exists b, option_session o p junk [Asg (ASetMpz 0 x); Qry (QIsSqr 0)] = Ok [VB b] /\
    (b = true <-> exists y, 0 <= y < p /\ (y * y) mod p = x).
Proof.
  intros x Hx. pose proof (p2 p Hp).
  exists (if x =? 0 then true else leg p x =? 1). split.
  - apply any_prime_session; auto.
    apply sr_asg with x; [simpl; intros; apply (small_set p); auto; lia | apply set_assigns; auto |].
    apply (sr_qry p (leg p) (allowed p) (QIsSqr 0)); [exact I|]. apply sr_nil.
  - destruct (Z.eqb_spec x 0) as [->|N].
    + split; auto. intros _. exists 0. split; [lia|]. rewrite Z.mod_0_l; lia.
    + apply euler_Z; auto; lia.
Qed.

Lemma sign_cor : forall x, 0 <= x < p ->
  exists s s', option_session o p junk [Asg (ASetMpz 0 x); Qry (QSign 0); Asg (ANeg 1 0); Qry (QSign 1)] = Ok [VZ s; VZ s'] /\
    (s = 0 <-> x = 0) /\ s' = - s.
Proof.
  intros x Hx. pose proof (p2 p Hp).
  set (y := if x =? 0 then 0 else p - x).
  exists (if x =? 0 then 0 else if Z.odd x then 1 else -1), (if y =? 0 then 0 else if Z.odd y then 1 else -1). split.
  - apply any_prime_session; auto.
    apply sr_asg with x; [simpl; intros; apply (small_set p); auto; lia | apply set_assigns; auto |].
    apply (sr_qry p (leg p) (allowed p) (QSign 0)); [exact I|].
    apply sr_asg with y; [exact I | | ].
    + split; simpl; unfold upd, y, residue; simpl; destruct (Z.eqb_spec x 0); try lia.
      * subst. simpl. apply Z.mod_0_l; lia.
      * replace (p - x + x) with p by lia. apply Z.mod_same; lia.
    + apply (sr_qry p (leg p) (allowed p) (QSign 1)); [exact I|]. apply sr_nil.
  - unfold y. destruct (Z.eqb_spec x 0) as [->|N]; simpl.
    + split; [tauto|reflexivity].
    + replace (p - x =? 0) with false by lia. split.
      * destruct (Z.odd x); split; lia.
      * rewrite Z.odd_sub, Ho. destruct (Z.odd x); reflexivity.
Qed.
End S.

(** A hash can denote the modulus itself. *)
Lemma hash_refuted : exists p l junk,
  prime p /\ Z.odd p = true /\ any_memory junk /\ Forall (fun x => 0 <= x < 256) l /\
  option_session UseNaive p junk [Asg (AFromHash 0 l); Qry (QToMpz 0); Qry (QIs0 0)] = Ok [VZ p; VB false] /\
  option_session UseMont p junk [Asg (AFromHash 0 l); Qry (QToMpz 0); Qry (QIs0 0)] = Ok [VZ 0; VB true].
Proof.
  exists 13, [13], zeros. split; [exact prime13|]. split; [reflexivity|]. split; [exact zeros_memory|].
  split; [repeat constructor; lia|]. split; vm_compute; reflexivity.
Qed.
