(** Readable consequences of the session theorems. *)
From Coq Require Import ZArith Znumtheory List Bool Lia.
From Verif.Base Require Import Outcome Gmp Array.
From Verif.Model Require Import FieldInt NaiveFp FastFp FasterFp MontFp FpMachine.
From Verif.Spec Require Import PrimeField.
From Verif.Proofs Require Import GmpFacts ArrayFacts LimbFacts BytesFacts ModFacts MontMulFacts FpBackends MontBackend FpRuns.
Import ListNotations.
Open Scope Z_scope.

Section S.
Variables (o : fp_choice) (p : Z) (junk : nat -> list Z).
Hypothesis Hp : prime p.
Hypothesis Ho : Z.odd p = true.
Hypothesis Hj : any_memory junk.
Hypothesis Ht : o = UseMont -> top_word p < 2 ^ 64 - 1.

Lemma p2 : 2 <= p. Proof. apply prime_ge_2; auto. Qed.
Lemma small_set : forall x, 0 <= x < p -> x mod p = 0 -> x = 0.
Proof. intros x H E. rewrite Z.mod_small in E; auto. Qed.

Lemma residue_mod : forall z, residue p (z mod p).
Proof. intros. pose proof p2. apply Z.mod_pos_bound. lia. Qed.
Lemma residue_small : forall z, 0 <= z < p -> z = z mod p.
Proof. intros. symmetry. apply Z.mod_small; auto. Qed.
Lemma set_assigns : forall c x s, 0 <= x < p -> assigns p (ASetMpz c x) s x.
Proof. intros. split; simpl; auto. apply residue_small; auto. Qed.

Lemma inverse_cor : forall x, 0 < x < p ->
  exists r, 0 <= r < p /\ (r * x) mod p = 1 /\
    option_session o p junk [Asg (ASetMpz 1 x); Asg (AInvert 0 1); Qry (QToMpz 0)] = Ok [VZ r].
Proof.
  intros x Hx. pose proof p2. pose proof (prime_gcd_small p x Hp Hx) as G.
  destruct (invert_spec p ltac:(lia) x ltac:(lia) G) as [r [_ [Hr E]]].
  exists r. split; [lia|]. split; auto.
  apply any_prime_session; auto.
  apply sr_asg with x; [simpl; intros; apply small_set; auto; lia | apply set_assigns; lia |].
  apply sr_asg with r; [simpl; unfold upd; simpl; lia | split; [unfold residue; lia | exact E] |].
  apply (sr_qry p (leg p) (allowed p) (QToMpz 0)); [exact I|]. apply sr_nil.
Qed.

Lemma division_cor : forall x y, 0 <= x < p -> 0 < y < p ->
  exists r, 0 <= r < p /\ (r * y) mod p = x /\
    forall c a, (c = 0 \/ c = 1 \/ c = 2)%nat -> a = 1%nat ->
    option_session o p junk [Asg (ASetMpz 1 x); Asg (ASetMpz 2 y); Asg (ADiv c a 2); Qry (QToMpz c)] = Ok [VZ r].
Proof.
  intros x y Hx Hy. pose proof p2. pose proof (prime_gcd_small p y Hp Hy) as G.
  destruct (invert_spec p ltac:(lia) y ltac:(lia) G) as [i [_ [Hi E]]].
  exists ((x * i) mod p). split; [apply Z.mod_pos_bound; lia|].
  assert (D : ((x * i) mod p * y) mod p = x).
  { rewrite Z.mul_mod_idemp_l by lia. rewrite <- Z.mul_assoc, <- Z.mul_mod_idemp_r, E, Z.mul_1_r by lia.
    apply Z.mod_small; lia. }
  split; auto. intros c a Hc ->.
  apply any_prime_session; auto.
  apply sr_asg with x; [simpl; intros; apply small_set; auto; lia | apply set_assigns; lia |].
  apply sr_asg with y; [simpl; intros; apply small_set; auto; lia | apply set_assigns; lia |].
  apply sr_asg with ((x * i) mod p); [simpl; unfold upd; simpl; lia | split; [apply residue_mod | exact D] |].
  replace [VZ ((x * i) mod p)] with [answer p (leg p) (QToMpz c) (upd (upd (upd fresh (target (ASetMpz 1 x)) x) (target (ASetMpz 2 y)) y) (target (ADiv c 1 2)) ((x * i) mod p))].
  - apply sr_qry; [exact I|]. apply sr_nil.
  - simpl. unfold upd. rewrite Nat.eqb_refl. reflexivity.
Qed.

Lemma bytes_cor : forall x, 0 <= x < p ->
  exists l, length l = byte_length p /\ Forall (fun b => 0 <= b < 256) l /\ be_value l 0 = x /\
    option_session o p junk [Asg (ASetMpz 0 x); Qry (QToBytes 0)] = Ok [VBytes l] /\
    option_session o p junk [Asg (ASetMpz 0 x); Asg (AFromBytes 1 l); Qry (QToMpz 1); Qry (QToBytes 1)] = Ok [VZ x; VBytes l] /\
    (x <> 0 -> option_session o p junk [Asg (ASetMpz 0 x); Asg (AFromBytes 1 l); Qry (QEq 0 1)] = Ok [VB true]).
Proof.
  intros x Hx. pose proof p2. set (l := be_bytes (byte_length p) x).
  assert (L : length l = byte_length p) by apply be_bytes_length.
  assert (F : Forall (fun b => 0 <= b < 256) l) by apply be_bytes_bytes.
  assert (V : be_value l 0 = x).
  { rewrite be_value_import. unfold l. rewrite be_bytes_value. apply Z.mod_small.
    pose proof (byte_length_bound p ltac:(lia)). lia. }
  exists l. split; auto. split; auto. split; auto.
  assert (A : forall s, assigns p (AFromBytes 1 l) s x).
  { intros s. split; simpl; auto. }
  assert (B1 : forall s, allowed p (AFromBytes 1 l) s).
  { intros s. simpl. rewrite V. repeat split; auto. lia. }
  split; [|split]; [| |intros Hnz]; apply any_prime_session; auto;
    (apply sr_asg with x; [simpl; intros; apply small_set; auto; lia | apply set_assigns; lia |]).
  - apply (sr_qry p (leg p) (allowed p) (QToBytes 0)); [exact I|]. apply sr_nil.
  - apply sr_asg with x; [apply B1 | apply A |].
    apply (sr_qry p (leg p) (allowed p) (QToMpz 1)); [exact I|].
    apply (sr_qry p (leg p) (allowed p) (QToBytes 1)); [exact I|]. apply sr_nil.
  - apply sr_asg with x; [apply B1 | apply A |].
    replace (VB true) with (answer p (leg p) (QEq 0 1) (upd (upd fresh (target (ASetMpz 0 x)) x) (target (AFromBytes 1 l)) x)).
    + apply sr_qry; [|apply sr_nil]. simpl. unfold upd. simpl. auto.
    + simpl. unfold upd. simpl. rewrite Z.eqb_refl. reflexivity.
Qed.
End S.
