(** Where tinyfp.c departs from arithmetic modulo p, and a session it handles. *)
From Coq Require Import ZArith Znumtheory List Bool Lia.
From Verif.Base Require Import Outcome Gmp.
From Verif.Model Require Import FieldInt NaiveFp FpMachine TinyFp.
From Verif.Spec Require Import PrimeField.
From Verif.Proofs Require Import GmpFacts BytesFacts FpBackends FpRuns TinyFacts.
Import ListNotations.
Open Scope Z_scope.

Lemma tiny_session_exact : forall p h vs, 1 < p < 2 ^ 64 -> Z.odd p = true ->
  spec_run p (fun a => mpz_legendre a p) (allowed_tiny p) h fresh vs -> tiny_session p h = Ok vs.
Proof. intros p h vs Hp Ho. apply tiny_exact; auto. Qed.
Lemma tiny_dbl : forall p a, 1 < p < 2 ^ 64 -> p <= 2 ^ 63 -> 0 <= a < p -> tiny_double p true a = (2 * a) mod p.
Proof. intros. apply t_double_in_place; auto. Qed.
(** Trial division. *)
Fixpoint nodiv (n : nat) (d p : Z) : bool :=
  match n with O => true | S n' => negb (p mod d =? 0) && nodiv n' (d + 1) p end.
Lemma nodiv_sound : forall n d p, 1 < d -> nodiv n d p = true -> forall e, d <= e < d + Z.of_nat n -> ~ (e | p).
Proof.
  induction n; intros d p Hd H e He; [lia | ]. cbn [nodiv] in H. apply andb_prop in H. destruct H as [H1 H2].
  destruct (Z.eq_dec e d) as [-> | N].
  - intro D. apply Z.mod_divide in D; [ | lia]. rewrite D in H1. discriminate.
  - apply (IHn (d + 1) p); auto; lia.
Qed.
Lemma trial : forall n p, 1 < p -> nodiv n 2 p = true -> p < (2 + Z.of_nat n) * (2 + Z.of_nat n) -> prime p.
Proof.
  intros n p Hp H L. apply prime_alt. split; auto. intros e He D.
  pose proof (nodiv_sound n 2 p ltac:(lia) H) as N. destruct (Z.lt_ge_cases e (2 + Z.of_nat n)) as [A | A]; [exact (N e ltac:(lia) D) | ].
  destruct D as [k E]. apply (N k); [ | exists e; lia]. assert (0 < k) by nia. assert (k <> 1) by nia. nia.
Qed.
Lemma p33 : prime 4294967311.
Proof. apply (trial (Z.to_nat 65536)); [reflexivity | vm_compute; reflexivity | rewrite Z2Nat.id by lia; reflexivity]. Qed.
Lemma prime13 : prime 13. Proof. apply (trial 3); reflexivity. Qed.

Lemma tiny_mul_refuted : exists p x y, prime p /\ p < 2 ^ 64 /\ 0 <= x < p /\ 0 <= y < p /\
  tiny_session p [Asg (ASetMpz 0 x); Asg (ASetMpz 1 y); Asg (AMul 2 0 1); Qry (QToMpz 2)] <> Ok [VZ ((x * y) mod p)].
Proof.
  exists 4294967311, 4294967310, 4294967310. split; [exact p33 | ]. split; [reflexivity | ]. split; [lia | ]. split; [lia | ].
  intro H. vm_compute in H. discriminate H.
Qed.
Lemma tiny_set_si_refuted : forall p, prime p -> p < 2 ^ 63 ->
  tiny_session p [Asg (ASetSi 0 (- p)); Qry (QIs0 0); Qry (QToMpz 0)] = Ok [VB false; VZ p].
Proof.
  intros p Pp L. destruct Pp as [Hp _]. unfold tiny_session. cbn [run exec tiny_be b_set_si].
  rewrite <- (Z.mul_1_l p) at 3. rewrite t_set_si_multiple by lia. cbn [bind observe tiny_be b_is0 b_to_mpz target upd Nat.eqb].
  unfold tiny_is0. destruct (Z.eqb_spec p 0); [lia | ]. reflexivity.
Qed.
Lemma tiny_mul_si_refuted : exists p, prime p /\ tiny_session p [Asg (ASet1 0); Asg (AMulSi 1 0 (-1)); Qry (QToMpz 1)] <> Ok [VZ ((-1) mod p)].
Proof. exists 13. split; [exact prime13 | ]. intro H. vm_compute in H. discriminate H. Qed.
Lemma tiny_double_refuted : exists p a, 2 ^ 63 < p < 2 ^ 64 /\ Z.odd p = true /\ 0 <= a < p /\ tiny_double p true a <> (2 * a) mod p.
Proof. exists (2 ^ 64 - 59), (2 ^ 63). split; [lia | ]. split; [reflexivity | ]. split; [lia | ]. intro H. vm_compute in H. discriminate H. Qed.
Lemma tiny_hash : forall p l, 1 < p < 2 ^ 64 ->
  tiny_session p [Asg (AFromHash 0 l); Qry (QToMpz 0)] = Ok [VZ (be_value (rev l) 0 mod p)].
Proof. intros p l Hp. rewrite be_value_import. reflexivity. Qed.
Lemma tiny_hash_refuted : exists p l junk, prime p /\ Forall (fun x => 0 <= x < 256) l /\
  tiny_session p [Asg (AFromHash 0 l); Qry (QToMpz 0)] <> fp_session UseMont p junk [Asg (AFromHash 0 l); Qry (QToMpz 0)].
Proof.
  exists 13, [1; 2], (fun n => repeat 0 n). split; [exact prime13 | ]. split; [repeat constructor; lia | ].
  intro H. vm_compute in H. discriminate H.
Qed.
Definition tdemo : list call :=
  [Asg (ASetSi 0 (-5)); Asg (ASetMpz 1 (-1)); Asg (AMul 2 0 1); Qry (QToMpz 2); Asg (AHalve 3 2); Qry (QToMpz 3); Asg (AInvert 3 3); Asg (APow 4 3 5); Asg (ADiv 4 4 0); Qry (QToBytes 4); Qry (QIsSqr 1)].
Lemma sr_q : forall p leg ok q h s v vs, allowed_qry q s -> answer p leg q s = v -> spec_run p leg ok h s vs -> spec_run p leg ok (Qry q :: h) s (v :: vs).
Proof. intros. subst v. constructor; auto. Qed.
Lemma tdemo_ok : spec_run 13 (fun a => mpz_legendre a 13) (allowed_tiny 13) tdemo fresh [VZ 5; VZ 9; VBytes [6]; VB true].
Proof.
  eapply (sr_asg _ _ _ _ _ _ 8); [split; [unfold long_range; lia | intros _; discriminate] | split; [unfold residue; lia | reflexivity] | ].
  eapply (sr_asg _ _ _ _ _ _ 12); [exact Logic.I | split; [unfold residue; lia | reflexivity] | ].
  eapply (sr_asg _ _ _ _ _ _ 5); [reflexivity | split; [unfold residue; lia | reflexivity] | ].
  apply sr_q; [exact Logic.I | vm_compute; reflexivity | ].
  eapply (sr_asg _ _ _ _ _ _ 9); [cbn; lia | split; [unfold residue; lia | reflexivity] | ].
  apply sr_q; [exact Logic.I | vm_compute; reflexivity | ].
  eapply (sr_asg _ _ _ _ _ _ 3); [reflexivity | split; [unfold residue; lia | reflexivity] | ].
  eapply (sr_asg _ _ _ _ _ _ 9); [cbn; lia | split; [unfold residue; lia | reflexivity] | ].
  eapply (sr_asg _ _ _ _ _ _ 6); [split; [lia | reflexivity] | split; [unfold residue; lia | reflexivity] | ].
  apply sr_q; [exact Logic.I | vm_compute; reflexivity | ].
  apply sr_q; [exact Logic.I | vm_compute; reflexivity | ].
  constructor.
Qed.
