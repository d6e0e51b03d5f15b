(** The generic pairing interface over any implementation that computes a
    given value away from the identity. *)
From Coq Require Import ZArith List Bool Lia.
From Verif.Base Require Import Outcome Array Algebra.
From Verif.Spec Require Import PairingValue.
From Verif.Model Require Import Pairing.
From Verif.Proofs Require Import FieldFacts ArrayFacts PairingAApi TwistedValue.
From Verif.Model Require Import Pairing.
Import ListNotations.

Section I.
Variable p : pairing.
Hypothesis HL : fld_laws (gt p).
Variable val : g1 p -> g2 p -> gt p.
Hypothesis V1 : forall P Q, is0_1 p P = true -> val P Q = f1.
Hypothesis V2 : forall P Q, is0_2 p Q = true -> val P Q = f1.
Lemma iface_apply : forall P Q, (is0_1 p P = false -> is0_2 p Q = false -> map_ p P Q = Ok (val P Q)) -> pairing_apply p P Q = Ok (val P Q).
Proof.
  intros P Q H. unfold pairing_apply. destruct (is0_1 p P) eqn:E1; [rewrite V1 by auto; auto | ].
  destruct (is0_2 p Q) eqn:E2; [rewrite V2 by auto; auto | auto].
Qed.
Lemma iface_pp : forall P (ok : g2 p -> Prop),
  (is0_1 p P = false -> exists t, pp_init_ p P = Ok t /\ forall Q, ok Q -> is0_2 p Q = false -> pp_apply_ p t Q = Ok (val P Q)) ->
  exists pp, pairing_pp_init p P = Ok pp /\ forall Q, ok Q -> pairing_pp_apply p Q pp = Ok (val P Q).
Proof.
  intros P ok H. unfold pairing_pp_init. destruct (is0_1 p P) eqn:E1.
  - exists None. split; auto. intros Q _. cbn. rewrite V1 by auto. auto.
  - destruct (H eq_refl) as (t & E & A). rewrite E. cbn [bind]. exists (Some t). split; auto. intros Q OQ. cbn [pairing_pp_apply].
    destruct (is0_2 p Q) eqn:E2; [rewrite V2 by auto; auto | auto].
Qed.
Lemma iface_scan : forall pre1 pre2 in1 in2, length pre1 = length pre2 -> length in1 = length in2 ->
  Forall (fun P => is0_1 p P = false) in1 -> Forall (fun P => is0_2 p P = false) in2 ->
  prod_scan p (pre1 ++ in1) (pre2 ++ in2) (length pre1) (length in1) = Ok false.
Proof.
  intros pre1 pre2 in1. revert pre1 pre2. induction in1 as [ | P in1 IH]; intros pre1 pre2 in2 EL1 EL2 F1 F2; cbn [length prod_scan]; auto.
  destruct in2 as [ | Q in2]; [discriminate | ]. pose proof (Forall_inv F1) as NA. pose proof (Forall_inv F2) as NB. apply Forall_inv_tail in F1. apply Forall_inv_tail in F2.
  rewrite get_app by auto. cbn [bind]. rewrite get_app by auto. cbn [bind]. rewrite NA, NB.
  specialize (IH (pre1 ++ [P]) (pre2 ++ [Q]) in2). rewrite <- !app_assoc in IH. cbn [app] in IH. rewrite app_length in IH. cbn [length] in IH.
  replace (S (length pre1)) with (length pre1 + 1)%nat by lia. apply IH; auto. rewrite app_length. cbn [length]. lia.
Qed.
Lemma iface_prod : forall in1 in2, length in1 = length in2 -> Forall (fun P => is0_1 p P = false) in1 -> Forall (fun P => is0_2 p P = false) in2 ->
  element_prod_pairing p in1 in2 (length in1) = prod_ p in1 in2 (length in1).
Proof.
  intros in1 in2 EL1 N1 N2. unfold element_prod_pairing. assert (SC := iface_scan [] [] in1 in2 eq_refl EL1 N1 N2). cbn [app length] in SC.
  rewrite SC. reflexivity.
Qed.
Lemma iface_prod_1 : forall in1 in2 i P Q, length in1 = length in2 -> nth_error in1 i = Some P -> nth_error in2 i = Some Q -> is0_1 p P = true \/ is0_2 p Q = true ->
  element_prod_pairing p in1 in2 (length in1) = Ok f1.
Proof.
  intros in1 in2 i P Q EL1 I1 I2 H. unfold element_prod_pairing.
  rewrite (scan_true p in1 in2 i P Q EL1 I1 I2 H (length in1) 0%nat eq_refl ltac:(lia)). reflexivity.
Qed.
Lemma iface_coddh : forall P B Q R, pairing_apply p P R = Ok (val P R) -> pairing_apply p B Q = Ok (val B Q) -> exists z,
  generic_is_almost_coddh p P B Q R = Ok z /\ (z = true <-> val P R = val B Q \/ fmul (val P R) (val B Q) = f1).
Proof.
  intros P B Q R E1 E2. unfold generic_is_almost_coddh. rewrite E1, E2. cbn [bind].
  exists (feqb (val P R) (val B Q) || feqb (fmul (val P R) (val B Q)) f1). split.
  - destruct (feqb (val P R) (val B Q)); reflexivity.
  - rewrite orb_true_iff, !(fl_eqb _ HL). tauto.
Qed.
End I.
