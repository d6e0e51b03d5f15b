(** Clearing a pairing releases what its initialisation and use allocated. *)
From Coq Require Import List ZArith Bool Arith Lia.
From Verif.Base Require Import Outcome.
From Verif.Model Require Import Mnt Miller PairingD Storage.
From Verif.Proofs Require Import StorageFacts StoragePairing.
Import ListNotations.
Local Open Scope nat_scope.

Lemma C_thenc : forall N m k A A', Clears N m A -> Clears [] k A' -> (forall q, In q N -> 0 < count q A') -> Clears [] (m >> k) (A ++ A').
Proof. intros N m k A A' H K J. apply (C_then N); [exact H|exact K|]. intros q Hq. right. apply count_in, J, Hq. Qed.
Lemma C_assoc : forall M a b k A, Clears M (a >> b >> k) A -> Clears M ((a >> b) >> k) A.
Proof.
  intros M a b k A H h Hs Hn. destruct (H h Hs Hn) as (h' & E & C). exists h'; split; [|exact C].
  unfold andthen in *. destruct (a h); cbn in *; auto.
Qed.
Local Opaque cells fcells ncells quot pcells.
Lemma one_data : forall P q, In q [c_data P] -> 0 < one q (c_data P).
Proof. intros P q [<-|[]]. rewrite one_refl. lia. Qed.
Lemma quot_nil : forall f q, match f with Curve _ _ _ _ true => False | _ => True end -> count q (quot f) = 0.
Proof. intros f q. destruct f; try reflexivity. destruct qc; [intros []|reflexivity]. Qed.
Ltac ndc := let q := fresh "q" in let H := fresh "H" in
  intros q H; cbn [fst] in H;
  first [apply one_data in H | apply cneeds_supports in H | apply csupport_base in H | apply cneeds_support in H];
  cbn [flat_map csupport home_of fst hl] in H; repeat rewrite ?count_app, ?count_cons, ?count_nil in H;
  cbn [flat_map]; unfold pc; cbn [fst snd]; cc; lia.
Ltac cl :=
  lazymatch goal with
  | |- Clears _ ((_ >> _) >> _) _ => apply C_assoc; cl
  | |- Clears _ (release _ >> _) _ => eapply C_thenc; [apply (C_release [])|cl|intros ? []]
  | |- Clears _ (need _ >> _) _ => eapply C_thenc; [apply C_need|cl|ndc]
  | |- Clears _ (field_clear _ _ >> _) _ => eapply C_thenc; [apply field_clear_ok|cl|ndc]
  | |- Clears _ (clears _ >> _) _ => eapply C_thenc; [apply clears_ok|cl|ndc]
  | |- Clears _ (release _) _ => apply C_release
  | |- Clears _ (field_clear _ _) _ => eapply C_weak; [apply field_clear_ok|intros ? Hq; exact Hq]
  end.
Ltac sse := let q := fresh "q" in intros q; un; cbn [flat_map]; unfold pc; cbn [fst snd]; cc;
  repeat (rewrite quot_nil by exact I); lia.

Lemma pairing_clear_ok : forall p P nq, Clears [] (pairing_clear p P nq) (pair_cells p P nq).
Proof.
  intros [t z q0 r] P nq. unfold pair_cells, common_cells, type_cells, pairing_clear. destruct t as [e1 e2| |n| | | |]; cbn [ty].
  - eapply C_same; [unfold a_pairing_clear; un; cl|sse].
  - eapply C_same; [unfold a1_pairing_clear; un; cl|sse].
  - destruct (n =? 3) eqn:En; (eapply C_same; [unfold d_pairing_clear; un; rewrite En; cl|sse]).
  - eapply C_same; [unfold e_pairing_clear; un; cl|sse].
  - eapply C_same; [unfold f_pairing_clear; un; cl|sse].
  - eapply C_same; [unfold g_pairing_clear; un; cl|sse].
  - eapply C_same; [unfold i_pairing_clear; un; cl|sse].
Qed.
