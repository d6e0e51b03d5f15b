(** C56: pairing options. *)
From Coq Require Import ZArith List String Bool.
From Verif.Base Require Import Outcome Algebra.
From Verif.Spec Require Import Polynomials Extension Curve PairingValue PairingValueD Options.
From Verif.Model Require Import Pairing PairingA PairingD PairingOptions.
From Verif.Proofs Require Import OptionFacts PairingDWitness.
From Verif.Model Require Import Pairing.
Import ListNotations.
Local Open Scope string_scope.

(** The method a pairing uses is determined by the events about that pairing
    alone, if it is of type A, A1 or F, or the only one of its type. *)
Theorem options_are_per_pairing_partial : forall (typ : nat -> ptype) h i,
  (forall e, In e h -> object_of e <> i -> per_object (typ i) \/ typ (object_of e) <> typ i) ->
  method_of typ (orun typ h) i = method_of typ (orun typ (filter (about i) h)) i.
Proof. exact own_events. Qed.
Print Assumptions options_are_per_pairing_partial.
(** Not so with several pairings of type D, E or G: *)
Theorem options_shared_refuted : forall t, In t [TD; TE; TG] -> exists h i,
  method_of (fun _ => t) (orun (fun _ => t) h) i <> method_of (fun _ => t) (orun (fun _ => t) (filter (about i) h)) i.
Proof. exact shared. Qed.
Print Assumptions options_shared_refuted.
(** and for type D the results change. *)
Theorem options_change_other_results_refuted : exists (K : fld) m c a b q r P Q before after, type_d K 3 m c a b q r /\ torsion K a b r P /\ on_twist K 3 m c a b Q /\
  let history := [OInit 0; OInit 1] in
  method_of (fun _ => TD) (orun (fun _ => TD) history) 0 = Some before /\
  method_of (fun _ => TD) (orun (fun _ => TD) (history ++ [OOption 1 "method" "miller"])%list) 0 = Some after /\
  pairing_apply (d_pairing K 3 m (const K 3 m c) a r 6 q (to_method before)) P Q <> pairing_apply (d_pairing K 3 m (const K 3 m c) a r 6 q (to_method after)) P Q.
Proof. exact options_refuted. Qed.
Print Assumptions options_change_other_results_refuted.
(** Initialising another pairing undoes a choice. *)
Theorem initialisation_resets_options_refuted :
  method_of (fun _ => TD) (orun (fun _ => TD) [OInit 0; OOption 0 "method" "miller"; OInit 1]) 0 = Some Affine.
Proof. exact init_resets. Qed.
Print Assumptions initialisation_resets_options_refuted.
(** For types A, A1 and E the last choice counts; for type G, shipsey-stange
    cannot be undone. *)
Theorem last_choice_counts : forall typ h i m, In (typ i) [TA; TA1; TE] ->
  method_of typ (orun typ (h ++ [OOption i "method" (method_name m)])%list) i = Some m.
Proof. exact choice. Qed.
Print Assumptions last_choice_counts.
(** For types D and G the last choice counts among the two Miller methods (G:
    as long as shipsey-stange has not been chosen). *)
Theorem last_miller_choice_counts : forall typ h i m, typ i = TD \/ (typ i = TG /\ Forall (no_net i) h) -> In (OInit i) h -> m <> Ellnet ->
  method_of typ (orun typ (h ++ [OOption i "method" (method_name m)])%list) i = Some m.
Proof. exact miller_choice. Qed.
Print Assumptions last_miller_choice_counts.
Theorem type_g_choice_refuted : exists h, method_of (fun _ => TG) (orun (fun _ => TG) (h ++ [OOption 0 "method" "miller"])%list) 0 <> Some Proj /\ In (OInit 0) h.
Proof. exact g_stuck. Qed.
Print Assumptions type_g_choice_refuted.
Theorem unknown_options_ignored : forall typ h i key value, key <> "method" \/ (forall m, value <> method_name m) ->
  orun typ (h ++ [OOption i key value])%list = orun typ h.
Proof. exact unknown_ignored. Qed.
Print Assumptions unknown_options_ignored.

(** Two type A pairings, a type D one, and options for all of them. *)
Example options_instance : let typ := fun i : nat => match i with 0%nat | 1%nat => TA | _ => TD end in
  let h := [OInit 0; OInit 1; OInit 2; OOption 1 "method" "miller-affine"; OOption 2 "method" "miller"] in
  (forall i e, (i < 3)%nat -> In e h -> object_of e <> i -> per_object (typ i) \/ typ (object_of e) <> typ i) /\
  map (method_of typ (orun typ h)) [0; 1; 2]%nat = [Some Proj; Some Affine; Some Proj].
Proof. exact options_example. Qed.
