(** Vocabulary for histories of pairing_init and pairing_option_set. *)
From Coq Require Import List String Bool Arith.
From Verif.Model Require Import PairingOptions.   (* only for the events *)
Local Open Scope string_scope.

(** Which pairing an event concerns. *)
Definition about (i : nat) (e : oevent) : bool := match e with OInit j | OOption j _ _ => Nat.eqb i j end.
Definition object_of (e : oevent) : nat := match e with OInit j | OOption j _ _ => j end.
(** Types whose method is stored in the pairing itself. *)
Definition per_object (t : ptype) : Prop := t = TA \/ t = TA1 \/ t = TF.
(** What a method is called in the text of an option. *)
Definition method_name (m : meth) : string := match m with Proj => "miller" | Affine => "miller-affine" | Ellnet => "shipsey-stange" end.
(** The event does not choose the elliptic net for pairing i. *)
Definition no_net (i : nat) (e : oevent) : Prop := match e with OInit _ => True | OOption j key value => j = i -> key = "method"%string -> value <> "shipsey-stange"%string end.
