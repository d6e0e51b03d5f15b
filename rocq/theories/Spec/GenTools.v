(** What the output of a parameter generator is for: a bilinear, non-degenerate
    pairing on a group of known order.  Independent of the model of the
    generators. *)
From Coq Require Import ZArith List.
From Verif.Base Require Import Outcome Algebra.
From Verif.Spec Require Import Curve PairingValue.
Local Open Scope Z_scope.

(** [e] takes a point of [G] (points of Y^2 = X^3 + X over K killed by r) and a
    point of the curve to an r-th root of unity of L. *)
Definition bilinear (K L : fld) (r : Z) (G : point K -> Prop) (e : point K -> point K -> res L) : Prop :=
  forall P Q, G P -> on_curve K f1 f0 Q -> exists v, e P Q = Ok v /\ fpow v r = f1 /\
    forall i k, G (pzmul K f1 i P) -> e (pzmul K f1 i P) (pzmul K f1 k Q) = Ok (fpow v ((i * k) mod r)).
Definition nondegenerate (K L : fld) (G : point K -> Prop) (e : point K -> point K -> res L) : Prop :=
  forall P, G P -> P <> None -> exists Q v, on_curve K f1 f0 Q /\ e P Q = Ok v /\ v <> f1.
Definition curve_size (K : fld) (N : Z) : Prop :=
  exists pts : list (point K), NoDup pts /\ (forall A, In A pts <-> on_curve K f1 f0 A) /\ Z.of_nat (length pts) = N.

(** The random numbers asked for to choose q: below 2^(QBITS - RBITS - 3), and
    below 8 if that is smaller. *)
Definition cofactors_ok (rbits qbits : Z) (hs : list Z) : Prop := List.Forall (fun x => 0 <= x < 2 ^ Z.max 3 (qbits - rbits - 3)) hs.

(** [e] is bilinear on the points of Y^2 = X^3 + aX + b over K killed by r, with
    r-th roots of unity of K as values. *)
Definition bilinear_on (K : fld) (a b : K) (r : Z) (e : point K -> point K -> res K) : Prop :=
  forall P Q, torsion K a b r P -> torsion K a b r Q -> exists v, e P Q = Ok v /\ fpow v r = f1 /\
    forall i k, e (pzmul K a i P) (pzmul K a k Q) = Ok (fpow v ((i * k) mod r)).
(** The same for two groups on two curves, with values in L. *)
Definition bilinear_two (K M L : fld) (a : K) (a2 : M) (r : Z) (G1 : point K -> Prop) (G2 : point M -> Prop) (e : point K -> point M -> res L) : Prop :=
  forall P Q, G1 P -> G2 Q -> exists v, e P Q = Ok v /\ fpow v r = f1 /\
    forall i k, e (pzmul K a i P) (pzmul M a2 k Q) = Ok (fpow v ((i * k) mod r)).
