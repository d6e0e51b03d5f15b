(** Positional notation and factorisation, independent of the model. *)
From Coq Require Import ZArith Znumtheory List Bool.
Import ListNotations.
Open Scope Z_scope.

(** Value of a list of digits, most significant first. *)
Definition horner (b : Z) (ds : list Z) : Z := fold_left (fun acc d => acc * b + d) ds 0.

(** '0'..'9' then 'a'..'z'. *)
Definition digit_char (d : Z) : Z := if d <? 10 then 48 + d else 87 + d.

(** [text] is the usual numeral for n in base b: no superfluous leading zero. *)
Definition is_numeral (b n : Z) (text : list Z) : Prop :=
  exists ds, text = map digit_char ds /\ Forall (fun d => 0 <= d < b) ds /\ ds <> [] /\
             (hd 0 ds = 0 -> ds = [0]) /\ horner b ds = n.

(** Characters. *)
Definition white (c : Z) : Prop := c = 32 \/ 9 <= c <= 13.
(** c is a digit of base b with value d (letters of either case). *)
Definition digit_value (b c d : Z) : Prop :=
  0 <= d < b /\
  ((48 <= c <= 57 /\ d = c - 48) \/ (65 <= c <= 90 /\ d = c - 55) \/ (97 <= c <= 122 /\ d = c - 87)).

(** [scan b body ds]: body consists of white space and digits of base b, and
    the digits are ds. *)
Inductive scan (b : Z) : list Z -> list Z -> Prop :=
| scan_nil : scan b [] []
| scan_white : forall c body ds, white c -> scan b body ds -> scan b (c :: body) ds
| scan_digit : forall c d body ds, digit_value b c d -> scan b body ds -> scan b (c :: body) (d :: ds).

Definition stops (b c : Z) : Prop := ~ white c /\ forall d, ~ digit_value b c d.

(** Product of a list of (factor, multiplicity). *)
Fixpoint product (fs : list (Z * Z)) : Z :=
  match fs with [] => 1 | (f, k) :: fs' => f ^ k * product fs' end.

(** What GMP promises about mpz_sizeinbase. *)
Definition digits_count (base z size : Z) : Prop :=
  1 <= size /\ z < base ^ size /\ (base ^ (size - 1) <= z \/ size = 1).
