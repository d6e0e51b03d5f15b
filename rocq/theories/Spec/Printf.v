(** What a printf-like function should print. *)
From Coq Require Import ZArith List Bool.
From Verif.Model Require Import Printf.    (* only for [parg] and the table of conversions *)
Import ListNotations.
Open Scope Z_scope.

(** A format as the user means it. *)
Inductive segment :=
| Text (t : list Z)                          (* characters other than '%' *)
| Percent                                    (* "%%" *)
| Element (flags : list Z)                   (* %<flags>B *)
| Directive (flags : list Z) (c : Z)         (* %<flags>c, c a conversion other than Z *)
| GmpDirective (flags : list Z) (c : Z).     (* %<flags>Zc *)

Definition plain (c : Z) : Prop := c <> percent /\ c <> 0.
Definition flag (c : Z) : Prop := c <> percent /\ c <> 66 /\ is_conversion c = false.
Definition valid (s : segment) : Prop :=
  match s with
  | Text t => Forall plain t
  | Percent => True
  | Element fl => Forall flag fl
  | Directive fl c => Forall flag fl /\ is_conversion c = true /\ c <> 90
  | GmpDirective fl _ => Forall flag fl
  end.

(** The format string. *)
Definition source (s : segment) : list Z :=
  match s with
  | Text t => t
  | Percent => [percent; percent]
  | Element fl => percent :: fl ++ [66]
  | Directive fl c => percent :: fl ++ [c]
  | GmpDirective fl c => percent :: fl ++ [90; c]
  end.

(** [prints segs args out]: printf prints [out]. *)
Inductive prints : list segment -> list parg -> list Z -> Prop :=
| p_nil : prints [] [] []
| p_text : forall t segs args out, prints segs args out -> prints (Text t :: segs) args (t ++ out)
| p_percent : forall segs args out, prints segs args out -> prints (Percent :: segs) args (percent :: out)
| p_elem : forall fl t segs args out, prints segs args out ->
    prints (Element fl :: segs) (PElement t :: args) (t ++ out)
| p_dir : forall fl c f segs args out, prints segs args out ->
    prints (Directive fl c :: segs) (PPointer f :: args) (f (percent :: fl ++ [c]) ++ out)
| p_gmp : forall fl c f segs args out, prints segs args out ->
    prints (GmpDirective fl c :: segs) (PPointer f :: args) (f (percent :: fl ++ [90; c]) ++ out).

(** The buffer: [out] truncated to size-1 characters, a terminator, the rest
    untouched. *)
Definition truncated (buf : list Z) (size : nat) (out : list Z) : list Z :=
  match size with
  | O => buf
  | S n => firstn n out ++ 0 :: skipn (S (Nat.min n (length out))) buf
  end.
