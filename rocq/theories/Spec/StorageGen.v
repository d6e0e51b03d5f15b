(** Programs that read or generate parameters: [as_read] puts reading them
    from a text in the place of generating them. *)
From Coq Require Import List.
From Verif.Model Require Import Storage StorageGen.
From Verif.Spec Require Import Storage.
Import ListNotations.

Definition as_read (c : gcall) : call := match c with Plain c => c | Gen k p _ => CParam k p end.
(** The generators of types E and F leak. *)
Definition gen_clean (c : gcall) : Prop := match c with Plain _ => True | Gen _ p _ => ty p <> TE /\ ty p <> TF end.
Definition glegals (cs : list gcall) : Prop := legals [] (map as_read cs) /\ (forall c, In c cs -> gen_clean c).
