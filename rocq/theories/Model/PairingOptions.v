(** pairing_option_set and the variables it changes: the function pointers in
    a pairing object, and the static function pointers of ecc/d_param.c:424,
    ecc/e_param.c:468 and ecc/g_param.c:538, shared by all pairings of the
    type.  Only which method a pairing then uses is modelled here. *)
From Coq Require Import List String Bool Arith.
Import ListNotations.
Local Open Scope string_scope.

Inductive ptype := TA | TA1 | TD | TE | TF | TG.
Inductive meth := Proj | Affine | Ellnet.
(** [omap i] stands for the map, pp_init, pp_apply pointers of object i: for
    types A and A1 the method, for types D, E and G whether they are the
    elliptic net's.  The other components are the static pointers. *)
Record ost := { omap : nat -> option meth; fn_d : option meth; fn_e : option meth; fn_g : option meth }.
Definition ost0 : ost := {| omap := fun _ => None; fn_d := None; fn_e := None; fn_g := None |}.
Definition set_map (s : ost) (i : nat) (m : meth) : ost :=
  {| omap := fun j => if Nat.eqb j i then Some m else omap s j; fn_d := fn_d s; fn_e := fn_e s; fn_g := fn_g s |}.
Definition set_d (s : ost) (m : meth) : ost := {| omap := omap s; fn_d := Some m; fn_e := fn_e s; fn_g := fn_g s |}.
Definition set_e (s : ost) (m : meth) : ost := {| omap := omap s; fn_d := fn_d s; fn_e := Some m; fn_g := fn_g s |}.
Definition set_g (s : ost) (m : meth) : ost := {| omap := omap s; fn_d := fn_d s; fn_e := fn_e s; fn_g := Some m |}.

Inductive oevent := OInit (i : nat) | OOption (i : nat) (key value : string).
Section O.
(** the type of each object's parameters *)
Variable typ : nat -> ptype.
(** a_param.c:1443, 2263; d_param.c:1006, 1085; e_param.c:840-841;
    f_param.c:405; g_param.c:1258, 1344 *)
Definition oinit (s : ost) (i : nat) : ost :=
  match typ i with
  | TA | TA1 => set_map s i Proj
  | TD => set_d (set_map s i Proj) Affine
  | TE => set_e (set_map s i Proj) Proj
  | TF => set_map s i Affine
  | TG => set_g (set_map s i Proj) Affine
  end.
(** a_param.c:1399-1418, 2209-2229; d_param.c:427-436; e_param.c:799-812;
    g_param.c:1149-1160 (where choosing one of the Miller methods does not
    undo the choice of shipsey-stange); pairing.c:55-59 for type F *)
Definition ooption (s : ost) (i : nat) (key value : string) : ost :=
  if String.eqb key "method" then
    if String.eqb value "miller" then
      match typ i with
      | TA | TA1 => set_map s i Proj
      | TD => set_d s Proj
      | TE => set_e (set_map s i Proj) Proj
      | TG => set_g s Proj
      | TF => s
      end
    else if String.eqb value "miller-affine" then
      match typ i with
      | TA | TA1 => set_map s i Affine
      | TD => set_d s Affine
      | TE => set_e (set_map s i Proj) Affine
      | TG => set_g s Affine
      | TF => s
      end
    else if String.eqb value "shipsey-stange" then
      match typ i with
      | TA | TA1 | TE | TG => set_map s i Ellnet
      | TD | TF => s
      end
    else s
  else s.
Definition ostep (s : ost) (e : oevent) : ost :=
  match e with OInit i => oinit s i | OOption i key value => ooption s i key value end.
Definition orun (h : list oevent) : ost := fold_left ostep h ost0.
(** the method used by pairing_apply on object i; [None] if not initialised *)
Definition method_of (s : ost) (i : nat) : option meth :=
  match omap s i with
  | None => None
  | Some m =>
      match typ i, m with
      | (TA | TA1 | TF), _ => Some m
      | _, Ellnet => Some Ellnet
      | TD, _ => fn_d s
      | TE, _ => fn_e s
      | TG, _ => fn_g s
      end
  end.
End O.
