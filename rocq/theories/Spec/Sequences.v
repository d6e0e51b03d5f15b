(** What histories of dynamic-array and symbol-table calls should observe:
    arrays are lists, tables are finite maps. *)
From Coq Require Import ZArith List Bool.
From Verif.Model Require Import Darray Symtab.   (* only for the call syntax *)
Import ListNotations.

Section L.
Context {A : Type}.
Variable eqb : A -> A -> bool.

(** l without its first element equal to x *)
Fixpoint remove_first (x : A) (l : list A) : list A :=
  match l with [] => [] | y :: l' => if eqb y x then l' else y :: remove_first x l' end.
(** position of the first element satisfying t *)
Fixpoint position (t : A -> bool) (l : list A) : option nat :=
  match l with
  | [] => None
  | y :: l' => if t y then Some O else match position t l' with Some i => Some (S i) | None => None end
  end.

(** [dspec s c s' os]: call c on lists s is legal, gives lists s' and
    observations os. *)
Inductive dspec (s : nat -> list A) : dcall A -> (nat -> list A) -> list (dobs A) -> Prop :=
| ds_append : forall r x, dspec s (DAppend r x) (set_reg s r (s r ++ [x])) []
| ds_last : forall r l x, s r = l ++ [x] -> dspec s (DRemoveLast r) (set_reg s r l) []
| ds_index : forall r l x l', s r = l ++ x :: l' -> dspec s (DRemoveIndex r (length l)) (set_reg s r (l ++ l')) []
| ds_remove : forall r x, dspec s (DRemove r x) (set_reg s r (remove_first x (s r))) []
| ds_all : forall r, dspec s (DRemoveAll r) (set_reg s r []) []
| ds_copy : forall d r, d <> r -> s r <> [] -> dspec s (DCopy d r) (set_reg s d (s r)) []
| ds_count : forall r, dspec s (DCount r) s [OCount (length (s r))]
| ds_at : forall r l x l', s r = l ++ x :: l' -> dspec s (DAt r (length l)) s [OItem x]
| ds_iof : forall r x, dspec s (DIndexOf r x) s [OIndex (position (fun y => eqb y x) (s r))]
| ds_forall : forall r, dspec s (DForall r) s [OItems (s r)]
| ds_find : forall r t, dspec s (DAtTest r t) s [OFound (find t (s r))].

Inductive dspec_run : (nat -> list A) -> list (dcall A) -> list (dobs A) -> Prop :=
| dr_nil : forall s, dspec_run s [] []
| dr_cons : forall s c s' os h os', dspec s c s' os -> dspec_run s' h os' -> dspec_run s (c :: h) (os ++ os').
End L.

Section T.
Context {D : Type}.
(** the answers a finite map (here: a function) gives *)
Fixpoint map_run (m : list Z -> option D) (h : list (scall D)) : list (sobs D) :=
  match h with
  | [] => []
  | SPut k d :: h' => map_run (fun k' => if list_eq_dec Z.eq_dec k' k then Some d else m k') h'
  | SHas k :: h' => OHas (match m k with Some _ => true | None => false end) :: map_run m h'
  | SAt k :: h' => OAt (m k) :: map_run m h'
  end.
End T.
