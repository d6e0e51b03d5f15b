(** Which programs handle the objects of the library as its manual asks:
    initialise each object once before use, clear it once, and clear a pairing
    after everything that was made from it.  None of the blocks that the
    library allocates appears here. *)
From Coq Require Import List ZArith Bool.
From Verif.Spec Require Import PairingValueD.
From Verif.Model Require Import Storage.
Import ListNotations.

Definition fresh (k : nat) (o : objs) : Prop := look k o = None.
Definition uses (i : nat) (x : obj) : Prop :=
  match x with OElem j _ => j = i | OPp j _ _ => j = i | OTab j _ _ => j = i | _ => False end.
Definition unused (i : nat) (o : objs) : Prop := forall k x, In (k, x) o -> ~ uses i x.

(** The tables that are stored and released correctly.  For type A the
    parameters must be those of a Solinas prime [2^exp2 +- 2^exp1 +- 1]; for
    types D and G the order must not be of the form [2^k - 1] (the table is too
    short then); the default method of type A1 leaks. *)
Definition table_ok (p : pinfo) (m : method) : Prop :=
  match ty p, m with
  | TA e1 e2, Miller => (e1 <= e2)%nat
  | TA1, Miller => False
  | TD _, _ | TG, _ => (3 <= rr p)%Z /\ Z.odd (rr p) = true /\ not_all_ones (rr p)
  | _, _ => True
  end.

Definition legal (o : objs) (c : call) : Prop :=
  match c with
  | CParam k _ => fresh k o
  | CParamClear k => exists p, look k o = Some (OParam p)
  | CPairing i k => fresh i o /\ exists p, look k o = Some (OParam p)
  | CPairingText i _ complete => fresh i o /\ complete = true
  | CPairingClear i => (exists p m nq, look i o = Some (OPair p m nq)) /\ unused i o
  | COption i m => (exists p m0 nq, look i o = Some (OPair p m0 nq)) /\ (forall k p m', In (k, OPp i p (Some m')) o -> m' = m)
  | CNqr i s => exists p m nq, look i o = Some (OPair p m nq) /\ has_slot p s = true
  | CElem e i _ => fresh e o /\ exists p m nq, look i o = Some (OPair p m nq)
  | CElemClear e => exists i f, look e o = Some (OElem i f)
  | CPp k e zero => fresh k o /\ exists i f p m nq, look e o = Some (OElem i f) /\ look i o = Some (OPair p m nq) /\ (zero = true \/ table_ok p m)
  | CPpClear k => exists i p m, look k o = Some (OPp i p m)
  | CTable k e _ => fresh k o /\ exists i f, look e o = Some (OElem i f)
  | CTableClear k => exists i f bits, look k o = Some (OTab i f bits)
  end.

(** The objects alive after a call. *)
Definition after (o : objs) (c : call) : objs :=
  match c with
  | CParam k p => (k, OParam p) :: o
  | CPairing i k => match look k o with Some (OParam p) => (i, OPair p Miller (nq_of (init_nq p))) :: o | _ => o end
  | CPairingText i p _ => (i, OPair p Miller (nq_of (init_nq p))) :: o
  | COption i m => match look i o with Some (OPair p _ nq) => (i, OPair p m nq) :: drop i o | _ => o end
  | CNqr i s => match look i o with Some (OPair p m nq) => (i, OPair p m (nq_set nq s)) :: drop i o | _ => o end
  | CElem e i g => match look i o with Some (OPair p _ _) => (e, OElem i (group p [i] g)) :: o | _ => o end
  | CPp k e zero =>
      match look e o with
      | Some (OElem i _) => match look i o with Some (OPair p m _) => (k, OPp i p (if zero then None else Some m)) :: o | _ => o end
      | _ => o end
  | CTable k e bits => match look e o with Some (OElem i f) => (k, OTab i f bits) :: o | _ => o end
  | CParamClear k | CPairingClear k | CElemClear k | CPpClear k | CTableClear k => drop k o
  end.
Fixpoint legals (o : objs) (cs : list call) : Prop := match cs with [] => True | c :: cs' => legal o c /\ legals (after o c) cs' end.
Fixpoint afters (o : objs) (cs : list call) : objs := match cs with [] => o | c :: cs' => afters (after o c) cs' end.
