(** Renaming the objects of a program injectively: a program whose objects
    are variables runs like the same program on fixed objects. *)
From Coq Require Import ZArith List Bool Lia.
From Verif.Base Require Import Outcome Algebra Slots.
From Verif.Proofs Require Import SlotFacts.
Import ListNotations.

Section R.
Variable K : fld.
Variable rho : obj -> obj.
Definition rl (l : loc) : loc := (rho (fst l), snd l).
Definition ren (i : instr K) : instr K :=
  match i with
  | IAdd d a b => IAdd (rl d) (rl a) (rl b)
  | ISub d a b => ISub (rl d) (rl a) (rl b)
  | IMul d a b => IMul (rl d) (rl a) (rl b)
  | INeg d a => INeg (rl d) (rl a)
  | IDbl d a => IDbl (rl d) (rl a)
  | ISqr d a => ISqr (rl d) (rl a)
  | ISet d a => ISet (rl d) (rl a)
  | IInv d a => IInv (rl d) (rl a)
  | IMulZ d a n => IMulZ (rl d) (rl a) n
  | IConst d c => IConst (rl d) c
  | IMulC d a c => IMulC (rl d) (rl a) c
  end.
Definition objs (i : instr K) : list obj :=
  match i with
  | IAdd d a b | ISub d a b | IMul d a b => [fst d; fst a; fst b]
  | INeg d a | IDbl d a | ISqr d a | ISet d a | IInv d a | IMulZ d a _ | IMulC d a _ => [fst d; fst a]
  | IConst d _ => [fst d]
  end.
Variable P : list obj.
Definition covers (p : list (instr K)) : bool := forallb (fun i => forallb (fun o => existsb (obj_eqb o) P) (objs i)) p.
Hypothesis inj : forall a b, In a P -> In b P -> rho a = rho b -> a = b.
Lemma covered : forall o, existsb (obj_eqb o) P = true -> In o P.
Proof. intros o H. apply existsb_exists in H. destruct H as (x & I & E). destruct (obj_eqb_spec o x); [subst; auto | discriminate]. Qed.
Definition agree (t s : store K) : Prop := forall o i, In o P -> t (o, i) = s (rho o, i).
Lemma agree_upd : forall t s d v, In (fst d) P -> agree t s -> agree (upd t d v) (upd s (rl d) v).
Proof.
  intros t s [d k] v I A o i Io. cbn [fst] in I. unfold upd, loc_eqb, rl. cbn [fst snd].
  destruct (obj_eqb_spec o d) as [E | E].
  - subst. rewrite obj_eqb_refl. destruct (Nat.eqb i k); cbn [andb]; auto.
  - rewrite obj_eqb_neq by (intro X; apply E; apply inj; auto). cbn [andb]. auto.
Qed.
Definition frame (s s' : store K) : Prop := forall l, (forall o, In o P -> fst l <> rho o) -> s' l = s l.
Lemma frame_upd : forall s d v, In (fst d) P -> frame s (upd s (rl d) v).
Proof. intros s d v I l H. unfold upd, loc_eqb, rl. cbn [fst snd]. rewrite obj_eqb_neq by auto. auto. Qed.
Lemma run_ren : forall p t s t', covers p = true -> agree t s -> run p t = Ok t' ->
  exists s', run (map ren p) s = Ok s' /\ agree t' s' /\ frame s s'.
Proof.
  induction p as [ | i p IH]; intros t s t' C A R.
  - cbn [run map] in *. inversion R; subst. exists s. split; auto. split; auto. intros ? ?; auto.
  - cbn [covers forallb] in C. apply andb_true_iff in C. destruct C as [C1 C2]. cbn [run map] in *.
    assert (A' : forall l, In (fst l) P -> t l = s (rl l)) by (intros [o k] I; apply A; auto).
    assert (ST : forall t1, exec t i = Ok t1 -> exists s1, exec s (ren i) = Ok s1 /\ agree t1 s1 /\ frame s s1).
    { intros t1 E. destruct i; cbn [exec ren objs forallb] in *; rewrite ?andb_true_iff in C1;
        repeat match goal with H : _ /\ _ |- _ => destruct H end;
        repeat match goal with H : existsb (obj_eqb _) _ = true |- _ => apply covered in H end;
        try (inversion E; subst; rewrite <- ?A' by auto; eexists; split; [reflexivity | split; [apply agree_upd; auto | apply frame_upd; auto]]).
      - destruct (finvert (t a)) eqn:F; try discriminate. cbn [bind] in E. inversion E; subst. rewrite <- A' by auto. rewrite F. cbn [bind].
        eexists; split; [reflexivity | split; [apply agree_upd; auto | apply frame_upd; auto]]. }
    destruct (exec t i) as [t1 | | | ] eqn:E; try discriminate. cbn [bind] in R.
    destruct (ST t1 eq_refl) as (s1 & E1 & A1 & F1). rewrite E1. cbn [bind].
    destruct (IH t1 s1 t' C2 A1 R) as (s' & R' & A2 & F2). exists s'. split; auto. split; auto. intros l H. rewrite F2, F1; auto.
Qed.
End R.
