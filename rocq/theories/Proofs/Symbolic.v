(** Symbolic execution of slot programs over the free algebra of expressions:
    a program that is polymorphic in its field runs over every field as it
    does over expressions. *)
From Coq Require Import ZArith List Bool Lia Arith.
From Verif.Base Require Import Outcome Algebra Slots.
From Verif.Proofs Require Import SlotFacts Rename.
Import ListNotations.
Open Scope nat_scope.

Inductive ex := E0 | E1 | EV (l : loc) | EX (i j : nat) | EAd (a b : ex) | ESu (a b : ex) | EMu (a b : ex) | EOp (a : ex).
Definition Efld : fld :=
  {| fcar := ex; f0 := E0; f1 := E1; fadd := EAd; fsub := ESu; fmul := EMu; fopp := EOp;
     fdiv a b := E0; finv a := E0; feqb a b := false |}.
Definition plain {F : fld} (i : instr F) : bool := match i with IInv _ _ | IMulZ _ _ _ => false | _ => true end.
Definition dest {F : fld} (i : instr F) : loc :=
  match i with
  | IAdd d _ _ | ISub d _ _ | IMul d _ _ | INeg d _ | IDbl d _ | ISqr d _ | ISet d _ | IInv d _ | IMulZ d _ _ | IConst d _ | IMulC d _ _ => d
  end.
(** the value written *)
Definition wval {F : fld} (s : store F) (i : instr F) : F :=
  match i with
  | IAdd _ a b => fadd (s a) (s b) | ISub _ a b => fsub (s a) (s b) | IMul _ a b => fmul (s a) (s b)
  | INeg _ a => fopp (s a) | IDbl _ a => fadd (s a) (s a) | ISqr _ a => fmul (s a) (s a) | ISet _ a => s a
  | IConst _ c => c | IMulC _ a c => fmul (s a) c | _ => f0
  end.
Fixpoint srun {F : fld} (p : list (instr F)) (s : store F) : store F :=
  match p with [] => s | i :: p' => let v := wval s i in srun p' (upd s (dest i) v) end.
Lemma srun_ok : forall (F : fld) (p : list (instr F)) s, forallb plain p = true -> run p s = Ok (srun p s).
Proof.
  intros F p. induction p as [ | i p IH]; intros s H; [reflexivity | ]. cbn [forallb] in H. apply andb_true_iff in H. destruct H as [H1 H2].
  cbn [run srun]. destruct i; try discriminate; cbn [exec bind dest wval]; auto.
Qed.
Lemma srun_frame : forall (F : fld) (p : list (instr F)) s l, forallb (fun i => negb (obj_eqb (fst (dest i)) (fst l))) p = true -> srun p s l = s l.
Proof.
  intros F p. induction p as [ | i p IH]; intros s l H; [reflexivity | ]. cbn [forallb] in H. apply andb_true_iff in H. destruct H as [H1 H2].
  cbn [srun]. rewrite IH by auto. unfold upd, loc_eqb. destruct (obj_eqb_spec (fst l) (fst (dest i))) as [E | E]; auto.
  rewrite E in H1. rewrite obj_eqb_refl in H1. discriminate.
Qed.

Section D.
Variable K : fld.
Section Env.
Variables (s : store K) (xp : nat -> nat -> K).
Fixpoint den (e : ex) : K :=
  match e with
  | E0 => f0 | E1 => f1 | EV l => s l | EX i j => xp i j
  | EAd a b => fadd (den a) (den b) | ESu a b => fsub (den a) (den b) | EMu a b => fmul (den a) (den b) | EOp a => fopp (den a)
  end.
Definition imap (i : instr Efld) : instr K :=
  match i with
  | IAdd d a b => IAdd d a b | ISub d a b => ISub d a b | IMul d a b => IMul d a b | INeg d a => INeg d a | IDbl d a => IDbl d a
  | ISqr d a => ISqr d a | ISet d a => ISet d a | IInv d a => IInv d a | IMulZ d a n => IMulZ d a n
  | IConst d c => IConst d (den c) | IMulC d a c => IMulC d a (den c)
  end.
Lemma plain_imap : forall p, forallb plain p = true -> forallb plain (map imap p) = true.
Proof. induction p as [ | i p IH]; auto. cbn [forallb map]. rewrite !andb_true_iff. intros [A B]. split; auto. destruct i; auto. Qed.
Lemma srun_den : forall p (t : store Efld) u, forallb plain p = true -> (forall l, den (t l) = u l) -> forall l, den (srun p t l) = srun (map imap p) u l.
Proof.
  induction p as [ | i p IH]; intros t u P H l; [apply H | ]. cbn [forallb] in P. apply andb_true_iff in P. destruct P as [P1 P2].
  cbn [srun map]. apply IH; auto. intro a.
  assert (W : den (wval t i) = wval u (imap i)) by (destruct i; cbn [wval imap den fadd fsub fmul fopp Efld]; rewrite <- ?H; auto; discriminate).
  assert (Dd : dest (imap i) = dest i) by (destruct i; auto). rewrite Dd.
  unfold upd. destruct (loc_eqb a (dest i)); auto.
Qed.
End Env.

Definition rho3 (x y z : obj) (o : obj) : obj := match o with Reg 0 => x | Reg 1 => y | Reg 2 => z | _ => o end.
Definition regs3 (q : nat) : list obj := map Reg (seq 0 q) ++ [Tmp 0; Tmp 1; Tmp 2; Tmp 3].
(** number of registers of a pattern of equal arguments *)
Definition pats : list (nat * (nat * nat * nat)) := [(3, (0, 1, 2)); (2, (0, 0, 1)); (2, (0, 1, 0)); (2, (0, 1, 1)); (1, (0, 0, 0))].
Definition okdest (i : instr Efld) : bool := obj_eqb (fst (dest i)) (Reg 0) || existsb (obj_eqb (fst (dest i))) [Tmp 0; Tmp 1; Tmp 2; Tmp 3].
Definition good (pE : obj -> obj -> obj -> list (instr Efld)) : bool :=
  forallb (fun q => let '(k, (a, b, c)) := q in
    let p := pE (Reg a) (Reg b) (Reg c) in
    forallb plain p && covers Efld (regs3 k) p && forallb okdest p) pats.
Lemma covers_imap : forall s xp P p, covers Efld P p = true -> covers K P (map (imap s xp) p) = true.
Proof.
  intros s xp P p. unfold covers. induction p as [ | i p IH]; auto. cbn [forallb map]. rewrite !andb_true_iff. intros [A B]. split; auto. destruct i; auto.
Qed.
Variable xp : nat -> nat -> K.
Theorem small_ok : forall (n : nat) (pE : obj -> obj -> obj -> list (instr Efld)) (pK : obj -> obj -> obj -> list (instr K)) (V : (nat -> K) -> (nat -> K) -> nat -> K),
  good pE = true ->
  (forall t q, In q pats -> let '(k, (a, b, c)) := q in map (imap t xp) (pE (Reg a) (Reg b) (Reg c)) = pK (Reg a) (Reg b) (Reg c)) ->
  (forall x y z q, In q pats -> let '(k, (a, b, c)) := q in
     map (ren K (rho3 x y z)) (pK (Reg a) (Reg b) (Reg c)) = pK (rho3 x y z (Reg a)) (rho3 x y z (Reg b)) (rho3 x y z (Reg c))) ->
  (forall (t : store K) q i, In q pats -> i < n -> let '(k, (a, b, c)) := q in
     den t xp (srun (pE (Reg a) (Reg b) (Reg c)) EV (Reg 0, i)) = V (fun i => t (Reg b, i)) (fun i => t (Reg c, i)) i) ->
  forall r e f s, user r -> user e -> user f ->
  exists s', run (pK r e f) s = Ok s' /\ (forall i, i < n -> s' (r, i) = V (fun i => s (e, i)) (fun i => s (f, i)) i) /\
  (forall k i, Reg k <> r -> s' (Reg k, i) = s (Reg k, i)).
Proof.
  intros n pE pK V G Nat Ren Val r e f s Ur Ue Uf.
  assert (Go : forall q, In q pats -> let '(k, (a, b, c)) := q in forall x y z,
    (forall o o', In o (regs3 k) -> In o' (regs3 k) -> rho3 x y z o = rho3 x y z o' -> o = o') ->
    a = 0 -> rho3 x y z (Reg a) = r -> rho3 x y z (Reg b) = e -> rho3 x y z (Reg c) = f -> k <= 3 ->
    exists s', run (pK r e f) s = Ok s' /\ (forall i, i < n -> s' (r, i) = V (fun i => s (e, i)) (fun i => s (f, i)) i) /\
    (forall j i, Reg j <> r -> s' (Reg j, i) = s (Reg j, i))).
  { intros q Iq. destruct q as [k [[a b] c]] eqn:Eq. intros x y z Inj Ea Er Ee Ef Hk.
    set (t := (fun l => s (rho3 x y z (fst l), snd l)) : store K).
    pose proof (Nat t q) as Nq. pose proof (Ren x y z q) as Rq. pose proof (Val t q) as Vq.
    rewrite Eq in Nq, Rq, Vq. specialize (Nq Iq). specialize (Rq Iq).
    unfold good in G. rewrite forallb_forall in G. specialize (G _ Iq). cbv beta iota zeta in G. rewrite !andb_true_iff in G. destruct G as [[G1 G2] G3].
    set (p := pE (Reg a) (Reg b) (Reg c)) in *.
    pose proof (srun_ok K (map (imap t xp) p) t (plain_imap t xp p G1)) as R. rewrite Nq in R.
    assert (Cv : covers K (regs3 k) (pK (Reg a) (Reg b) (Reg c)) = true) by (rewrite <- Nq; apply covers_imap; auto).
    assert (Ag : agree K (rho3 x y z) (regs3 k) t s) by (intros o i Io; reflexivity).
    destruct (run_ren K (rho3 x y z) (regs3 k) Inj _ t s _ Cv Ag R) as (s' & R' & A' & F').
    - exists s'. rewrite Rq, Er, Ee, Ef in R'. split; auto.
      assert (T' : forall l, srun (pK (Reg a) (Reg b) (Reg c)) t l = den t xp (srun p EV l)).
      { intro l. rewrite <- Nq. symmetry. apply srun_den; auto. }
      assert (I0 : In (Reg 0) (regs3 k)).
      { unfold regs3. apply in_or_app. left. apply in_map. apply in_seq. clear -Iq. cbn in Iq. intuition (inversion H0 || inversion H; subst; lia). }
      split.
      + intros i Hi. rewrite Ea in Er. rewrite <- Er, <- (A' (Reg 0) i I0), T', (Vq i Iq Hi). unfold t. cbn [fst snd]. rewrite Ee, Ef. reflexivity.
      + intros j i Nj. destruct (in_dec (fun a b => match obj_eqb_spec a b with ReflectT _ E => left E | ReflectF _ N => right N end) (Reg j) (map (rho3 x y z) (regs3 k))) as [Ij | Ij].
        * apply in_map_iff in Ij. destruct Ij as (o & Eo & Io). rewrite <- Eo, <- (A' o i Io), T'.
          rewrite srun_frame; [reflexivity | ]. cbn [fst]. apply forallb_forall. intros ins Ii. rewrite forallb_forall in G3. specialize (G3 _ Ii). unfold okdest in G3.
          destruct (obj_eqb_spec (fst (dest ins)) o) as [E | E]; auto. exfalso. rewrite E in G3. apply orb_true_iff in G3. destruct G3 as [G3 | G3].
          -- destruct (obj_eqb_spec o (Reg 0)) as [E' | E']; [ | discriminate]. apply Nj. rewrite <- Eo, E', <- Er, Ea. reflexivity.
          -- apply existsb_exists in G3. destruct G3 as (u & Iu & Eu). destruct (obj_eqb_spec o u) as [E' | E']; [ | discriminate]. subst u.
             cbn in Iu. destruct Iu as [X | [X | [X | [X | []]]]]; subst o; discriminate Eo.
        * apply F'. intros o Io X. apply Ij. cbn [fst] in X. rewrite X. apply in_map. auto. }
  assert (Tm : forall o j, user o -> j < 8 -> o <> Tmp j) by (intros o j U Hj E; apply (U j); auto).
  assert (Inj3 : r <> e -> r <> f -> e <> f -> forall o o', In o (regs3 3) -> In o' (regs3 3) -> rho3 r e f o = rho3 r e f o' -> o = o').
  { intros N1 N2 N3 o o' I I'. cbn in I, I'.
    destruct I as [I | [I | [I | [I | [I | [I | [I | []]]]]]]]; destruct I' as [I' | [I' | [I' | [I' | [I' | [I' | [I' | []]]]]]]]; subst o o'; cbn [rho3]; intro E; try reflexivity; try congruence;
      exfalso; first [apply (Tm r _ Ur) in E; [auto | lia] | apply (Tm e _ Ue) in E; [auto | lia] | apply (Tm f _ Uf) in E; [auto | lia]
      | symmetry in E; apply (Tm r _ Ur) in E; [auto | lia] | symmetry in E; apply (Tm e _ Ue) in E; [auto | lia] | symmetry in E; apply (Tm f _ Uf) in E; [auto | lia]]. }
  assert (Inj2 : forall v, user v -> r <> v -> forall o o', In o (regs3 2) -> In o' (regs3 2) -> rho3 r v v o = rho3 r v v o' -> o = o').
  { intros v Uv N1 o o' I I'. cbn in I, I'.
    destruct I as [I | [I | [I | [I | [I | [I | []]]]]]]; destruct I' as [I' | [I' | [I' | [I' | [I' | [I' | []]]]]]]; subst o o'; cbn [rho3]; intro E; try reflexivity; try congruence;
      exfalso; first [apply (Tm r _ Ur) in E; [auto | lia] | apply (Tm v _ Uv) in E; [auto | lia]
      | symmetry in E; apply (Tm r _ Ur) in E; [auto | lia] | symmetry in E; apply (Tm v _ Uv) in E; [auto | lia]]. }
  assert (Inj1 : forall o o', In o (regs3 1) -> In o' (regs3 1) -> rho3 r r r o = rho3 r r r o' -> o = o').
  { intros o o' I I'. cbn in I, I'.
    destruct I as [I | [I | [I | [I | [I | []]]]]]; destruct I' as [I' | [I' | [I' | [I' | [I' | []]]]]]; subst o o'; cbn [rho3]; intro E; try reflexivity; try congruence;
      exfalso; first [apply (Tm r _ Ur) in E; [auto | lia] | symmetry in E; apply (Tm r _ Ur) in E; [auto | lia]]. }
  destruct (obj_eqb_spec r e) as [Ee | Ee]; destruct (obj_eqb_spec r f) as [Ef | Ef].
  - pose proof (Go (1, (0, 0, 0)) ltac:(cbn; tauto)) as H; cbv beta iota in H; apply (H r r r); first [exact Inj1 | solve [cbn [rho3]; auto] | apply Inj2; auto; congruence | apply Inj3; auto].
  - pose proof (Go (2, (0, 0, 1)) ltac:(cbn; tauto)) as H; cbv beta iota in H; apply (H r f f); first [exact Inj1 | solve [cbn [rho3]; auto] | apply Inj2; auto; congruence | apply Inj3; auto].
  - pose proof (Go (2, (0, 1, 0)) ltac:(cbn; tauto)) as H; cbv beta iota in H; apply (H r e e); first [exact Inj1 | solve [cbn [rho3]; auto] | apply Inj2; auto; congruence | apply Inj3; auto].
  - destruct (obj_eqb_spec e f) as [Eef | Eef].
    + pose proof (Go (2, (0, 1, 1)) ltac:(cbn; tauto)) as H; cbv beta iota in H; apply (H r e e); first [exact Inj1 | solve [cbn [rho3]; auto] | apply Inj2; auto; congruence | apply Inj3; auto].
    + pose proof (Go (3, (0, 1, 2)) ltac:(cbn; tauto)) as H; cbv beta iota in H; apply (H r e f); first [exact Inj1 | solve [cbn [rho3]; auto] | apply Inj2; auto; congruence | apply Inj3; auto].
Qed.
End D.
