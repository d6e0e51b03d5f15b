(** Integer images in a field, and the store machine. *)
From Coq Require Import ZArith List Bool Lia Ring Field.
From Verif.Base Require Import Outcome Algebra Slots.
From Verif.Proofs Require Import FieldFacts.
Import ListNotations.

Section S.
Variable K : fld.
Hypothesis HK : fld_laws K.
Add Field KFs : (fl_field K HK).
Notation "x + y" := (fadd x y). Notation "x - y" := (fsub x y). Notation "x * y" := (fmul x y). Notation "- x" := (fopp x).

Lemma iter_succ : forall p (a : K), Pos.iter_op fadd (Pos.succ p) a = a + Pos.iter_op fadd p a.
Proof. intros. apply Pos.iter_op_succ. intros. ring. Qed.
Lemma fofz_1 : fofz 1 = (f1 : K). Proof. reflexivity. Qed.
Lemma fofz_2 : fofz 2 = (f1 + f1 : K). Proof. reflexivity. Qed.
Lemma fofz_opp : forall n, fofz (Z.opp n) = (- fofz n : K).
Proof. destruct n; simpl; ring. Qed.
Lemma fofz_succ : forall n, fofz (Z.succ n) = (fofz n + f1 : K).
Proof.
  destruct n as [ | p | p].
  - simpl. ring.
  - rewrite <- Pos2Z.inj_succ. cbn [fofz]. rewrite iter_succ. ring.
  - destruct (Pos.eq_dec p 1) as [E | E].
    + subst. simpl. ring.
    + replace (Z.neg p) with (Z.opp (Z.succ (Z.pos (Pos.pred p)))) by (rewrite <- Pos2Z.inj_succ, Pos.succ_pred by auto; auto).
      replace (Z.succ (Z.opp (Z.succ (Z.pos (Pos.pred p))))) with (Z.opp (Z.pos (Pos.pred p))) by lia.
      rewrite !fofz_opp. rewrite <- Pos2Z.inj_succ. cbn [fofz]. rewrite iter_succ. ring.
Qed.
Lemma fofz_add : forall n m, fofz (n + m) = (fofz n + fofz m : K).
Proof.
  intros n m. revert n. apply (Z.peano_ind (fun m => forall n, fofz (n + m)%Z = (fofz n + fofz m : K))); clear m.
  - intro. rewrite Z.add_0_r. cbn [fofz]. ring.
  - intros m IH n. rewrite Z.add_succ_r, !fofz_succ, IH. ring.
  - intros m IH n.
    assert (E : forall z, fofz (Z.pred z) = (fofz z - f1 : K)) by (intro z; rewrite <- (Z.succ_pred z) at 2; rewrite fofz_succ; ring).
    rewrite Z.add_pred_r, !E, IH. ring.
Qed.
Lemma fofz_mul : forall n m, fofz (n * m) = (fofz n * fofz m : K).
Proof.
  intros n m. revert n. apply (Z.peano_ind (fun m => forall n, fofz (n * m)%Z = (fofz n * fofz m : K))); clear m.
  - intro. rewrite Z.mul_0_r. cbn [fofz]. ring.
  - intros m IH n. rewrite Z.mul_succ_r, fofz_add, fofz_succ, IH. ring.
  - intros m IH n.
    assert (E : forall z, fofz (Z.pred z) = (fofz z - f1 : K)) by (intro z; rewrite <- (Z.succ_pred z) at 2; rewrite fofz_succ; ring).
    rewrite Z.mul_pred_r. unfold Z.sub. rewrite fofz_add, fofz_opp, E, IH. ring.
Qed.
End S.


Lemma obj_eqb_spec : forall a b, reflect (a = b) (obj_eqb a b).
Proof. intros [n|n] [m|m]; cbn [obj_eqb]; try (constructor; congruence); destruct (Nat.eqb_spec n m); constructor; congruence. Qed.
Lemma obj_eqb_refl : forall a, obj_eqb a a = true. Proof. intro a. destruct (obj_eqb_spec a a); auto. Qed.
Lemma obj_eqb_neq : forall a b, a <> b -> obj_eqb a b = false. Proof. intros a b H. destruct (obj_eqb_spec a b); auto. contradiction. Qed.

(** Objects other than the base-field temporaries. *)
Definition user (o : obj) : Prop := forall j, (j < 8)%nat -> o <> Tmp j.
Lemma user_reg : forall n, user (Reg n). Proof. intros n j _. discriminate. Qed.
Lemma user_tmp : forall j, (8 <= j)%nat -> user (Tmp j). Proof. intros j H i Hi E. inversion E. lia. Qed.
Lemma user_1 : forall o j, user o -> (j < 8)%nat -> obj_eqb o (Tmp j) = false. Proof. intros. apply obj_eqb_neq. apply H; auto. Qed.
Lemma user_2 : forall o j, user o -> (j < 8)%nat -> obj_eqb (Tmp j) o = false. Proof. intros. apply obj_eqb_neq. apply not_eq_sym. apply H; auto. Qed.

Lemma run_app : forall (K : fld) (p q : list (instr K)) s, run (p ++ q) s = bind (run p s) (run q).
Proof. induction p as [ | i p IH]; intros; [reflexivity | ]. cbn [app run]. destruct (exec s i); cbn [bind]; auto. Qed.

(** Symbolic execution of a straight-line program whose objects are
    variables: equalities between them are split beforehand; every read is
    resolved when its instruction is executed. *)
Section R.
Variable K : fld.
Implicit Types (s : store K) (l d a b : loc) (u v c : K) (p : list (instr K)).
Lemma upd_hit : forall s l v a, loc_eqb a l = true -> upd s l v a = v. Proof. intros. unfold upd. rewrite H. auto. Qed.
Lemma upd_miss : forall s l v a u, loc_eqb a l = false -> s a = u -> upd s l v a = u. Proof. intros. unfold upd. rewrite H. auto. Qed.
Lemma run_add : forall s p d a b u v, s a = u -> s b = v -> run (IAdd d a b :: p) s = run p (upd s d (fadd u v)). Proof. intros; subst; auto. Qed.
Lemma run_sub : forall s p d a b u v, s a = u -> s b = v -> run (ISub d a b :: p) s = run p (upd s d (fsub u v)). Proof. intros; subst; auto. Qed.
Lemma run_mul : forall s p d a b u v, s a = u -> s b = v -> run (IMul d a b :: p) s = run p (upd s d (fmul u v)). Proof. intros; subst; auto. Qed.
Lemma run_neg : forall s p d a u, s a = u -> run (INeg d a :: p) s = run p (upd s d (fopp u)). Proof. intros; subst; auto. Qed.
Lemma run_dbl : forall s p d a u, s a = u -> run (IDbl d a :: p) s = run p (upd s d (fadd u u)). Proof. intros; subst; auto. Qed.
Lemma run_sqr : forall s p d a u, s a = u -> run (ISqr d a :: p) s = run p (upd s d (fmul u u)). Proof. intros; subst; auto. Qed.
Lemma run_set : forall s p d a u, s a = u -> run (ISet d a :: p) s = run p (upd s d u). Proof. intros; subst; auto. Qed.
Lemma run_inv : forall s p d a u, s a = u -> run (IInv d a :: p) s = bind (finvert u) (fun v => run p (upd s d v)).
Proof. intros; subst; cbn [run exec]. destruct (finvert (s a)); reflexivity. Qed.
Lemma run_mulz : forall s p d a n u, s a = u -> run (IMulZ d a n :: p) s = run p (upd s d (fmul (fofz n) u)). Proof. intros; subst; auto. Qed.
Lemma run_const : forall s p d c, run (IConst d c :: p) s = run p (upd s d c). Proof. auto. Qed.
Lemma run_mulc : forall s p d a c u, s a = u -> run (IMulC d a c :: p) s = run p (upd s d (fmul u c)). Proof. intros; subst; auto. Qed.
End R.

Ltac loc_cmp :=
  unfold loc_eqb; cbn [fst snd Nat.eqb];
  match goal with
  | |- obj_eqb ?a ?a && _ = _ => rewrite (obj_eqb_refl a)
  | |- obj_eqb (Tmp _) (Tmp _) && _ = _ => cbn [obj_eqb Nat.eqb]
  | H : user ?o |- obj_eqb ?o (Tmp ?j) && _ = _ => rewrite (user_1 o j H) by lia
  | H : user ?o |- obj_eqb (Tmp ?j) ?o && _ = _ => rewrite (user_2 o j H) by lia
  | H : ?a <> ?b |- obj_eqb ?a ?b && _ = _ => rewrite (obj_eqb_neq a b H)
  | H : ?b <> ?a |- obj_eqb ?a ?b && _ = _ => rewrite (obj_eqb_neq a b (not_eq_sym H))
  | |- obj_eqb ?a ?b && false = _ => rewrite (andb_false_r (obj_eqb a b))
  end; reflexivity.
Ltac lookup :=
  lazymatch goal with
  | |- upd _ _ _ _ = _ => first [eapply upd_hit; loc_cmp | eapply upd_miss; [loc_cmp | lookup]]
  | |- _ => reflexivity
  end.
Ltac slot_step :=
  lazymatch goal with
  | |- context [run (IAdd _ _ _ :: _) _] => erewrite run_add; [ | lookup | lookup]
  | |- context [run (ISub _ _ _ :: _) _] => erewrite run_sub; [ | lookup | lookup]
  | |- context [run (IMul _ _ _ :: _) _] => erewrite run_mul; [ | lookup | lookup]
  | |- context [run (INeg _ _ :: _) _] => erewrite run_neg; [ | lookup]
  | |- context [run (IDbl _ _ :: _) _] => erewrite run_dbl; [ | lookup]
  | |- context [run (ISqr _ _ :: _) _] => erewrite run_sqr; [ | lookup]
  | |- context [run (ISet _ _ :: _) _] => erewrite run_set; [ | lookup]
  | |- context [run (IMulZ _ _ _ :: _) _] => erewrite run_mulz; [ | lookup]
  | |- context [run (IConst _ _ :: _) _] => rewrite run_const
  | |- context [run (IMulC _ _ _ :: _) _] => erewrite run_mulc; [ | lookup]
  end.
Ltac inv_step := erewrite run_inv; [ | lookup].
