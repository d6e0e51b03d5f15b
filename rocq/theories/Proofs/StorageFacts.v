(** Storage of elements and fields: what initialisation allocates, clearing releases. *)
From Coq Require Import List ZArith Bool Arith Lia.
From Verif.Base Require Import Outcome.
From Verif.Model Require Import Mnt Miller PairingD Storage.
Import ListNotations.
Local Open Scope nat_scope.

Definition one (p q : path) : nat := if path_dec p q then 1 else 0.
Fixpoint count (p : path) (l : list path) : nat := match l with [] => 0 | q :: l' => one p q + count p l' end.
Lemma one_refl : forall p, one p p = 1. Proof. intros p; unfold one; destruct (path_dec p p); congruence. Qed.
Lemma count_cons : forall p q l, count p (q :: l) = one p q + count p l. Proof. reflexivity. Qed.
Lemma count_nil : forall p, count p [] = 0. Proof. reflexivity. Qed.
Lemma count_app : forall p a b, count p (a ++ b) = count p a + count p b.
Proof. induction a as [|x a IH]; intros b; simpl; [reflexivity|]. rewrite IH; lia. Qed.
Lemma count_in : forall p l, In p l <-> 0 < count p l.
Proof.
  induction l as [|q l IH]; simpl; [split; [tauto|lia]|]. unfold one. destruct (path_dec p q) as [->|N].
  - split; [lia|auto].
  - split; [intros [E|I]; [congruence|apply IH in I; lia]|intros H; right; apply IH; lia].
Qed.
Lemma count_flat : forall {A} (f : A -> list path) p l1 x l2, count p (flat_map f (l1 ++ x :: l2)) = count p (f x) + count p (flat_map f (l1 ++ l2)).
Proof. intros A f p l1 x l2. rewrite !flat_map_app, !count_app. simpl. rewrite count_app. lia. Qed.
Lemma count_all0 : forall l, (forall p, count p l = 0) -> l = [].
Proof. intros [|q l] H; [reflexivity|]. specialize (H q). simpl in H. rewrite one_refl in H. lia. Qed.

Lemma remove_ok : forall p h, 0 < count p h -> exists h', remove p h = Ok h' /\ forall q, count q h' + one q p = count q h.
Proof.
  induction h as [|x h IH]; simpl; [lia|]. intros H. destruct (path_dec p x) as [->|N].
  - exists h; split; [reflexivity|]. intros q; lia.
  - unfold one in H at 1. destruct (path_dec p x) in H; [congruence|]. destruct (IH H) as (h' & E & C). rewrite E. cbn.
    exists (x :: h'); split; [reflexivity|]. intros q. simpl. specialize (C q). lia.
Qed.

(** What a program does to the blocks: releases those of [A], then holds those of [B]. *)
Definition does (m : prog) (h : heap) (A B : list path) : Prop :=
  exists h', m h = Ok h' /\ forall q, count q h' + count q A = count q h + count q B.
Definition Inits (N : list path) (m : prog) (B : list path) : Prop :=
  forall h, (forall q, In q N -> 0 < count q h) -> does m h [] B.
Definition Clears (N : list path) (m : prog) (A : list path) : Prop :=
  forall h, (forall q, count q A <= count q h) -> (forall q, In q N -> count q A < count q h) -> does m h A [].
Definition same (A B : list path) : Prop := forall q, count q A = count q B.

Ltac cnt := repeat (rewrite count_app in * || rewrite count_cons in * || rewrite count_nil in *).
Ltac sm := let q := fresh "q" in intros q; repeat rewrite ?count_app, ?count_cons, ?count_nil; lia.

Lemma I_alloc : forall M p, Inits M (alloc p) [p].
Proof. intros M p h _. exists (p :: h); split; [reflexivity|sm]. Qed.
Lemma I_skip : forall M, Inits M skip [].
Proof. intros M h _. exists h; split; [reflexivity|sm]. Qed.
Lemma I_need : forall p, Inits [p] (need p) [].
Proof.
  intros p h H. exists h; split; [|sm]. unfold need. destruct (in_dec path_dec p h) as [_|N]; [reflexivity|].
  exfalso; apply N, count_in, H; left; reflexivity.
Qed.
Definition hl (h : option path) : list path := match h with Some b => [b] | None => [] end.
Lemma I_touch : forall h, Inits (hl h) (touch h) [].
Proof. intros [b|]; [apply I_need|apply I_skip]. Qed.
Lemma I_weak : forall N M m B, Inits N m B -> incl N M -> Inits M m B.
Proof. intros N M m B H I h Hh. apply H. intros q Hq; apply Hh, I, Hq. Qed.
Lemma I_same : forall M m B B', Inits M m B -> same B B' -> Inits M m B'.
Proof. intros M m B B' H S h Hh. destruct (H h Hh) as (h' & E & C). exists h'; split; [exact E|]. intros q; rewrite <- S; apply C. Qed.
Lemma I_then : forall N N' M m k B B', Inits N m B -> Inits N' k B' -> incl N M -> (forall q, In q N' -> In q M \/ In q B) ->
  Inits M (m >> k) (B ++ B').
Proof.
  intros N N' M m k B B' H K I J h Hh. destruct (H h) as (h1 & E1 & C1). { intros q Hq; apply Hh, I, Hq. }
  destruct (K h1) as (h2 & E2 & C2).
  { intros q Hq. specialize (C1 q). rewrite count_nil in C1. destruct (J q Hq) as [Q|Q]; [specialize (Hh q Q)|apply count_in in Q]; lia. }
  exists h2; split; [unfold andthen; rewrite E1; exact E2|]. intros q. specialize (C1 q). specialize (C2 q). cnt. lia.
Qed.
Lemma I_seq : forall M m k B B', Inits M m B -> Inits M k B' -> Inits M (m >> k) (B ++ B').
Proof. intros M m k B B' H K. apply (I_then M M M); auto. apply incl_refl. Qed.

Lemma C_release : forall M p, Clears M (release p) [p].
Proof.
  intros M p h H _. destruct (remove_ok p h) as (h' & E & C). { specialize (H p). simpl in H. rewrite one_refl in H. lia. }
  exists h'; split; [exact E|]. intros q. rewrite count_cons, !count_nil. specialize (C q). lia.
Qed.
Lemma C_skip : forall M, Clears M skip [].
Proof. intros M h _ _. exists h; split; [reflexivity|sm]. Qed.
Lemma C_need : forall p, Clears [p] (need p) [].
Proof. intros p h _ H. apply I_need. intros q Hq. specialize (H q Hq). rewrite count_nil in H. exact H. Qed.
Lemma C_touch : forall h, Clears (hl h) (touch h) [].
Proof. intros [b|]; [apply C_need|apply C_skip]. Qed.
Lemma C_weak : forall N M m A, Clears N m A -> incl N M -> Clears M m A.
Proof. intros N M m A H I h Hs Hh. apply H; [exact Hs|]. intros q Hq; apply Hh, I, Hq. Qed.
Lemma C_same : forall M m A A', Clears M m A -> same A A' -> Clears M m A'.
Proof.
  intros M m A A' H S h Hs Hh. destruct (H h) as (h' & E & C).
  - intros q; rewrite S; apply Hs.
  - intros q Hq; rewrite S; apply Hh, Hq.
  - exists h'; split; [exact E|]. intros q; rewrite <- S; apply C.
Qed.
Lemma C_then : forall N M m k A A', Clears N m A -> Clears M k A' -> (forall q, In q N -> In q M \/ In q A') -> Clears M (m >> k) (A ++ A').
Proof.
  intros N M m k A A' H K J h Hs Hh. destruct (H h) as (h1 & E1 & C1).
  - intros q. specialize (Hs q). cnt. lia.
  - intros q Hq. specialize (Hs q). destruct (J q Hq) as [Q|Q]; [specialize (Hh q Q)|apply count_in in Q]; cnt; lia.
  - destruct (K h1) as (h2 & E2 & C2).
    + intros q. specialize (Hs q). specialize (C1 q). cnt. lia.
    + intros q Hq. specialize (Hh q Hq). specialize (C1 q). cnt. lia.
    + exists h2; split; [unfold andthen; rewrite E1; exact E2|]. intros q. specialize (C1 q). specialize (C2 q). cnt. lia.
Qed.
Lemma C_seq : forall M m k A A', Clears M m A -> Clears M k A' -> Clears M (m >> k) (A ++ A').
Proof. intros M m k A A' H K. apply (C_then M M); auto. Qed.

Fixpoint cat (n : nat) (B : nat -> list path) : list path := match n with O => [] | S n' => cat n' B ++ B n' end.
Lemma I_upto : forall M g B n, (forall i, i < n -> Inits M (g i) (B i)) -> Inits M (upto n g) (cat n B).
Proof. intros M g B. induction n as [|n IH]; intros H; [apply I_skip|]. simpl. apply I_seq; [apply IH; intros; apply H; lia|apply H; lia]. Qed.
Lemma C_upto : forall M g B n, (forall i, i < n -> Clears M (g i) (B i)) -> Clears M (upto n g) (cat n B).
Proof. intros M g B. induction n as [|n IH]; intros H; [apply C_skip|]. simpl. apply C_seq; [apply IH; intros; apply H; lia|apply H; lia]. Qed.
Lemma I_each : forall {X} M (g : X -> prog) B l, (forall x, In x l -> Inits M (g x) (B x)) -> Inits M (each l g) (flat_map B l).
Proof. intros X M g B. induction l as [|x l IH]; intros H; [apply I_skip|]. simpl. apply I_seq; [apply H; left; reflexivity|apply IH; intros; apply H; right; assumption]. Qed.
Lemma C_each : forall {X} M (g : X -> prog) B l, (forall x, In x l -> Clears M (g x) (B x)) -> Clears M (each l g) (flat_map B l).
Proof. intros X M g B. induction l as [|x l IH]; intros H; [apply C_skip|]. simpl. apply C_seq; [apply H; left; reflexivity|apply IH; intros; apply H; right; assumption]. Qed.
Lemma cat_same : forall A B n, (forall i, i < n -> same (A i) (B i)) -> same (cat n A) (cat n B).
Proof. intros A B n. induction n as [|n IH]; intros H q; [reflexivity|]. simpl. rewrite !count_app, (IH ltac:(intros; apply H; lia) q), (H n ltac:(lia) q). reflexivity. Qed.

(** ** Elements *)
Fixpoint cells (f : field) (e : path) : list path :=
  match f with
  | Fp Mont _ _ | Fp Faster _ _ | Fp Naive _ _ => [0 :: e; 1 :: e]
  | Fp Fast _ _ | Fp Tiny _ _ | Gf3m _ _ => [0 :: e]
  | Quad _ _ b | Eta _ _ b | Curve _ _ b _ _ => [0 :: e] ++ cells b (1 :: e) ++ cells b (2 :: e)
  | Cubic _ _ b => [0 :: e] ++ cells b (1 :: e) ++ cells b (2 :: e) ++ cells b (3 :: e)
  | Poly _ _ _ => [0 :: e; 1 :: e]
  | PolyMod _ _ n _ _ b => [0 :: e] ++ cat n (fun i => cells b (S i :: e))
  | MulG _ _ b => [0 :: e] ++ cells b (1 :: e)
  end.
Fixpoint needs (f : field) : list path :=
  hl (home_of f) ++
  match f with
  | Fp Naive _ _ | Fp Tiny _ _ | Poly _ _ _ => []
  | Fp _ s _ | Gf3m s _ => [1 :: s]
  | Quad _ _ b | Eta _ _ b | Cubic _ _ b | MulG _ _ b => needs b
  | PolyMod s _ _ _ _ b | Curve s _ b _ _ => (1 :: s) :: needs b
  end.
Fixpoint cneeds (f : field) : list path :=
  hl (home_of f) ++
  match f with
  | Fp _ _ _ | Gf3m _ _ | Poly _ _ _ => []
  | Quad _ _ b | Eta _ _ b | Cubic _ _ b | MulG _ _ b | Curve _ _ b _ _ => cneeds b
  | PolyMod s _ _ _ _ b => (1 :: s) :: cneeds b
  end.

Ltac inn := let q := fresh in let H := fresh in intros q H; repeat (rewrite ?in_app_iff in *; simpl in *); tauto.
Lemma I_need' : forall M p, In p M -> Inits M (need p) [].
Proof. intros M p H. apply (I_weak [p]); [apply I_need|]. intros q [<-|[]]; exact H. Qed.
Lemma C_need' : forall M p, In p M -> Clears M (need p) [].
Proof. intros M p H. apply (C_weak [p]); [apply C_need|]. intros q [<-|[]]; exact H. Qed.
Lemma I_nseq : forall M p k B, In p M -> Inits M k B -> Inits M (need p >> k) B.
Proof. intros M p k B H K. apply (I_seq _ _ _ []); [apply I_need', H|exact K]. Qed.
Lemma C_nseq : forall M p k B, In p M -> Clears M k B -> Clears M (need p >> k) B.
Proof. intros M p k B H K. apply (C_seq _ _ _ []); [apply C_need', H|exact K]. Qed.
Lemma I_touch' : forall M h, incl (hl h) M -> Inits M (touch h) [].
Proof. intros M h H. apply (I_weak (hl h)); [apply I_touch|exact H]. Qed.
Lemma C_touch' : forall M h, incl (hl h) M -> Clears M (touch h) [].
Proof. intros M h H. apply (C_weak (hl h)); [apply C_touch|exact H]. Qed.

Lemma elem_init_ok : forall f e, Inits (needs f) (elem_init f e) (cells f e).
Proof.
  induction f as [im s h|s h|s h b IH|s h b IH|s h b IH|s h n rs rh b IH|s h b IH cf qc|s h b IH|s h b IH]; intros e; cbn [elem_init cells needs];
  refine (I_seq _ _ _ [] _ (I_touch' _ _ (incl_appl _ (incl_refl _))) _); cbn [home_of].
  - destruct im.
    + apply I_nseq; [apply in_or_app; right; left; reflexivity|]. apply (I_seq _ _ _ [_] [_]); apply I_alloc.
    + apply I_nseq; [apply in_or_app; right; left; reflexivity|]. apply I_alloc.
    + apply I_nseq; [apply in_or_app; right; left; reflexivity|]. apply (I_seq _ _ _ [_] [_]); apply I_alloc.
    + apply (I_seq _ _ _ [_] [_]); apply I_alloc.
    + apply I_alloc.
  - apply I_nseq; [apply in_or_app; right; left; reflexivity|]. apply I_alloc.
  - refine (I_weak (needs b) _ _ _ _ (incl_appr _ (incl_refl _))).
    apply (I_seq _ _ _ [_]); [apply I_alloc|]. apply I_seq; apply IH.
  - refine (I_weak (needs b) _ _ _ _ (incl_appr _ (incl_refl _))).
    apply (I_seq _ _ _ [_]); [apply I_alloc|]. repeat apply I_seq; apply IH.
  - apply (I_seq _ _ _ [_] [_]); apply I_alloc.
  - apply I_nseq; [apply in_or_app; right; left; reflexivity|].
    refine (I_weak (needs b) _ _ _ _ (incl_appr _ (incl_tl _ (incl_refl _)))).
    apply (I_seq _ _ _ [_]); [apply I_alloc|]. apply (I_upto (needs b) (fun i => elem_init b (S i :: e)) (fun i => cells b (S i :: e))).
    intros i _; apply IH.
  - apply I_nseq; [apply in_or_app; right; left; reflexivity|].
    refine (I_weak (needs b) _ _ _ _ (incl_appr _ (incl_tl _ (incl_refl _)))).
    apply (I_seq _ _ _ [_]); [apply I_alloc|]. apply I_seq; apply IH.
  - refine (I_weak (needs b) _ _ _ _ (incl_appr _ (incl_refl _))).
    apply (I_seq _ _ _ [_]); [apply I_alloc|]. apply I_seq; apply IH.
  - refine (I_weak (needs b) _ _ _ _ (incl_appr _ (incl_refl _))).
    apply (I_seq _ _ _ [_]); [apply I_alloc|]. apply IH.
Qed.

Lemma elem_clear_ok : forall f e, Clears (cneeds f) (elem_clear f e) (cells f e).
Proof.
  induction f as [im s h|s h|s h b IH|s h b IH|s h b IH|s h n rs rh b IH|s h b IH cf qc|s h b IH|s h b IH]; intros e; cbn [elem_clear cells cneeds];
  refine (C_seq _ _ _ [] _ (C_touch' _ _ (incl_appl _ (incl_refl _))) _); cbn [home_of].
  - destruct im; try apply C_release; (eapply C_same; [apply C_seq; apply C_release|sm]).
  - apply C_release.
  - refine (C_weak (cneeds b) _ _ _ _ (incl_appr _ (incl_refl _))).
    eapply C_same; [apply C_seq; [apply IH|apply C_seq; [apply IH|apply C_release]]|sm].
  - refine (C_weak (cneeds b) _ _ _ _ (incl_appr _ (incl_refl _))).
    eapply C_same; [apply C_seq; [apply IH|apply C_seq; [apply IH|apply C_seq; [apply IH|apply C_release]]]|sm].
  - eapply C_same; [apply C_seq; apply C_release|sm].
  - apply C_nseq; [apply in_or_app; right; left; reflexivity|].
    refine (C_weak (cneeds b) _ _ _ _ (incl_appr _ (incl_tl _ (incl_refl _)))).
    eapply C_same; [apply C_seq; [|apply C_release]|].
    + apply (C_upto (cneeds b) (fun i => elem_clear b (S i :: e)) (fun i => cells b (S i :: e))). intros i _; apply IH.
    + sm.
  - refine (C_weak (cneeds b) _ _ _ _ (incl_appr _ (incl_refl _))).
    eapply C_same; [apply C_seq; [apply IH|apply C_seq; [apply IH|apply C_release]]|sm].
  - refine (C_weak (cneeds b) _ _ _ _ (incl_appr _ (incl_refl _))).
    eapply C_same; [apply C_seq; [apply IH|apply C_seq; [apply IH|apply C_release]]|sm].
  - refine (C_weak (cneeds b) _ _ _ _ (incl_appr _ (incl_refl _))).
    eapply C_same; [apply C_seq; [apply IH|apply C_release]|sm].
Qed.

(** ** Polynomials with coefficients *)
Definition pcells (b : field) (e : path) (n : nat) : list path := cat n (fun i => [2 * i + 2 :: e] ++ cells b (2 * i + 3 :: e)).
Lemma poly_grow_ok : forall rs rh b e n, Inits (hl rh ++ [1 :: rs] ++ needs b) (poly_grow rs rh b e n) (pcells b e n).
Proof.
  intros rs rh b e n. unfold poly_grow.
  refine (I_seq _ _ _ [] _ (I_touch' _ _ (incl_appl _ (incl_refl _))) _).
  apply I_nseq; [apply in_or_app; right; left; reflexivity|].
  refine (I_weak (needs b) _ _ _ _ (incl_appr _ (incl_tl _ (incl_refl _)))).
  apply (I_upto (needs b) (fun i => alloc (2 * i + 2 :: e) >> elem_init b (2 * i + 3 :: e)) (fun i => [2 * i + 2 :: e] ++ cells b (2 * i + 3 :: e))).
  intros i _. apply I_seq; [apply I_alloc|apply elem_init_ok].
Qed.
Lemma poly_shrink_ok : forall b e n, Clears (cneeds b) (poly_shrink b e n) (pcells b e n).
Proof.
  intros b e n. apply (C_upto (cneeds b) (fun i => elem_clear b (2 * i + 3 :: e) >> release (2 * i + 2 :: e)) (fun i => [2 * i + 2 :: e] ++ cells b (2 * i + 3 :: e))).
  intros i _. eapply C_same; [apply C_seq; [apply elem_clear_ok|apply C_release]|sm].
Qed.

Lemma cneeds_needs : forall f, incl (cneeds f) (needs f).
Proof.
  induction f; cbn [cneeds needs home_of]; try destruct im; intros q H; rewrite in_app_iff in *; simpl in *; try tauto;
  repeat match goal with H : _ \/ _ |- _ => destruct H as [H|H] end; auto.
Qed.

(** ** Fields *)
Definition base_needs (f : field) : list path :=
  match f with
  | Fp _ _ _ | Gf3m _ _ | Quad _ _ _ | Cubic _ _ _ | Poly _ _ _ | Eta _ _ _ | MulG _ _ _ => []
  | PolyMod _ _ _ rs rh b => hl rh ++ [1 :: rs] ++ needs b
  | Curve _ _ b _ _ => needs b
  end.
Definition quot (f : field) : list path := match f with Curve s _ _ _ true => [10 :: s; 11 :: s] | _ => [] end.
Definition fcells (f : field) : list path :=
  let s := name_of f in
  match f with
  | Fp im _ _ => (0 :: s) :: fp_blocks im s
  | Gf3m _ _ => [0 :: s; 1 :: s; 2 :: s; 3 :: s]
  | Quad _ _ _ | Cubic _ _ _ | Eta _ _ _ | MulG _ _ _ => [0 :: s]
  | Poly _ _ _ => [0 :: s; 1 :: s]
  | PolyMod _ _ n rs rh b =>
      [0 :: s; 1 :: s; 0 :: 2 :: s; 1 :: 2 :: s; 3 :: s] ++ pcells b (2 :: s) (n + 1) ++ cat n (fun i => cells f (i :: 3 :: s))
  | Curve _ _ b cf _ =>
      [0 :: s; 1 :: s] ++ cells b (2 :: s) ++ cells b (3 :: s) ++ cells f (4 :: s) ++ cells f (5 :: s) ++ (if cf then [6 :: s; 7 :: s] else [])
  end.
Definition ncells (f : field) (nq : bool) : list path := if nq then [8 :: name_of f] ++ cells f (9 :: name_of f) else [].

Lemma each_alloc : forall M l, Inits M (each l alloc) l.
Proof. intros M. induction l as [|x l IH]; [apply I_skip|]. simpl. apply (I_seq _ _ _ [_]); [apply I_alloc|exact IH]. Qed.

(** A temporary inside an initialisation. *)
Lemma I_temp : forall M N m k t B B', Inits M m t -> Inits M k B -> Clears N (fun h => B' h) t ->
  incl N M -> Inits M (m >> k >> (fun h => B' h)) B.
Proof.
  intros M N m k t B B' Hm Hk Hc I h Hh. destruct (Hm h Hh) as (h1 & E1 & C1).
  destruct (Hk h1) as (h2 & E2 & C2). { intros q Hq. specialize (Hh q Hq). specialize (C1 q). cnt. lia. }
  destruct (Hc h2) as (h3 & E3 & C3).
  - intros q. specialize (C1 q). specialize (C2 q). cnt. lia.
  - intros q Hq. specialize (Hh q (I q Hq)). specialize (C1 q). specialize (C2 q). cnt. lia.
  - exists h3; split.
    + unfold andthen. rewrite E1. cbn. rewrite E2. exact E3.
    + intros q. specialize (C1 q). specialize (C2 q). specialize (C3 q). cnt. lia.
Qed.

Lemma field_init_ok : forall f, Inits (hl (home_of f) ++ base_needs f) (field_init f) (fcells f).
Proof.
  intros f. unfold field_init, fcells.
  refine (I_seq _ _ _ [] _ (I_touch' _ _ (incl_appl _ (incl_refl _))) _).
  destruct f as [im s h|s h|s h b|s h b|s h b|s h n rs rh b|s h b cf qc|s h b|s h b]; cbn [name_of home_of base_needs]; try apply I_alloc.
  - apply (I_seq _ _ _ [_]); [apply I_alloc|apply each_alloc].
  - eapply I_same; [apply I_seq; [apply I_alloc|apply I_seq; [apply I_alloc|apply I_seq; [apply I_alloc|apply I_alloc]]]|sm].
  - apply (I_seq _ _ _ [_] [_]); apply I_alloc.
  - set (f := PolyMod s h n rs rh b).
    assert (NF : forall e, Inits (needs f) (elem_init f e) (cells f e)) by (intros; apply elem_init_ok).
    eapply I_same.
    + apply (I_seq _ _ _ [0 :: s]); [apply I_alloc|].
      apply (I_then [] (needs f ++ (hl rh ++ [1 :: rs] ++ needs b)) _ _ _ [1 :: s]); [apply I_alloc| |intros q []|].
      * apply I_seq; [refine (I_weak _ _ _ _ (elem_init_ok (Poly rs rh b) (2 :: s)) _); cbn [needs home_of]; rewrite app_nil_r; apply incl_appr, incl_appl, incl_refl|].
        apply I_seq; [refine (I_weak _ _ _ _ (poly_grow_ok rs rh b (2 :: s) (n + 1)) _); apply incl_appr, incl_refl|].
        apply (I_seq _ _ _ [3 :: s]); [apply I_alloc|].
        refine (I_weak (needs f) _ _ _ _ (incl_appl _ (incl_refl _))).
        apply (I_temp _ (cneeds f) _ _ (cells f (4 :: s))); [apply NF| |apply elem_clear_ok|apply cneeds_needs].
        apply (I_upto (needs f) (fun i => elem_init f (i :: 3 :: s)) (fun i => cells f (i :: 3 :: s))). intros i _; apply NF.
      * intros q Hq. cbn [needs home_of f] in Hq. subst f. cbn [needs home_of] in Hq. repeat (rewrite ?in_app_iff in *; simpl in * ). tauto.
    + change (cells (Poly rs rh b) (2 :: s)) with [0 :: 2 :: s; 1 :: 2 :: s]. sm.
  - set (f := Curve s h b cf qc).
    eapply I_same.
    + apply (I_seq _ _ _ [0 :: s]); [apply I_alloc|].
      apply (I_then [] (needs f) _ _ _ [1 :: s]); [apply I_alloc| |intros q []|].
      * assert (NB : forall e, Inits (needs f) (elem_init b e) (cells b e)).
        { intros e. refine (I_weak _ _ _ _ (elem_init_ok b e) _). subst f. cbn [needs home_of]. apply incl_appr, incl_tl, incl_refl. }
        apply I_seq; [apply NB|]. apply I_seq; [apply NB|]. apply I_seq; [apply elem_init_ok|]. apply I_seq; [apply elem_init_ok|].
        instantiate (1 := if cf then [6 :: s; 7 :: s] else []). destruct cf; [apply (I_seq _ _ _ [_] [_]); apply I_alloc|apply I_skip].
      * intros q Hq. subst f. cbn [needs home_of] in Hq. repeat (rewrite ?in_app_iff in *; simpl in * ). tauto.
    + sm.
Qed.

Lemma gen_nqr_ok : forall f, Inits (needs f) (gen_nqr f) (ncells f true).
Proof.
  intros f. unfold gen_nqr, ncells. refine (I_seq _ _ _ [] _ (I_touch' _ _ _) _).
  - destruct f; cbn [needs home_of]; apply incl_appl, incl_refl.
  - apply (I_seq _ _ _ [_]); [apply I_alloc|apply elem_init_ok].
Qed.

Lemma home_cneeds : forall f, incl (hl (home_of f)) (cneeds f).
Proof. intros f. destruct f; cbn [cneeds home_of]; apply incl_appl, incl_refl. Qed.
Definition base_cneeds (f : field) : list path :=
  match f with
  | Fp _ _ _ | Gf3m _ _ | Poly _ _ _ => []
  | Quad _ _ b | Cubic _ _ b | Eta _ _ b | MulG _ _ b | Curve _ _ b _ _ => cneeds b
  | PolyMod _ _ _ rs rh b => hl rh ++ cneeds b
  end.
Lemma field_clear_ok : forall f nq, Clears (hl (home_of f) ++ base_cneeds f) (field_clear f nq) (ncells f nq ++ fcells f ++ quot f).
Proof.
  intros f nq. unfold field_clear, fcells, ncells.
  refine (C_seq _ _ _ [] _ (C_touch' _ _ (incl_appl _ (incl_refl _))) _).
  assert (NQ : Clears (cneeds f) (if nq then elem_clear f (9 :: name_of f) >> release (8 :: name_of f) else skip)
     (if nq then [8 :: name_of f] ++ cells f (9 :: name_of f) else [])).
  { destruct nq; [|apply C_skip]. eapply C_same; [apply C_seq; [apply elem_clear_ok|apply C_release]|sm]. }
  destruct f as [im s h|s h|s h b|s h b|s h b|s h n rs rh b|s h b cf qc|s h b|s h b]; cbn [name_of home_of base_cneeds quot] in *;
    rewrite ?app_nil_r.
  - apply (C_then (hl h ++ [])); [exact NQ| |intros q Hq; left; rewrite ?app_nil_r in *; exact Hq].
    apply (C_seq _ _ _ [_]); [apply C_release|]. destruct im; cbn [fp_blocks].
    + eapply C_same; [apply (C_then [1 :: s] _ _ _ []); [apply C_need| |]|].
      * apply C_seq; [apply C_release|]. apply C_seq; [apply C_release|]. apply C_seq; [apply C_release|apply C_release].
      * intros q [<-|[]]; right. repeat (rewrite ?in_app_iff; simpl). tauto.
      * sm.
    + eapply C_same; [apply (C_then [1 :: s] _ _ _ []); [apply C_need| |]|].
      * apply C_seq; [apply C_release|apply C_release].
      * intros q [<-|[]]; right. repeat (rewrite ?in_app_iff; simpl). tauto.
      * sm.
    + eapply C_same; [apply (C_then [1 :: s] _ _ _ []); [apply C_need| |]|].
      * apply C_seq; [apply C_release|apply C_release].
      * intros q [<-|[]]; right. repeat (rewrite ?in_app_iff; simpl). tauto.
      * sm.
    + apply C_skip.
    + apply C_release.
  - apply (C_then (hl h ++ [])); [exact NQ| |intros q Hq; left; rewrite ?app_nil_r in *; exact Hq].
    eapply C_same; [apply C_seq; [apply C_release|]|].
    + apply (C_then [1 :: s] _ _ _ []); [apply C_need| |].
      * apply (C_then [2 :: s] _ _ _ []); [apply C_need| |].
        -- apply C_seq; [apply C_release|]. apply C_seq; [apply C_release|apply C_release].
        -- intros q [<-|[]]; right. repeat (rewrite ?in_app_iff; simpl). tauto.
      * intros q [<-|[]]; right. repeat (rewrite ?in_app_iff; simpl). tauto.
    + sm.
  - apply C_seq; [exact NQ|]. apply (C_seq _ _ _ [_] []); [apply C_release|apply C_skip].
  - apply C_seq; [exact NQ|]. apply (C_seq _ _ _ [_] []); [apply C_release|apply C_skip].
  - apply (C_then (hl h ++ [])); [exact NQ| |intros q Hq; left; rewrite ?app_nil_r in *; exact Hq].
    apply (C_seq _ _ _ [_] [_]); apply C_release.
  - set (f := PolyMod s h n rs rh b) in *. set (M := hl h ++ hl rh ++ cneeds b).
    assert (R1 : Clears M (touch rh >> poly_shrink b (2 :: s) (n + 1) >> release (1 :: 2 :: s) >> release (0 :: 2 :: s) >> release (1 :: s))
       ([] ++ pcells b (2 :: s) (n + 1) ++ [1 :: 2 :: s] ++ [0 :: 2 :: s] ++ [1 :: s])).
    { apply C_seq; [apply C_touch'; unfold M; apply incl_appr, incl_appl, incl_refl|].
      apply C_seq; [refine (C_weak _ _ _ _ (poly_shrink_ok b (2 :: s) (n + 1)) _); unfold M; apply incl_appr, incl_appr, incl_refl|].
      repeat (apply C_seq; [apply C_release|]). apply C_release. }
    assert (R2 : Clears M (upto n (fun i => elem_clear f (i :: 3 :: s)) >> release (3 :: s) >> touch rh >> poly_shrink b (2 :: s) (n + 1) >> release (1 :: 2 :: s) >> release (0 :: 2 :: s) >> release (1 :: s))
       (cat n (fun i => cells f (i :: 3 :: s)) ++ [3 :: s] ++ [] ++ pcells b (2 :: s) (n + 1) ++ [1 :: 2 :: s] ++ [0 :: 2 :: s] ++ [1 :: s])).
    { apply (C_then (cneeds f)).
      - apply (C_upto (cneeds f) (fun i => elem_clear f (i :: 3 :: s)) (fun i => cells f (i :: 3 :: s))). intros i _; apply elem_clear_ok.
      - apply C_seq; [apply C_release|exact R1].
      - intros q Hq. subst f. cbn [cneeds home_of] in Hq. unfold M. repeat (rewrite ?in_app_iff in *; simpl in * ). tauto. }
    eapply C_same; [apply (C_then (cneeds f)); [exact NQ| |]|].
    + apply C_seq; [apply C_release|]. apply (C_then [1 :: s] _ _ _ []); [apply C_need|exact R2|].
      intros q [<-|[]]; right. repeat (rewrite ?in_app_iff; simpl). tauto.
    + intros q Hq. subst f. cbn [cneeds home_of] in Hq. unfold M. repeat (rewrite ?in_app_iff in *; simpl in * ). tauto.
    + sm.
  - set (f := Curve s h b cf qc) in *. set (M := hl h ++ cneeds b).
    assert (NF : forall e, Clears M (elem_clear f e) (cells f e)) by (intros; refine (C_weak _ _ _ _ (elem_clear_ok f _) _); apply incl_refl).
    assert (NB : forall e, Clears M (elem_clear b e) (cells b e)) by (intros; refine (C_weak _ _ _ _ (elem_clear_ok b _) _); apply incl_appr, incl_refl).
    eapply C_same; [apply C_seq; [exact NQ|]|].
    + apply C_seq; [apply C_release|]. apply (C_then [1 :: s] _ _ _ []); [apply C_need| |].
      * apply C_seq; [apply NF|]. apply C_seq; [apply NF|].
        apply (C_seq _ _ _ (if cf then [7 :: s] ++ [6 :: s] else [])); [destruct cf; [apply C_seq; apply C_release|apply C_skip]|].
        apply (C_seq _ _ _ (if qc then [11 :: s] ++ [10 :: s] else [])); [destruct qc; [apply C_seq; apply C_release|apply C_skip]|].
        apply C_seq; [apply NB|]. apply C_seq; [apply NB|apply C_release].
      * intros q [<-|[]]; right. repeat (rewrite ?in_app_iff; simpl). tauto.
    + subst f. destruct cf, qc; sm.
  - apply C_seq; [exact NQ|]. apply (C_seq _ _ _ [_] []); [apply C_release|apply C_skip].
  - apply C_seq; [exact NQ|]. apply (C_seq _ _ _ [_] []); [apply C_release|apply C_skip].
Qed.
