(** Which events change the method a pairing uses. *)
From Coq Require Import List String Bool Arith Lia.
From Verif.Model Require Import PairingOptions.
From Verif.Spec Require Export Options.
Import ListNotations.
Local Open Scope string_scope.

Section O.
Variable typ : nat -> ptype.
(** what the method of i depends on *)
Definition view (i : nat) (s : ost) : option meth * option meth :=
  (omap s i, match typ i with TD => fn_d s | TE => fn_e s | TG => fn_g s | _ => None end).
Lemma view_method : forall i s t, view i s = view i t -> method_of typ s i = method_of typ t i.
Proof. intros i s t E. unfold view in E. injection E as E1 E2. unfold method_of. rewrite E1. destruct (omap t i) as [[] | ]; destruct (typ i); auto. Qed.
Lemma set_map_view : forall i j s m, i <> j -> omap (set_map s j m) i = omap s i.
Proof. intros i j s m N. cbn. apply Nat.eqb_neq in N. rewrite N. auto. Qed.
Lemma step_other : forall i e s, object_of e <> i -> per_object (typ i) \/ typ (object_of e) <> typ i -> view i (ostep typ s e) = view i s.
Proof.
  intros i e s N D. assert (N' : Nat.eqb i (object_of e) = false) by (apply Nat.eqb_neq; auto).
  destruct e as [j | j key value]; cbn [object_of ostep] in *; unfold oinit, ooption, per_object in *.
  - destruct (typ j) eqn:Tj; unfold view; destruct (typ i) eqn:Ti; cbn; rewrite ?N'; auto; exfalso; intuition congruence.
  - destruct (String.eqb key "method"); [ | auto]. 
    destruct (String.eqb value "miller"); [ | destruct (String.eqb value "miller-affine"); [ | destruct (String.eqb value "shipsey-stange"); [ | auto]]];
    destruct (typ j) eqn:Tj; unfold view; destruct (typ i) eqn:Ti; cbn; rewrite ?N'; auto; exfalso; intuition congruence.
Qed.
Lemma step_view : forall i e s t, object_of e = i -> view i s = view i t -> view i (ostep typ s e) = view i (ostep typ t e).
Proof.
  intros i e s t <- E. unfold view in *. injection E as E1 E2.
  destruct e as [j | j key value]; cbn [object_of ostep] in *; unfold oinit, ooption in *.
  - destruct (typ j); cbn in *; rewrite ?Nat.eqb_refl; congruence.
  - destruct (String.eqb key "method"); [ | congruence].
    destruct (String.eqb value "miller"); [ | destruct (String.eqb value "miller-affine"); [ | destruct (String.eqb value "shipsey-stange"); [ | congruence]]];
    destruct (typ j); cbn in *; rewrite ?Nat.eqb_refl; congruence.
Qed.
Theorem own_events : forall h i, (forall e, In e h -> object_of e <> i -> per_object (typ i) \/ typ (object_of e) <> typ i) ->
  method_of typ (orun typ h) i = method_of typ (orun typ (filter (about i) h)) i.
Proof.
  intros h i H. apply view_method. unfold orun.
  assert (G : forall s t, view i s = view i t -> (forall e, In e h -> object_of e <> i -> per_object (typ i) \/ typ (object_of e) <> typ i) ->
     view i (fold_left (ostep typ) h s) = view i (fold_left (ostep typ) (filter (about i) h) t)).
  { clear H. induction h as [ | e h IH]; intros s t E H; [exact E | ]. cbn [fold_left filter].
    destruct (Nat.eq_dec (object_of e) i) as [O | O].
    - assert (A : about i e = true) by (destruct e; cbn in *; subst; apply Nat.eqb_refl). rewrite A. cbn [fold_left]. apply IH; [apply step_view; auto | ]. intros. apply H; cbn; auto.
    - assert (A : about i e = false) by (destruct e; cbn in *; apply Nat.eqb_neq; auto). rewrite A. apply IH; [ | intros; apply H; cbn; auto].
      rewrite step_other; [exact E | auto | apply H; cbn; auto]. }
  apply G; auto.
Qed.
End O.
(** choosing a method: for types A, A1 and E the last choice counts *)
Theorem choice : forall typ h i m, In (typ i) [TA; TA1; TE] -> method_of typ (orun typ (h ++ [OOption i "method" (method_name m)])) i = Some m.
Proof.
  intros typ h i m HI. unfold orun. rewrite fold_left_app. cbn [fold_left ostep]. unfold ooption.
  cbn in HI. destruct HI as [E | [E | [E | []]]]; symmetry in E; destruct m; cbn [method_name String.eqb Ascii.eqb Bool.eqb]; rewrite E; unfold method_of; cbn; rewrite Nat.eqb_refl, E; auto.
Qed.
(** other keys and values change nothing *)
Theorem unknown_ignored : forall typ h i key value, key <> "method" \/ (forall m, value <> method_name m) -> orun typ (h ++ [OOption i key value]) = orun typ h.
Proof.
  intros typ h i key value H. unfold orun. rewrite fold_left_app. cbn [fold_left ostep]. unfold ooption.
  destruct (String.eqb_spec key "method"); auto. destruct H as [H | H]; [contradiction | ].
  destruct (String.eqb_spec value "miller"); [destruct (H Proj); auto | ]. destruct (String.eqb_spec value "miller-affine"); [destruct (H Affine); auto | ].
  destruct (String.eqb_spec value "shipsey-stange"); [destruct (H Ellnet); auto | ]. auto.
Qed.
(** types D, E and G: another object's option *)
Theorem shared : forall t, In t [TD; TE; TG] -> exists h i, 
  method_of (fun _ => t) (orun (fun _ => t) h) i <> method_of (fun _ => t) (orun (fun _ => t) (filter (about i) h)) i.
Proof.
  intros t HI. cbn in HI. destruct HI as [<- | [<- | [<- | []]]].
  - exists [OInit 0; OInit 1; OOption 1 "method" "miller"], 0. vm_compute. discriminate.
  - exists [OInit 0; OInit 1; OOption 1 "method" "miller-affine"], 0. vm_compute. discriminate.
  - exists [OInit 0; OInit 1; OOption 1 "method" "miller"], 0. vm_compute. discriminate.
Qed.
Theorem g_stuck : exists h, method_of (fun _ => TG) (orun (fun _ => TG) (h ++ [OOption 0 "method" "miller"])) 0 <> Some Proj /\ In (OInit 0) h.
Proof. exists [OInit 0; OOption 0 "method" "shipsey-stange"]. split; [vm_compute; discriminate | left; auto]. Qed.
(** initialising another pairing undoes the choice *)
Theorem init_resets : method_of (fun _ => TD) (orun (fun _ => TD) [OInit 0; OOption 0 "method" "miller"; OInit 1]) 0 = Some Affine.
Proof. reflexivity. Qed.
Lemma options_example : let typ := fun i : nat => match i with 0%nat | 1%nat => TA | _ => TD end in
  let h := [OInit 0; OInit 1; OInit 2; OOption 1 "method" "miller-affine"; OOption 2 "method" "miller"] in
  (forall i e, (i < 3)%nat -> In e h -> object_of e <> i -> per_object (typ i) \/ typ (object_of e) <> typ i) /\
  map (method_of typ (orun typ h)) [0; 1; 2]%nat = [Some Proj; Some Affine; Some Proj].
Proof.
  intros typ h. split; [ | reflexivity]. intros i e L HI N.
  destruct i as [ | [ | [ | i]]]; [left; left; reflexivity | left; left; reflexivity | | lia].
  right. unfold h in HI. cbn [In] in HI. repeat (destruct HI as [<- | HI]; [first [discriminate | exfalso; apply N; reflexivity] | ]). contradiction.
Qed.

(** Types D and G: one of the two Miller methods can be chosen, as long as the
    elliptic net has not been. *)
Lemma map_kept : forall typ i h s, typ i = TD \/ (typ i = TG /\ Forall (no_net i) h) ->
  (omap s i = Some Proj \/ (omap s i = None /\ In (OInit i) h)) -> omap (fold_left (ostep typ) h s) i = Some Proj.
Proof.
  intros typ i. induction h as [ | e h IH]; intros s T M; cbn [fold_left].
  - destruct M as [M | [_ []]]; exact M.
  - apply IH.
    + destruct T as [T | [T F]]; [left; auto | right; split; auto]. inversion F; auto.
    + destruct e as [j | j key value]; cbn [ostep].
      * destruct (Nat.eq_dec j i) as [-> | N].
        -- left. unfold oinit. destruct T as [-> | [-> _]]; cbn; rewrite Nat.eqb_refl; reflexivity.
        -- assert (Q : omap (oinit typ s j) i = omap s i) by (unfold oinit; destruct (typ j); cbn; destruct (Nat.eqb_spec i j); try reflexivity; congruence).
           rewrite Q. destruct M as [M | [M [I | I]]]; [left; auto | inversion I; congruence | right; auto].
      * assert (Q : omap (ooption typ s j key value) i = omap s i).
        { unfold ooption. destruct (String.eqb_spec key "method"); [ | reflexivity].
          destruct (String.eqb_spec value "miller"); [destruct (typ j) eqn:J; cbn; try reflexivity; destruct (Nat.eqb_spec i j); try reflexivity; subst; destruct T as [T | [T _]]; congruence | ].
          destruct (String.eqb_spec value "miller-affine"); [destruct (typ j) eqn:J; cbn; try reflexivity; destruct (Nat.eqb_spec i j); try reflexivity; subst; destruct T as [T | [T _]]; congruence | ].
          destruct (String.eqb_spec value "shipsey-stange"); [ | reflexivity].
          destruct (typ j) eqn:J; cbn; try reflexivity; destruct (Nat.eqb_spec i j); try reflexivity; subst; destruct T as [T | [T F]]; try congruence. exfalso. inversion F as [ | ? ? F1 ?]. exact (F1 eq_refl eq_refl eq_refl). }
        rewrite Q. destruct M as [M | [M [I | I]]]; [left; auto | discriminate I | right; auto].
Qed.
Lemma miller_choice : forall typ h i m, typ i = TD \/ (typ i = TG /\ Forall (no_net i) h) -> In (OInit i) h -> m <> Ellnet ->
  method_of typ (orun typ (h ++ [OOption i "method" (method_name m)])%list) i = Some m.
Proof.
  intros typ h i m T I N. unfold orun. rewrite fold_left_app. cbn [fold_left ostep]. pose proof (map_kept typ i h ost0 T (or_intror (conj eq_refl I))) as M.
  set (s := fold_left (ostep typ) h ost0) in *. destruct m; [ | | contradiction].
  - unfold method_of, ooption. cbn [method_name String.eqb]. destruct T as [T | [T _]]; rewrite T; cbn; rewrite M, ?T; reflexivity.
  - unfold method_of, ooption. cbn [method_name String.eqb]. destruct T as [T | [T _]]; rewrite T; cbn; rewrite M, ?T; reflexivity.
Qed.
