(** Storage of whole pairings, of parameters and of pre-processed tables. *)
From Coq Require Import List ZArith Bool Arith Lia.
From Verif.Base Require Import Outcome.
From Verif.Model Require Import Mnt Miller PairingD Storage.
From Verif.Proofs Require Import StorageFacts.
Import ListNotations.
Local Open Scope nat_scope.

(** The blocks that back an element's needs. *)
Fixpoint support (f : field) : list path :=
  hl (home_of f) ++ fcells f ++
  match f with
  | Fp _ _ _ | Gf3m _ _ | Poly _ _ _ => []
  | Quad _ _ b | Eta _ _ b | Cubic _ _ b | MulG _ _ b | PolyMod _ _ _ _ _ b | Curve _ _ b _ _ => support b
  end.
Lemma needs_support : forall f q, In q (needs f) -> 0 < count q (support f).
Proof.
  induction f; intros q H; cbn [needs support home_of] in *; rewrite !count_app; apply in_app_or in H; destruct H as [H|H];
  try (apply count_in in H; lia);
  try (apply IHf in H; lia);
  try (destruct H as [<-|H]; [|apply IHf in H; lia]).
  - destruct im; try destruct H as [<-|[]]; try destruct H; cbn [fcells fp_blocks name_of]; rewrite !count_cons, one_refl; lia.
  - destruct H as [<-|[]]. cbn [fcells name_of]; rewrite !count_cons, one_refl; lia.

  - cbn [fcells name_of]. rewrite count_app, !count_cons, one_refl; lia.
  - cbn [fcells name_of]. rewrite count_app, !count_cons, one_refl; lia.
Qed.
Fixpoint csupport (f : field) : list path :=
  hl (home_of f) ++
  match f with
  | Fp _ _ _ | Gf3m _ _ | Poly _ _ _ => []
  | Quad _ _ b | Eta _ _ b | Cubic _ _ b | MulG _ _ b | Curve _ _ b _ _ => csupport b
  | PolyMod _ _ _ _ _ b => fcells f ++ csupport b
  end.
Lemma cneeds_support : forall f q, In q (cneeds f) -> 0 < count q (csupport f).
Proof.
  induction f; intros q H; cbn [cneeds csupport home_of] in *; rewrite ?count_app; apply in_app_or in H; destruct H as [H|H];
  try (apply count_in in H; lia); try (apply IHf in H; lia); try destruct H as [].
  - subst q. cbn [fcells name_of]. rewrite count_app, !count_cons, one_refl; lia.
  - apply IHf in H. lia.
Qed.
Lemma support_base : forall f q, In q (hl (home_of f) ++ base_needs f) ->
  0 < count q (hl (home_of f) ++ match f with PolyMod _ _ _ rs rh b => hl rh ++ [1 :: rs] ++ support b | Curve _ _ b _ _ => support b | _ => [] end).
Proof.
  intros f q H. rewrite count_app. apply in_app_or in H. destruct H as [H|H]; [apply count_in in H; lia|].
  destruct f; cbn [base_needs] in H; try destruct H as [].
  - rewrite !count_app. rewrite !in_app_iff in H. destruct H as [H|[H|H]]; [apply count_in in H; lia|apply count_in in H; lia|apply needs_support in H; lia].
  - apply needs_support in H; lia.
Qed.
Lemma csupport_base : forall f q, In q (hl (home_of f) ++ base_cneeds f) ->
  0 < count q (hl (home_of f) ++ match f with PolyMod _ _ _ rs rh b => hl rh ++ csupport b | Quad _ _ b | Eta _ _ b | Cubic _ _ b | MulG _ _ b | Curve _ _ b _ _ => csupport b | _ => [] end).
Proof.
  intros f q H. rewrite count_app. apply in_app_or in H. destruct H as [H|H]; [apply count_in in H; lia|].
  destruct f; cbn [base_cneeds] in H; try destruct H as []; try (apply cneeds_support in H; lia).
  rewrite !count_app. apply in_app_or in H. destruct H as [H|H]; [apply count_in in H; lia|apply cneeds_support in H; lia].
Qed.

Definition pc (x : field * path) : list path := cells (fst x) (snd x).
Lemma inits_ok : forall l, Inits (flat_map (fun x => needs (fst x)) l) (inits l) (flat_map pc l).
Proof.
  intros l. unfold inits. apply I_each. intros [f e] H. refine (I_weak _ _ _ _ (elem_init_ok f e) _).
  intros q Hq. apply in_flat_map. exists (f, e); split; [exact H|exact Hq].
Qed.
Lemma clears_ok : forall l, Clears (flat_map (fun x => cneeds (fst x)) l) (clears l) (flat_map pc l).
Proof.
  intros l. unfold clears. apply C_each. intros [f e] H. refine (C_weak _ _ _ _ (elem_clear_ok f e) _).
  intros q Hq. apply in_flat_map. exists (f, e); split; [exact H|exact Hq].
Qed.
Lemma needs_supports : forall (l : list (field * path)) q, In q (flat_map (fun x => needs (fst x)) l) -> 0 < count q (flat_map (fun x => support (fst x)) l).
Proof. intros l q H. apply in_flat_map in H. destruct H as (x & X & H). apply needs_support in H. apply count_in. apply in_flat_map. exists x; split; [exact X|apply count_in, H]. Qed.
Lemma cneeds_supports : forall (l : list (field * path)) q, In q (flat_map (fun x => cneeds (fst x)) l) -> 0 < count q (flat_map (fun x => csupport (fst x)) l).
Proof. intros l q H. apply in_flat_map in H. destruct H as (x & X & H). apply cneeds_support in H. apply count_in. apply in_flat_map. exists x; split; [exact X|apply count_in, H]. Qed.

(** ** Straight-line programs that allocate and release: [X] released so far,
    [Y] allocated so far, [Z] what is left at the end. *)
Definition Sym (m : prog) (X Y Z : list path) : Prop :=
  forall h h0, (forall q, count q h + count q X = count q h0 + count q Y) ->
  exists h', m h = Ok h' /\ forall q, count q h' = count q h0 + count q Z.
Lemma Sym_I : forall N m B k X Y Z, Inits N m B -> (forall q, In q N -> count q X < count q Y) -> Sym k X (B ++ Y) Z -> Sym (m >> k) X Y Z.
Proof.
  intros N m B k X Y Z Hm Hn Hk h h0 I. destruct (Hm h) as (h1 & E & C). { intros q Hq. specialize (Hn q Hq). specialize (I q). lia. }
  destruct (Hk h1 h0) as (h2 & E2 & C2). { intros q. specialize (C q). specialize (I q). cnt. lia. }
  exists h2; split; [unfold andthen; rewrite E; exact E2|exact C2].
Qed.
Lemma Sym_C : forall N m A k X Y Z, Clears N m A -> (forall q, count q A + count q X <= count q Y) ->
  (forall q, In q N -> count q A + count q X < count q Y) -> Sym k (A ++ X) Y Z -> Sym (m >> k) X Y Z.
Proof.
  intros N m A k X Y Z Hm Hs Hn Hk h h0 I. destruct (Hm h) as (h1 & E & C).
  { intros q. specialize (Hs q). specialize (I q). lia. } { intros q Hq. specialize (Hn q Hq). specialize (I q). lia. }
  destruct (Hk h1 h0) as (h2 & E2 & C2). { intros q. specialize (C q). specialize (I q). cnt. lia. }
  exists h2; split; [unfold andthen; rewrite E; exact E2|exact C2].
Qed.
Lemma Sym_assoc : forall a b k X Y Z, Sym (a >> b >> k) X Y Z -> Sym ((a >> b) >> k) X Y Z.
Proof.
  intros a b k X Y Z H h h0 I. destruct (H h h0 I) as (h' & E & C). exists h'; split; [|exact C].
  unfold andthen in *. destruct (a h); cbn in *; auto.
Qed.
Lemma Sym_last : forall m X Y Z, Sym (m >> skip) X Y Z -> Sym m X Y Z.
Proof.
  intros m X Y Z H h h0 I. destruct (H h h0 I) as (h' & E & C). exists h'; split; [|exact C].
  unfold andthen, skip in E. destruct (m h); cbn in E; congruence.
Qed.
Lemma Sym_end : forall X Y Z, (forall q, count q Y = count q X + count q Z) -> Sym skip X Y Z.
Proof. intros X Y Z H h h0 I. exists h; split; [reflexivity|]. intros q. specialize (H q). specialize (I q). lia. Qed.
Lemma Sym_skip : forall k X Y Z, Sym k X Y Z -> Sym (skip >> k) X Y Z.
Proof. intros k X Y Z H h h0 I. apply (H h h0 I). Qed.
Lemma Sym_Inits : forall M m Z, Sym m [] [] Z -> Inits M m Z.
Proof.
  intros M m Z H h _. destruct (H h h) as (h' & E & C); [reflexivity|]. exists h'; split; [exact E|]. intros q. rewrite C, count_nil. lia.
Qed.
Lemma Sym_need : forall N p k X Y Z, Sym k X Y Z -> In p N -> (forall q, In q N -> count q X < count q Y) -> Sym (need p >> k) X Y Z.
Proof. intros N p k X Y Z H I J. apply (Sym_I [p] _ []); [apply I_need| |exact H]. intros q [<-|[]]. apply J, I. Qed.

Lemma quot_ok : forall s h b cf, Inits (hl h ++ [1 :: s]) (set_quotient_cmp (Curve s h b cf true)) (quot (Curve s h b cf true)).
Proof.
  intros s h b cf. unfold set_quotient_cmp. cbn [name_of home_of quot].
  apply (I_seq _ _ _ []); [apply I_touch'; apply incl_appl, incl_refl|].
  apply I_nseq; [apply in_or_app; right; left; reflexivity|]. apply (I_seq _ _ _ [_] [_]); apply I_alloc.
Qed.

(** ** Pairings *)
Section P.
Variables (p : pinfo) (P : path) (nq : slot -> bool).
Notation Zr := (Zr p P). Notation Fq := (Fq p P). Notation Fx := (Fx p P). Notation Fd := (Fd p P). Notation Fring := (Fring p P).
Notation Ftop := (Ftop p P). Notation GT := (GT p P). Notation Eq := (Eq p P). Notation Etwist := (Etwist p P). Notation gf3 := (gf3 P).
Definition common_cells : list path := [c_r P; c_data P] ++ fcells Zr ++ ncells Zr (nq SZr) ++ fcells GT ++ fcells Eq.
Definition type_cells : list path :=
  match ty p with
  | TA _ _ | TA1 => [c_phikonr P] ++ fcells Fq ++ ncells Fq (nq SFq) ++ fcells Fx ++ ncells Fx (nq SFx)
  | TE => [c_phikonr P] ++ fcells Fq ++ ncells Fq (nq SFq) ++ cells Eq (11 :: P)
  | TD n => fcells Fq ++ ncells Fq (nq SFq) ++ fcells Fring ++ fcells Fd ++ ncells Fd (nq SFd) ++ fcells Fx ++ ncells Fx (nq SFx) ++
      fcells Etwist ++ quot Etwist ++ cells Fd (15 :: P) ++ cells Fd (16 :: P) ++
      (if n =? 3 then [c_phikonr P] ++ cells Fd (11 :: P) ++ cells Fd (12 :: P) else [c_tateexp P])
  | TG => fcells Fq ++ ncells Fq (nq SFq) ++ fcells Fring ++ fcells Fd ++ ncells Fd (nq SFd) ++ fcells Fx ++ ncells Fx (nq SFx) ++
      fcells Etwist ++ quot Etwist ++ cells Fd (15 :: P) ++ cells Fd (16 :: P) ++
      [c_phikonr P] ++ cells Fd (11 :: P) ++ cells Fd (12 :: P) ++ cells Fd (13 :: P) ++ cells Fd (14 :: P)
  | TF => fcells Fq ++ ncells Fq (nq SFq) ++ fcells Fx ++ ncells Fx (nq SFx) ++ fcells Fring ++ fcells Ftop ++ ncells Ftop (nq SFd) ++
      fcells Etwist ++ quot Etwist ++ [c_tateexp P] ++ cells Fx (11 :: P) ++ cells Fx (12 :: P) ++ cells Fx (13 :: P) ++ cells Fx (15 :: P) ++ cells Fx (16 :: P)
  | TI => fcells gf3 ++ ncells gf3 (nq SFq) ++ fcells Fx ++ ncells Fx (nq SFx) ++ fcells Ftop ++ ncells Ftop (nq SFd) ++ [18 :: P; c_n2 P]
  end.
Definition pair_cells : list path := common_cells ++ type_cells.
End P.

Ltac un := unfold Storage.Zr, Storage.GT, Storage.Etwist, Storage.Eq, Storage.Ftop, Storage.Fring, Storage.Fx, Storage.Fd, Storage.Fq, Storage.gf3, la, lb, lc in *; cbn [ty zi qi rr] in *.
Ltac cns := repeat (rewrite count_app in * || rewrite count_cons in * || rewrite count_nil in *).
Ltac sup H :=
  first [apply needs_supports in H | apply cneeds_supports in H | apply needs_support in H | apply cneeds_support in H
        | apply support_base in H | apply csupport_base in H | apply count_in in H];
  cbn [flat_map support csupport home_of fst hl app] in H.
Ltac nd := let q := fresh "q" in let H := fresh "H" in
  intros q H; sup H; repeat rewrite ?count_app, ?count_cons, ?count_nil in H; cbn [flat_map pc fst snd]; repeat rewrite ?count_app, ?count_cons, ?count_nil; lia.
Ltac ss := let q := fresh "q" in intros q; cbn [flat_map pc fst snd quot fcells ncells]; repeat rewrite ?count_app, ?count_cons, ?count_nil; lia.

Lemma poly_init_ok : forall s h b e, Inits (hl h) (elem_init (Poly s h b) e) (cells (Poly s h b) e).
Proof. intros s h b e. refine (I_weak _ _ _ _ (elem_init_ok (Poly s h b) e) _). cbn [needs home_of]. rewrite app_nil_r. apply incl_refl. Qed.
Definition pdcells (b : field) (e : path) (d : nat) : list path := [0 :: e; 1 :: e] ++ pcells b e (d + 1).
Lemma pd_init_ok : forall p P b e d, Fring p P = Poly (9 :: P) (Some (c_data P)) b ->
  Inits (hl (Some (c_data P)) ++ [1 :: 9 :: P] ++ needs b) (poly_degree_init p P b e d) (pdcells b e d).
Proof.
  intros p P b e d E. unfold poly_degree_init. rewrite E. apply (I_seq _ _ _ [_; _]).
  - refine (I_weak _ _ _ _ (poly_init_ok _ _ b e) _). apply incl_appl, incl_refl.
  - apply poly_grow_ok.
Qed.
Lemma pd_clear_ok : forall P b e d, Clears (hl (Some (c_data P)) ++ cneeds b) (poly_degree_clear P b e d) (pdcells b e d).
Proof.
  intros P b e d. unfold poly_degree_clear. eapply C_same.
  - apply C_seq; [apply C_touch'; apply incl_appl, incl_refl|].
    apply C_seq; [refine (C_weak _ _ _ _ (poly_shrink_ok b e (d + 1)) _); apply incl_appr, incl_refl|].
    apply C_seq; apply C_release.
  - unfold pdcells. sm.
Qed.
Lemma touch_get : forall f, Inits (hl (home_of f)) (get_nqr f true) [].
Proof. intros f. unfold get_nqr. apply (I_seq _ _ _ [] []); [apply I_touch|apply I_skip]. Qed.

Lemma sup_pd : forall P b q, In q (hl (Some (c_data P)) ++ [1 :: 9 :: P] ++ needs b) -> 0 < count q ([c_data P; 1 :: 9 :: P] ++ support b).
Proof.
  intros P b q H. rewrite !in_app_iff in H. rewrite count_app. destruct H as [H|[H|H]]; [apply count_in in H|apply count_in in H|apply needs_support in H];
  cbn [hl count] in *; lia.
Qed.
Lemma sup_pdc : forall P b q, In q (hl (Some (c_data P)) ++ cneeds b) -> 0 < count q ([c_data P] ++ csupport b).
Proof.
  intros P b q H. rewrite !in_app_iff in H. rewrite count_app. destruct H as [H|H]; [apply count_in in H|apply cneeds_support in H];
  cbn [hl count] in *; lia.
Qed.
(** The data block of the ring and of a curve. *)
Lemma ring_one : forall s h b q, one q (1 :: s) <= count q (fcells (Poly s h b)).
Proof. intros. cbn [fcells name_of]. rewrite !count_cons. lia. Qed.
Lemma curve_one : forall s h b cf qc q, one q (1 :: s) <= count q (fcells (Curve s h b cf qc)).
Proof. intros. cbn [fcells name_of]. rewrite count_app, !count_cons. lia. Qed.

Ltac rngs q := repeat match goal with
  | |- context [fcells (Poly ?s ?h ?b)] => lazymatch goal with _ : one q (1 :: s) <= count q (fcells (Poly s h b)) |- _ => fail | _ => pose proof (ring_one s h b q) end
  | |- context [fcells (Curve ?s ?h ?b ?cf ?qc)] => lazymatch goal with _ : one q (1 :: s) <= count q (fcells (Curve s h b cf qc)) |- _ => fail | _ => pose proof (curve_one s h b cf qc q) end
  end.
Lemma ncells_false : forall f q, count q (ncells f false) = 0. Proof. reflexivity. Qed.
Local Opaque cells fcells ncells quot pcells.
Ltac cc := repeat rewrite ?count_app, ?count_cons, ?count_nil, ?ncells_false.
Ltac nd0 := let q := fresh "q" in let H := fresh "H" in
  intros q H; cbn [fst] in H;
  first [apply needs_supports in H | apply cneeds_supports in H | apply sup_pd in H | apply sup_pdc in H | apply support_base in H | apply csupport_base in H | apply needs_support in H | apply cneeds_support in H | apply count_in in H];
  cbn [flat_map support csupport home_of fst hl] in H; repeat rewrite ?count_app, ?count_cons, ?count_nil in H;
  cbn [flat_map]; unfold pc; cbn [fst snd]; rngs q; cc; lia.
Ltac ss0 := let q := fresh "q" in intros q; cbn [flat_map]; unfold pc, pdcells; cbn [fst snd]; cc; lia.
Ltac sy :=
  lazymatch goal with
  | |- Sym ((_ >> _) >> _) _ _ _ => apply Sym_assoc
  | |- Sym (skip >> _) _ _ _ => apply Sym_skip
  | |- Sym (alloc ?p >> _) _ _ _ => apply (Sym_I [] _ [p]); [apply I_alloc|intros ? []|]
  | |- Sym (release ?p >> _) _ _ _ => apply (Sym_C [] _ [p]); [apply C_release|ss0|intros ? []|]
  | |- Sym (field_init _ >> _) _ _ _ => eapply Sym_I; [apply field_init_ok|nd0|]
  | |- Sym (gen_nqr _ >> _) _ _ _ => eapply Sym_I; [apply gen_nqr_ok|nd0|]
  | |- Sym (get_nqr _ true >> _) _ _ _ => eapply Sym_I; [apply touch_get|nd0|]
  | |- Sym (set_quotient_cmp _ >> _) _ _ _ => eapply Sym_I; [apply quot_ok|nd0|]
  | |- Sym (inits _ >> _) _ _ _ => eapply Sym_I; [apply inits_ok|nd0|]
  | |- Sym (clears _ >> _) _ _ _ => eapply Sym_C; [apply clears_ok|ss0|nd0|]
  | |- Sym (poly_degree_init _ _ _ _ _ >> _) _ _ _ => eapply Sym_I; [apply pd_init_ok; reflexivity|nd0|]
  | |- Sym (poly_degree_clear _ _ _ _ >> _) _ _ _ => eapply Sym_C; [apply pd_clear_ok|ss0|nd0|]
  | |- Sym skip _ _ _ => apply Sym_end
  | |- Sym _ _ _ _ => apply Sym_last
  end.

Lemma pairing_init_ok : forall p P, Inits [] (pairing_init p P) (pair_cells p P (init_nq p)).
Proof.
  intros [t z q0 r] P. unfold pair_cells, common_cells, type_cells, pairing_init, init_nq. destruct t as [e1 e2| |n| | | |]; cbn [ty]; apply Sym_Inits.
  - unfold a_init_pairing. un. repeat sy. ss0.
  - unfold a1_init_pairing. un. repeat sy. ss0.
  - unfold d_init_pairing, init_twist. un. destruct (n =? 3); repeat sy; ss0.
  - unfold e_init_pairing. un. repeat sy. ss0.
  - unfold f_init_pairing. un. repeat sy. ss0.
  - unfold g_init_pairing, init_twist. un. repeat sy. ss0.
  - unfold i_init_pairing. un. repeat sy. ss0.
Qed.
