(** Storage of the parameter generators. *)
From Coq Require Import List ZArith Bool Arith Lia Permutation.
From Verif.Base Require Import Outcome.
From Verif.Model Require Import Mnt Miller PairingD Storage StorageGen.
From Verif.Spec Require Import Storage StorageGen.
From Verif.Proofs Require Import StorageFacts StoragePairing StorageTables StorageRun.
Import ListNotations.
Local Open Scope nat_scope.

Lemma Sym_cong : forall k X Y X' Y' Z, (forall q, count q X + count q Y' = count q X' + count q Y) -> Sym k X' Y' Z -> Sym k X Y Z.
Proof. intros k X Y X' Y' Z C H h h0 I. apply (H h h0). intros q. specialize (C q). specialize (I q). lia. Qed.
Lemma Sym_pad : forall m X Y Z, Sym m X Y Z -> Sym (m >> skip) X Y Z.
Proof. intros m X Y Z H h h0 I. destruct (H h h0 I) as (h' & E & C). exists h'; split; [unfold andthen; rewrite E; reflexivity|exact C]. Qed.
Lemma Sym_loop : forall n f X Y, (forall k Z, Sym k X Y Z -> Sym (f >> k) X Y Z) -> forall k Z, Sym k X Y Z -> Sym (upto n (fun _ => f) >> k) X Y Z.
Proof.
  intros n f X Y F. induction n as [|n IH]; intros k Z H; cbn [upto]; [apply Sym_skip, H|].
  apply Sym_assoc. apply IH, F, H.
Qed.
Lemma upto_alloc : forall n g, Inits [] (upto n (fun i => alloc (g i))) (cat n (fun i => [g i])).
Proof. intros n g. apply I_upto. intros i _. apply I_alloc. Qed.
Lemma upto_release : forall n g, Clears [] (upto n (fun i => release (g i))) (cat n (fun i => [g i])).
Proof. intros n g. apply C_upto. intros i _. apply C_release. Qed.
Lemma sup_grow : forall rs b q, In q (hl None ++ [1 :: rs] ++ needs b) -> 0 < count q ([1 :: rs] ++ support b).
Proof. intros rs b q H. cbn [hl app] in *. destruct H as [<-|H]; [rewrite count_cons, one_refl; lia|]. apply needs_support in H. rewrite count_cons; lia. Qed.
Lemma maybe_ok : forall f b, Inits (needs f) (maybe_nqr f b) (ncells f b).
Proof. intros f [|]; unfold maybe_nqr; [apply gen_nqr_ok|apply I_skip]. Qed.
Lemma get_ok : forall f b, Inits (needs f) (get_nqr f b) (ncells f (negb b)).
Proof.
  intros f [|]; unfold get_nqr; refine (I_seq _ _ _ [] _ (I_touch' _ _ _) _); try (destruct f; cbn [needs home_of]; apply incl_appl, incl_refl).
  - apply I_skip.
  - apply gen_nqr_ok.
Qed.
Lemma ncells_split : forall f b q, count q (ncells f b) + count q (ncells f (negb b)) = count q (ncells f true).
Proof. intros f [|] q; unfold ncells, negb; rewrite ?count_nil; lia. Qed.
Lemma poly_drop_ok : forall b e n, Clears (cneeds b) (poly_drop b e n) ([0 :: e; 1 :: e] ++ pcells b e n).
Proof.
  intros b e n. unfold poly_drop. eapply C_same.
  - apply C_seq; [apply poly_shrink_ok|]. apply C_seq; apply C_release.
  - sm.
Qed.
Lemma cells_poly : forall s h b e, cells (Poly s h b) e = [0 :: e; 1 :: e]. Proof. reflexivity. Qed.
Lemma quot_nil : forall f q, match f with Curve _ _ _ _ true => False | _ => True end -> count q (quot f) = 0.
Proof. intros f q. destruct f as [| | | | | |s h b cf [|]| |]; intros []; reflexivity. Qed.
Lemma Sym_I0 : forall m B k X Y Z, Inits [] m B -> Sym k X (B ++ Y) Z -> Sym (m >> k) X Y Z.
Proof. intros m B k X Y Z H. apply (Sym_I [] _ B); [exact H|intros ? []]. Qed.

Local Opaque cells fcells ncells quot pcells.
Ltac cq := repeat match goal with |- context [count ?q (quot ?f)] => rewrite (quot_nil f q I) end.
Ltac cg := repeat rewrite ?cells_poly, ?count_app, ?count_cons, ?count_nil, ?ncells_false; cq.
Ltac ndg := let q := fresh "q" in let H := fresh "H" in
  intros q H; cbn [fst] in H;
  first [apply needs_supports in H | apply cneeds_supports in H | apply sup_grow in H | apply support_base in H | apply csupport_base in H | apply needs_support in H | apply cneeds_support in H | apply count_in in H];
  cbn [flat_map support csupport home_of fst hl] in H; repeat rewrite ?count_app, ?count_cons, ?count_nil in H;
  cbn [flat_map]; unfold pc; cbn [fst snd]; rngs q; cg; lia.
Ltac ssg := let q := fresh "q" in intros q; cbn [flat_map]; unfold pc; cbn [fst snd]; cg; cbv beta; unfold path in *; lia.
Ltac sg :=
  lazymatch goal with
  | |- Sym ((_ >> _) >> _) _ _ _ => apply Sym_assoc
  | |- Sym (skip >> _) _ _ _ => apply Sym_skip
  | |- Sym (alloc ?p >> _) _ _ _ => apply (Sym_I [] _ [p]); [apply I_alloc|intros ? []|]
  | |- Sym (release ?p >> _) _ _ _ => apply (Sym_C [] _ [p]); [apply C_release|ssg|intros ? []|]
  | |- Sym (upto _ (fun i => alloc _) >> _) _ _ _ => eapply Sym_I0; [apply upto_alloc|]
  | |- Sym (upto _ (fun i => release _) >> _) _ _ _ => eapply Sym_C; [apply upto_release|ssg|intros ? []|]
  | |- Sym (field_init _ >> _) _ _ _ => eapply Sym_I; [apply field_init_ok|ndg|]
  | |- Sym (field_clear _ _ >> _) _ _ _ => eapply Sym_C; [apply field_clear_ok|ssg|ndg|]
  | |- Sym (maybe_nqr _ _ >> _) _ _ _ => eapply Sym_I; [apply maybe_ok|ndg|]
  | |- Sym (poly_grow _ _ _ _ _ >> _) _ _ _ => eapply Sym_I; [apply poly_grow_ok|ndg|]
  | |- Sym (poly_drop _ _ _ >> _) _ _ _ => eapply Sym_C; [apply poly_drop_ok|ssg|ndg|]
  | |- Sym (inits _ >> _) _ _ _ => eapply Sym_I; [apply inits_ok|ndg|]
  | |- Sym (clears _ >> _) _ _ _ => eapply Sym_C; [apply clears_ok|ssg|ndg|]
  | |- Sym skip _ _ _ => apply Sym_end
  | |- Sym (_ >> _) _ _ _ => fail
  | |- Sym _ _ _ _ => apply Sym_last
  end.

Section G.
Variables (p : pinfo) (K : path) (s : search).
Lemma cm_ok : Inits [] (cm_curve p K s) [].
Proof.
  apply Sym_Inits. unfold cm_curve, init_curve_j, Gring, Gcurve, Gq. repeat sg. ssg.
Qed.
Definition blank_cells : list path := (0 :: K) :: cat (mpz_count p) (fun i => [S i :: K]).
Lemma blank_ok : Inits [] (blank_param p K) blank_cells.
Proof. unfold blank_param, blank_cells. apply (I_seq _ _ _ [_]); [apply I_alloc|apply upto_alloc]. Qed.
Lemma dg_ok : forall d, Inits [] (dg_gen p K s d) (blank_cells ++ [20 :: K] ++ cat d (fun i => [21 + i :: K])).
Proof.
  intros d. apply Sym_Inits. unfold dg_gen, poly_make. eapply Sym_I0; [apply blank_ok|]. eapply Sym_I0; [apply cm_ok|].
  unfold Gext, Gring, Gq. repeat sg. ssg.
Qed.
Lemma e_ok : Inits [] (e_gen p K s) (blank_cells ++ fcells (Gq p K) ++ ncells (Gq p K) (nq_cm s) ++ fcells (Gcurve p K)).
Proof.
  apply Sym_Inits. unfold e_gen, init_curve_b. eapply Sym_I0; [apply blank_ok|]. unfold Gcurve, Gq. repeat sg. ssg.
Qed.
Lemma f_ok : Inits [] (f_gen p K s) (blank_cells ++ fcells (Gcurve p K) ++ cells (Gcurve p K) (L K 13)).
Proof.
  apply Sym_Inits. unfold f_gen, f_try, poly_make, init_curve_b, Gtest, Gring2, Gq2, Gcurve, Gq. eapply Sym_I0; [apply blank_ok|].
  repeat sg. apply Sym_loop.
  - intros k Z H. repeat sg. eapply Sym_cong; [|apply Sym_pad, H]. ssg.
  - repeat sg. eapply Sym_I; [apply get_ok|ndg|]. set (F := Fp (qi p) (L K 0) None).
    apply (Sym_cong _ _ _ [] (ncells F true ++ fcells (Quad (L K 3) None F) ++ cells (Curve (L K 1) None F false false) (L K 13) ++
      fcells (Curve (L K 1) None F false false) ++ fcells F ++ [L K 11; L K 10] ++ blank_cells)).
    { intros q. pose proof (ncells_split F (nq_cm s) q). unfold F in *. revert H. cbn [flat_map]; unfold pc; cbn [fst snd]; cg; lia. }
    unfold F. repeat sg. ssg.
Qed.
(** What stays allocated after generation and clearing. *)
Definition leak : list path :=
  match ty p with
  | TE => fcells (Gq p K) ++ ncells (Gq p K) (nq_cm s) ++ fcells (Gcurve p K)
  | TF => fcells (Gcurve p K) ++ cells (Gcurve p K) (L K 13)
  | _ => []
  end.
Lemma gen_ok : Inits [] (param_gen p K s) (param_cells p K ++ leak).
Proof.
  pose proof dg_ok as D. pose proof e_ok as E. pose proof f_ok as F. pose proof blank_ok as B.
  unfold param_gen, param_cells, leak, coeff_count, plain_gen, blank_cells in *. destruct (ty p) as [e1 e2| |n| | | |].
  - eapply I_same; [apply B|]. sm.
  - apply Sym_Inits. unfold a1_gen. eapply Sym_I0; [apply B|]. repeat sg. ssg.
  - eapply I_same; [apply D|]. sm.
  - eapply I_same; [apply E|]. sm.
  - eapply I_same; [apply F|]. sm.
  - eapply I_same; [apply D|]. sm.
  - eapply I_same; [apply B|]. sm.
Qed.
End G.

Lemma perm_count : forall a b, (forall q, count q a = count q b) -> Permutation a b.
Proof. intros a b H. apply (Permutation_count_occ path_dec). intros q. rewrite !count_occ_count. apply H. Qed.
Theorem gen_runs : forall p K s h, exists h', param_gen p K s h = Ok h'.
Proof. intros p K s h. destruct (gen_ok p K s h) as (h' & E & _); [intros ? []|]. exists h'; exact E. Qed.
Theorem gen_like_init : forall p K s h, ty p <> TE -> ty p <> TF ->
  exists h1 h2, param_gen p K s h = Ok h1 /\ param_init p K h = Ok h2 /\ Permutation h1 h2.
Proof.
  intros p K s h NE NF. destruct (gen_ok p K s h) as (h1 & E1 & C1); [intros ? []|]. destruct (param_init_ok p K h) as (h2 & E2 & C2); [intros ? []|].
  exists h1, h2. split; [exact E1|split; [exact E2|]]. apply perm_count. intros q. specialize (C1 q). specialize (C2 q).
  assert (Z : leak p K s = []) by (unfold leak; destruct (ty p); congruence). rewrite Z in C1. cnt. lia.
Qed.
Lemma gen_clear : forall p K s h, exists h', (param_gen p K s >> param_clear p K) h = Ok h' /\ Permutation h' (leak p K s ++ h).
Proof.
  intros p K s h. destruct (gen_ok p K s h) as (h1 & E1 & C1); [intros ? []|]. destruct (param_clear_ok p K h1) as (h2 & E2 & C2); [|intros ? []|].
  { intros q. specialize (C1 q). cnt. lia. }
  exists h2. unfold andthen. rewrite E1. split; [exact E2|]. apply perm_count. intros q. specialize (C1 q). specialize (C2 q). cnt. lia.
Qed.
Theorem gen_clear_restores : forall p K s h, ty p <> TE -> ty p <> TF ->
  exists h', (param_gen p K s >> param_clear p K) h = Ok h' /\ Permutation h' h.
Proof.
  intros p K s h NE NF. destruct (gen_clear p K s h) as (h' & E & P). exists h'; split; [exact E|].
  assert (Z : leak p K s = []) by (unfold leak; destruct (ty p); congruence). rewrite Z in P. exact P.
Qed.
Local Transparent cells fcells.
Theorem gen_leaks : forall p K s h, ty p = TE \/ ty p = TF ->
  exists h', (param_gen p K s >> param_clear p K) h = Ok h' /\ length h + 10 <= length h'.
Proof.
  intros p K s h T. destruct (gen_clear p K s h) as (h' & E & P). exists h'; split; [exact E|].
  apply Permutation_length in P. rewrite P, app_length. unfold leak. destruct T as [-> | ->]; rewrite !app_length; unfold Gcurve, Gq; cbn [fcells name_of cells app];
  destruct (qi p); cbn [cells app length]; lia.
Qed.
Theorem gen_leaks_many : forall p K (ss : nat -> search) n h, ty p = TE \/ ty p = TF ->
  exists h', upto n (fun i => param_gen p K (ss i) >> param_clear p K) h = Ok h' /\ length h + 10 * n <= length h'.
Proof.
  intros p K ss n h T. induction n as [|n (h1 & E1 & L1)]; cbn [upto]; [exists h; split; [reflexivity|lia]|].
  destruct (gen_leaks p K (ss n) h1 T) as (h2 & E2 & L2). exists h2. split; [|lia]. unfold andthen at 1. rewrite E1. exact E2.
Qed.

(** ** Histories *)
Lemma gstep_ok : forall c o h, wf o -> holds o h -> legal o (as_read c) -> gen_clean c ->
  exists h', gexec c (o, h) = Ok (after o (as_read c), h') /\ wf (after o (as_read c)) /\ holds (after o (as_read c)) h'.
Proof.
  intros [c|k p s] o h W H G Cl; cbn [as_read gen_clean gexec] in *; [apply step_ok; assumption|]. destruct Cl as (NE & NF). cbn [legal after] in *.
  assert (Z : leak p [k] s = []) by (unfold leak; destruct (ty p); congruence). pose proof (gen_ok p [k] s) as GO. rewrite Z, app_nil_r in GO.
  destruct (put_step o h k (OParam p) (param_gen p [k] s) [] H GO ltac:(intros ? [])) as (h' & E & H').
  exists h'. rewrite E. split; [reflexivity|]. split; [apply wf_put; [exact W|exact G|exact I]|exact H'].
Qed.
Lemma grun_ok : forall cs o h, wf o -> holds o h -> legals o (map as_read cs) -> (forall c, In c cs -> gen_clean c) ->
  exists h', gexecs cs (o, h) = Ok (afters o (map as_read cs), h') /\ wf (afters o (map as_read cs)) /\ holds (afters o (map as_read cs)) h'.
Proof.
  induction cs as [|c cs IH]; intros o h W H G Cl; [exists h; repeat split; try apply W; exact H|]. cbn [map legals gexecs afters] in *. destruct G as (G1 & G2).
  destruct (gstep_ok c o h W H G1 (Cl c (or_introl eq_refl))) as (h1 & E & W1 & H1). rewrite E. cbn [bind]. apply IH; try assumption. intros c' Hc; apply Cl; right; exact Hc.
Qed.
Theorem mixed_like_read : forall cs, glegals cs -> exists h h',
  gexecs cs ([], []) = Ok (afters [] (map as_read cs), h) /\ execs (map as_read cs) ([], []) = Ok (afters [] (map as_read cs), h') /\ Permutation h h'.
Proof.
  intros cs (G & Cl). destruct (grun_ok cs [] [] wf_nil holds_nil G Cl) as (h & E & _ & H). destruct (run_ok _ [] [] wf_nil holds_nil G) as (h' & E' & _ & H').
  exists h, h'. split; [exact E|split; [exact E'|]]. apply perm_count. intros q. rewrite H, H'. reflexivity.
Qed.
Theorem mixed_nothing_left : forall cs, glegals cs -> afters [] (map as_read cs) = [] -> gexecs cs ([], []) = Ok ([], []).
Proof.
  intros cs (G & Cl) A. destruct (grun_ok cs [] [] wf_nil holds_nil G Cl) as (h & E & _ & H). rewrite A in E, H. refine (eq_trans E _). do 2 f_equal. apply count_all0. exact H.
Qed.
