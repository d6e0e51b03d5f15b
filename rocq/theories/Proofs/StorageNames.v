(** No two live blocks have the same name. *)
From Coq Require Import List ZArith Bool Arith Lia Permutation.
From Verif.Base Require Import Outcome.
From Verif.Model Require Import Mnt Miller PairingD Storage.
From Verif.Spec Require Import Storage.
From Verif.Proofs Require Import StorageFacts StoragePairing StorageClear StorageTables StorageRun.
Import ListNotations.
Local Open Scope nat_scope.

Definition Grp (e : path) (K : nat -> Prop) (l : list path) : Prop :=
  NoDup l /\ forall q, In q l -> exists k s, K k /\ q = s ++ k :: e.
Definition Good (e : path) (l : list path) : Prop := NoDup l /\ forall q, In q l -> exists s, q = s ++ e.

Lemma key_inj : forall (e : path) k k' s s', s ++ k :: e = s' ++ k' :: e -> k = k'.
Proof.
  intros e k k' s s' H. change (k :: e) with ([k] ++ e) in H. change (k' :: e) with ([k'] ++ e) in H. rewrite !app_assoc in H.
  apply app_inv_tail in H. apply app_inj_tail in H. apply H.
Qed.
Lemma Grp_weak : forall e (K K' : nat -> Prop) l, (forall k, K k -> K' k) -> Grp e K l -> Grp e K' l.
Proof. intros e K K' l H (N & U). split; [exact N|]. intros q Q. destruct (U q Q) as (k & s & A & B). exists k, s; auto. Qed.
Lemma nodup_app : forall (a b : list path), NoDup a -> NoDup b -> (forall q, In q a -> In q b -> False) -> NoDup (a ++ b).
Proof.
  induction a as [|x a IH]; intros b A B D; [exact B|]. inversion A; subst. cbn. constructor.
  - rewrite in_app_iff. intros [H|H]; [tauto|]. apply (D x); [left; reflexivity|exact H].
  - apply IH; [assumption|exact B|]. intros q Q. apply D. right; exact Q.
Qed.
Lemma Grp_app : forall e (K K' : nat -> Prop) a b, Grp e K a -> Grp e K' b -> (forall k, K k -> K' k -> False) -> Grp e (fun k => K k \/ K' k) (a ++ b).
Proof.
  intros e K K' a b (A & UA) (B & UB) D. split.
  - apply nodup_app; [exact A|exact B|]. intros q QA QB. destruct (UA q QA) as (k & s & H1 & E1). destruct (UB q QB) as (k' & s' & H2 & E2).
    rewrite E1 in E2. apply key_inj in E2. subst. apply (D k' H1 H2).
  - intros q Q. apply in_app_or in Q. destruct Q as [Q|Q]; [destruct (UA q Q) as (k & s & H1 & E1)|destruct (UB q Q) as (k & s & H1 & E1)]; exists k, s; auto.
Qed.
Lemma Grp_nil : forall e K, Grp e K []. Proof. intros e K. split; [constructor|intros q []]. Qed.
Lemma Grp_one : forall e (K : nat -> Prop) k, K k -> Grp e K [k :: e].
Proof. intros e K k H. split; [constructor; [intros []|constructor]|]. intros q [<-|[]]. exists k, []. split; [exact H|reflexivity]. Qed.
Lemma Good_Grp : forall e (K : nat -> Prop) k l, K k -> Good (k :: e) l -> Grp e K l.
Proof. intros e K k l H (N & U). split; [exact N|]. intros q Q. destruct (U q Q) as (s & E). exists k, s; auto. Qed.
Lemma Grp_Good : forall e K l, Grp e K l -> Good e l.
Proof. intros e K l (N & U). split; [exact N|]. intros q Q. destruct (U q Q) as (k & s & _ & E). exists (s ++ [k]). rewrite E, <- app_assoc. reflexivity. Qed.
Lemma Good_self : forall e K l, Grp e K l -> Good e (e :: l).
Proof.
  intros e K l G. destruct (Grp_Good e K l G) as (N & U). split.
  - constructor; [|exact N]. intros Q. destruct G as (_ & V). destruct (V e Q) as (k & s & _ & E). apply (f_equal (@length nat)) in E. rewrite app_length in E. cbn in E. lia.
  - intros q [<-|Q]; [exists []; reflexivity|apply U, Q].
Qed.
Lemma same_perm : forall a b, same a b -> Permutation a b.
Proof. intros a b S. apply (Permutation_count_occ path_dec). intros q. rewrite !count_occ_count. apply S. Qed.
Lemma Grp_same : forall e K a b, same a b -> Grp e K a -> Grp e K b.
Proof.
  intros e K a b S (N & U). apply same_perm in S. split; [apply (Permutation_NoDup S N)|]. intros q Q. apply U. apply (Permutation_in q (Permutation_sym S) Q).
Qed.
Lemma Grp_cat : forall e (K : nat -> nat -> Prop) B n, (forall i, i < n -> Grp e (K i) (B i)) -> (forall i j k, K i k -> K j k -> i = j) ->
  Grp e (fun k => exists i, i < n /\ K i k) (cat n B).
Proof.
  intros e K B n H J. induction n as [|n IH]; [apply Grp_nil|]. cbn [cat].
  apply (Grp_weak e (fun k => (exists i, i < n /\ K i k) \/ K n k)).
  - intros k [(i & A & C)|C]; [exists i; split; [lia|exact C]|exists n; split; [lia|exact C]].
  - apply Grp_app; [apply IH; intros i Hi; apply H; lia|apply H; lia|]. intros k (i & A & C) D. pose proof (J i n k C D). lia.
Qed.
Lemma one_at : forall e j, Grp e (fun k => k = j) [j :: e]. Proof. intros. apply Grp_one. reflexivity. Qed.
Lemma Good_at : forall e j l, Good (j :: e) l -> Grp e (fun k => k = j) l.
Proof. intros e j l G. apply (Good_Grp e _ j); [reflexivity|exact G]. Qed.
Lemma groups : forall e (G : list (nat * list path)), NoDup (map fst G) -> Forall (fun g => Grp e (fun k => k = fst g) (snd g)) G ->
  Grp e (fun k => In k (map fst G)) (flat_map snd G).
Proof.
  intros e. induction G as [|[j l] G IH]; intros N F; [apply Grp_nil|]. cbn [map flat_map fst snd] in *. inversion N; subst. inversion F; subst.
  apply (Grp_weak e (fun k => k = j \/ In k (map fst G))); [intros k [->|H]; [left; reflexivity|right; exact H]|].
  apply Grp_app; [assumption|apply IH; assumption|]. intros k -> H. tauto.
Qed.
Ltac ndk := cbn [map fst]; repeat (apply NoDup_cons; [cbn; intuition discriminate|]); apply NoDup_nil.
(** [G]: the blocks grouped by their key. *)
Ltac grp0 G := apply (Grp_same _ (fun k => In k (map fst G)) (flat_map snd G)); [|apply groups; [ndk|cbn [map]; repeat first [apply Forall_nil | apply Forall_cons; cbn [fst snd]]]].
Ltac grp G := eapply Grp_weak; [|apply (Grp_same _ _ (flat_map snd G)); [|apply groups; [ndk|cbn [map]; repeat first [apply Forall_nil | apply Forall_cons; cbn [fst snd]]]]].

Lemma cells_good : forall f e, Good e (cells f e).
Proof.
  intros f e. enough (exists K, Grp e K (cells f e)) as (K & G) by apply (Grp_Good _ K _ G). revert e.
  induction f as [im s h|s h|s h b IH|s h b IH|s h b IH|s h n rs rh b IH|s h b IH cf qc|s h b IH|s h b IH]; intros e; cbn [cells];
  try (assert (C : forall j, Grp e (fun k => k = j) (cells b (j :: e))) by (intros j; destruct (IH (j :: e)) as (K & G); apply Good_at, (Grp_Good _ K), G)).
  - destruct im; exists (fun _ => True);
    first [grp [(0, [0 :: e])]; [intros; exact I|cbn [flat_map snd]; sm|apply one_at] | grp [(0, [0 :: e]); (1, [1 :: e])]; [intros; exact I|cbn [flat_map snd]; sm|apply one_at|apply one_at]].
  - eexists. apply one_at.
  - exists (fun _ => True). grp [(0, [0 :: e]); (1, cells b (1 :: e)); (2, cells b (2 :: e))]; [intros; exact I|cbn [flat_map snd]; sm|apply one_at|apply C|apply C].
  - exists (fun _ => True). grp [(0, [0 :: e]); (1, cells b (1 :: e)); (2, cells b (2 :: e)); (3, cells b (3 :: e))]; [intros; exact I|cbn [flat_map snd]; sm|apply one_at|apply C|apply C|apply C].
  - exists (fun _ => True). grp [(0, [0 :: e]); (1, [1 :: e])]; [intros; exact I|cbn [flat_map snd]; sm|apply one_at|apply one_at].
  - eexists. apply Grp_app; [apply one_at|apply (Grp_cat e (fun i k => k = S i)); [intros i _; exact (C (S i))|cbn beta; intros; lia]|].
    cbn beta. intros k -> (i & _ & D). lia.
  - exists (fun _ => True). grp [(0, [0 :: e]); (1, cells b (1 :: e)); (2, cells b (2 :: e))]; [intros; exact I|cbn [flat_map snd]; sm|apply one_at|apply C|apply C].
  - exists (fun _ => True). grp [(0, [0 :: e]); (1, cells b (1 :: e)); (2, cells b (2 :: e))]; [intros; exact I|cbn [flat_map snd]; sm|apply one_at|apply C|apply C].
  - exists (fun _ => True). grp [(0, [0 :: e]); (1, cells b (1 :: e))]; [intros; exact I|cbn [flat_map snd]; sm|apply one_at|apply C].
Qed.
Lemma cells_at : forall f e j, Grp e (fun k => k = j) (cells f (j :: e)).
Proof. intros f e j. apply Good_at, cells_good. Qed.
Lemma pcells_good : forall b e n, Grp e (fun k => 2 <= k) (pcells b e n).
Proof.
  intros b e n. unfold pcells. apply (Grp_weak e (fun k => exists i, i < n /\ (k = 2 * i + 2 \/ k = 2 * i + 3))); [intros k (i & _ & H); lia|].
  apply (Grp_cat e (fun i k => k = 2 * i + 2 \/ k = 2 * i + 3)); [|intros; lia]. intros i _.
  apply Grp_app; [apply Grp_one; reflexivity|apply cells_at|intros; lia].
Qed.
Lemma ncells_good : forall f nq, Grp (name_of f) (fun k => k = 8 \/ k = 9) (ncells f nq).
Proof. intros f nq. unfold ncells. destruct nq; [|apply Grp_nil]. apply Grp_app; [apply one_at|apply cells_at|intros; lia]. Qed.
Lemma quot_good : forall f, Grp (name_of f) (fun k => k = 10 \/ k = 11) (quot f).
Proof. intros f. destruct f; try apply Grp_nil. destruct qc; [|apply Grp_nil]. cbn [name_of quot]. apply (Grp_app _ _ _ [_] [_]); [apply one_at|apply one_at|intros; lia]. Qed.
Lemma fcells_good : forall f, Grp (name_of f) (fun k => k < 8) (fcells f).
Proof.
  assert (L : forall s l, NoDup l -> Forall (fun k => k < 8) l -> Grp s (fun k => k < 8) (map (fun k => k :: s) l)).
  { intros s l N F. split.
    - apply FinFun.Injective_map_NoDup; [intros a b H; congruence|exact N].
    - intros q Q. apply in_map_iff in Q. destruct Q as (k & <- & Q). exists k, []. rewrite Forall_forall in F. split; [apply F, Q|reflexivity]. }
  assert (Ls : forall s l, (if list_eq_dec Nat.eq_dec (nodup Nat.eq_dec l) l then forallb (fun k => k <? 8) l else false) = true -> Grp s (fun k => k < 8) (map (fun k => k :: s) l)).
  { intros s l H. destruct (list_eq_dec Nat.eq_dec (nodup Nat.eq_dec l) l) as [E|]; [|discriminate]. apply L; [rewrite <- E; apply NoDup_nodup|].
    apply Forall_forall. intros k Q. rewrite forallb_forall in H. apply Nat.ltb_lt, H, Q. }
  intros f. destruct f as [im s h|s h|s h b|s h b|s h b|s h n rs rh b|s h b cf qc|s h b|s h b]; cbn [fcells name_of].
  - destruct im; cbn [fp_blocks]; match goal with |- Grp _ _ ?l => let x := eval cbn in (map (fun q => hd 0 q) l) in exact (Ls s x eq_refl) end.
  - exact (Ls s [0; 1; 2; 3] eq_refl).
  - exact (Ls s [0] eq_refl).
  - exact (Ls s [0] eq_refl).
  - exact (Ls s [0; 1] eq_refl).
  - set (f := PolyMod s h n rs rh b).
    grp [(0, [0 :: s]); (1, [1 :: s]); (2, [0 :: 2 :: s; 1 :: 2 :: s] ++ pcells b (2 :: s) (n + 1)); (3, (3 :: s) :: cat n (fun i => cells f (i :: 3 :: s)))].
    + intros k H; cbn in H; lia.
    + cbn [flat_map snd]. sm.
    + apply one_at.
    + apply one_at.
    + apply Good_at. eapply Grp_Good. apply Grp_app; [grp0 [(0, [0 :: 2 :: s]); (1, [1 :: 2 :: s])]; [cbn [flat_map snd]; sm|apply one_at|apply one_at]|apply pcells_good|].
      cbn. intros; lia.
    + apply Good_at. eapply Good_self. apply (Grp_cat _ (fun i k => k = i)); [intros i _; apply cells_at|intros; lia].
  - set (f := Curve s h b cf qc).
    destruct cf.
    + grp [(0, [0 :: s]); (1, [1 :: s]); (2, cells b (2 :: s)); (3, cells b (3 :: s)); (4, cells f (4 :: s)); (5, cells f (5 :: s)); (6, [6 :: s]); (7, [7 :: s])];
      [intros k H; cbn in H; lia|cbn [flat_map snd]; sm|apply one_at|apply one_at|apply cells_at|apply cells_at|apply cells_at|apply cells_at|apply one_at|apply one_at].
    + grp [(0, [0 :: s]); (1, [1 :: s]); (2, cells b (2 :: s)); (3, cells b (3 :: s)); (4, cells f (4 :: s)); (5, cells f (5 :: s))];
      [intros k H; cbn in H; lia|cbn [flat_map snd]; sm|apply one_at|apply one_at|apply cells_at|apply cells_at|apply cells_at|apply cells_at].
  - exact (Ls s [0] eq_refl).
  - exact (Ls s [0] eq_refl).
Qed.

Lemma block_good : forall f nq, Good (name_of f) (fcells f ++ ncells f nq ++ quot f).
Proof.
  intros f nq. eapply Grp_Good. apply Grp_app; [apply fcells_good|apply Grp_app; [apply ncells_good|apply quot_good|]|]; cbn beta; intros; lia.
Qed.
Lemma block_at : forall f nq e j, name_of f = j :: e -> Grp e (fun k => k = j) (fcells f ++ ncells f nq ++ quot f).
Proof. intros f nq e j E. apply Good_at. rewrite <- E. apply block_good. Qed.
Section Pair.
Local Opaque cells fcells ncells quot pcells.
Ltac fin := repeat first [apply one_at | apply cells_at | apply block_at; reflexivity].
Ltac sn := let q := fresh "q" in intros q; cbn [flat_map snd]; un; unfold c_r, c_data, c_phikonr, c_tateexp, c_n2; cc; repeat (rewrite quot_nil by exact I); lia.
Lemma pair_good : forall p P nq, Good P (pair_cells p P nq).
Proof.
  intros p P nq. eapply (Grp_Good P (fun _ => True)).
  set (B := fun f n => fcells f ++ ncells f n ++ quot f).
  destruct p as [t z q0 r]. set (p := {| ty := t; zi := z; qi := q0; rr := r |}).
  unfold pair_cells, common_cells, type_cells. destruct t as [e1 e2| |n| | | |]; cbn [ty p].
  - grp [(0, [0 :: P]); (1, [1 :: P]); (2, [2 :: P]); (3, B (Zr p P) (nq SZr)); (4, B (GT p P) false); (5, B (Fq p P) (nq SFq)); (6, B (Eq p P) false); (7, B (Fx p P) (nq SFx))];
    [intros; exact I|unfold B, p; sn|fin..].
  - grp [(0, [0 :: P]); (1, [1 :: P]); (2, [2 :: P]); (3, B (Zr p P) (nq SZr)); (4, B (GT p P) false); (5, B (Fq p P) (nq SFq)); (6, B (Eq p P) false); (7, B (Fx p P) (nq SFx))];
    [intros; exact I|unfold B, p; sn|fin..].
  - destruct (n =? 3).
    + grp [(0, [0 :: P]); (1, [1 :: P]); (2, [2 :: P]); (3, B (Zr p P) (nq SZr)); (4, B (GT p P) false); (5, B (Fq p P) (nq SFq)); (6, B (Eq p P) false); (7, B (Fx p P) (nq SFx));
           (8, B (Fd p P) (nq SFd)); (9, B (Fring p P) false); (10, B (Etwist p P) false); (11, cells (Fd p P) (11 :: P)); (12, cells (Fd p P) (12 :: P)); (15, cells (Fd p P) (15 :: P)); (16, cells (Fd p P) (16 :: P))];
      [intros; exact I|unfold B, p; sn|fin..].
    + grp [(0, [0 :: P]); (17, [17 :: P]); (2, [2 :: P]); (3, B (Zr p P) (nq SZr)); (4, B (GT p P) false); (5, B (Fq p P) (nq SFq)); (6, B (Eq p P) false); (7, B (Fx p P) (nq SFx));
           (8, B (Fd p P) (nq SFd)); (9, B (Fring p P) false); (10, B (Etwist p P) false); (15, cells (Fd p P) (15 :: P)); (16, cells (Fd p P) (16 :: P))];
      [intros; exact I|unfold B, p; sn|fin..].
  - grp [(0, [0 :: P]); (1, [1 :: P]); (2, [2 :: P]); (3, B (Zr p P) (nq SZr)); (4, B (GT p P) false); (5, B (Fq p P) (nq SFq)); (6, B (Eq p P) false); (11, cells (Eq p P) (11 :: P))];
    [intros; exact I|unfold B, p; sn|fin..].
  - grp [(0, [0 :: P]); (17, [17 :: P]); (2, [2 :: P]); (3, B (Zr p P) (nq SZr)); (4, B (GT p P) false); (5, B (Fq p P) (nq SFq)); (6, B (Eq p P) false); (7, B (Fx p P) (nq SFx));
         (8, B (Ftop p P) (nq SFd)); (9, B (Fring p P) false); (10, B (Etwist p P) false); (11, cells (Fx p P) (11 :: P)); (12, cells (Fx p P) (12 :: P)); (13, cells (Fx p P) (13 :: P));
         (15, cells (Fx p P) (15 :: P)); (16, cells (Fx p P) (16 :: P))];
    [intros; exact I|unfold B, p; sn|fin..].
  - grp [(0, [0 :: P]); (1, [1 :: P]); (2, [2 :: P]); (3, B (Zr p P) (nq SZr)); (4, B (GT p P) false); (5, B (Fq p P) (nq SFq)); (6, B (Eq p P) false); (7, B (Fx p P) (nq SFx));
         (8, B (Fd p P) (nq SFd)); (9, B (Fring p P) false); (10, B (Etwist p P) false); (11, cells (Fd p P) (11 :: P)); (12, cells (Fd p P) (12 :: P)); (13, cells (Fd p P) (13 :: P)); (14, cells (Fd p P) (14 :: P));
         (15, cells (Fd p P) (15 :: P)); (16, cells (Fd p P) (16 :: P))];
    [intros; exact I|unfold B, p; sn|fin..].
  - grp [(0, [0 :: P]); (18, [18 :: P]); (2, [2 :: P]); (3, B (Zr p P) (nq SZr)); (4, B (GT p P) false); (5, B (gf3 P) (nq SFq)); (6, B (Eq p P) false); (7, B (Fx p P) (nq SFx));
         (8, B (Ftop p P) (nq SFd)); (19, [19 :: P])];
    [intros; exact I|unfold B, p; sn|fin..].
Qed.
End Pair.

Lemma param_good : forall p K, Good K (param_cells p K).
Proof.
  intros p K. assert (M : mpz_count p <= 9) by (unfold mpz_count; destruct (ty p); lia). unfold param_cells.
  eapply Grp_Good. apply Grp_app; [apply one_at|apply Grp_app|].
  - apply (Grp_cat K (fun i k => k = S i)); [intros i _; apply one_at|intros; lia].
  - instantiate (1 := fun k => 20 <= k). destruct (coeff_count p); [|apply Grp_nil].
    eapply Grp_weak; [|apply Grp_app; [apply one_at|apply (Grp_cat K (fun i k => k = 21 + i)); [intros i _; apply (one_at K (21 + i))|intros; lia]|]]; cbn beta.
    + intros k [->|(i & _ & ->)]; lia.
    + intros k -> (i & _ & H). lia.
  - cbn beta. intros k (i & H & ->) A. lia.
  - cbn beta. intros k -> [(i & _ & H)|H]; lia.
Qed.
Lemma e3_at : forall p P K i, Grp K (fun k => k = S i) (e3 p P K i).
Proof.
  intros p P K i. apply Good_at. apply (Grp_Good _ (fun _ => True)). unfold e3. cbn [flat_map]. unfold pc. cbn [fst snd].
  grp [(1, cells (Fq p P) (1 :: S i :: K)); (2, cells (Fq p P) (2 :: S i :: K)); (3, cells (Fq p P) (3 :: S i :: K))]; [intros; exact I|cbn [flat_map snd]; intros q; reflexivity|apply cells_at|apply cells_at|apply cells_at].
Qed.
Lemma e3s_good : forall p P K n, Good K ([0 :: K] ++ cat n (e3 p P K)).
Proof.
  intros p P K n. eapply Grp_Good. apply Grp_app; [apply one_at|apply (Grp_cat K (fun i k => k = S i)); [intros i _; apply e3_at|intros; lia]|].
  cbn beta. intros k -> (i & _ & H). lia.
Qed.
Lemma Good_nil : forall e, Good e []. Proof. intros e. split; [constructor|intros q []]. Qed.
Lemma pp_good : forall p P m K, Good K (pp_cells p P m K).
Proof.
  intros p P m K. unfold pp_cells.
  assert (N : Good K ([0 :: K; 1 :: K] ++ flat_map pc [(Fq p P, 2 :: K); (Fq p P, 3 :: K)] ++ cat (rbits p) (fun i => flat_map pc (entry8 p P K i)))).
  { eapply Grp_Good. rewrite app_assoc. apply Grp_app.
    - grp0 [(0, [0 :: K]); (1, [1 :: K]); (2, cells (Fq p P) (2 :: K)); (3, cells (Fq p P) (3 :: K))];
      [cbn [flat_map snd]; unfold pc; cbn [fst snd]; sm|apply one_at|apply one_at|apply cells_at|apply cells_at].
    - apply (Grp_cat K (fun i k => k = 4 + i)); [|intros; lia]. intros i _. apply (Good_at K (4 + i)). apply (Grp_Good _ (fun _ => True)). unfold entry8. cbn [map flat_map]. unfold pc. cbn [fst snd].
      set (e := 4 + i :: K). grp (map (fun j => (j, cells (Fq p P) (j :: e))) [0; 1; 2; 3; 4; 5; 6; 7]); [intros; exact I|intros q; reflexivity|apply cells_at..].
    - cbn. intros k H (i & _ & E). lia. }
  destruct (ty p), m; try apply Good_nil; try apply e3s_good; exact N.
Qed.
Lemma tab_good : forall f bits K, Good K (tab_cells f bits K).
Proof.
  intros f bits K. unfold tab_cells. eapply Grp_Good. apply Grp_app.
  - grp0 [(0, [0 :: K]); (1, [1 :: K])]; [cbn [flat_map snd]; sm|apply one_at|apply one_at].
  - apply (Grp_cat K (fun i k => k = 3 + i)); [|intros; lia]. intros i _. apply (Good_at K (3 + i)). eapply Grp_Good.
    apply Grp_app; [apply one_at|apply (Grp_cat _ (fun j k => k = S j)); [intros j _; apply cells_at|intros; lia]|]. cbn beta. intros k -> (j & _ & H). lia.
  - cbn. intros k H (i & _ & E). lia.
Qed.
Lemma epp_good : forall f bits K, Good K (epp_cells f bits K).
Proof.
  intros f bits K. unfold epp_cells. destruct f; try apply tab_good. eapply Grp_Good. apply Grp_app; [apply one_at|apply Good_at, tab_good|]. cbn beta. intros; lia.
Qed.
Lemma obj_good : forall x, Good [fst x] (obj_cells x).
Proof.
  intros [k x]. unfold obj_cells. cbn [fst snd]. destruct x as [p|p m nq|i f|i p [m|]|i f bits];
  [apply param_good|apply pair_good|apply cells_good|apply pp_good|apply Good_nil|apply epp_good].
Qed.
Lemma objs_good : forall o, NoDup (map fst o) -> NoDup (flat_map obj_cells o).
Proof.
  intros o N. enough (G : Grp [] (fun k => In k (map fst o)) (flat_map obj_cells o)) by apply G.
  induction o as [|x o IH]; [apply Grp_nil|]. cbn [map flat_map] in *. inversion N; subst.
  apply (Grp_weak [] (fun k => k = fst x \/ In k (map fst o))); [intros k [->|H]; [left; reflexivity|right; exact H]|].
  apply Grp_app; [apply Good_at, obj_good|apply IH; assumption|]. intros k -> H. tauto.
Qed.
Theorem names_distinct : forall cs o h, legals [] cs -> execs cs ([], []) = Ok (o, h) -> NoDup h.
Proof.
  intros cs o h G E. destruct (run_ok cs [] [] wf_nil holds_nil G) as (h1 & E1 & W & H). pose proof (eq_trans (eq_sym E) E1) as X. inversion X; subst.
  apply (Permutation_NoDup (Permutation_sym (same_perm _ _ H))). apply objs_good, W.
Qed.
