(** element_set_multiz stores the value of the nested list. *)
From Coq Require Import ZArith List Bool Lia Arith Ring Field Setoid Morphisms.
From Verif.Base Require Import Outcome Array Algebra Slots.
From Verif.Spec Require Import FiniteField Polynomials Extension Quadratic Curve Twist ElementText Multiz SetMultiz.
From Verif.Model Require Import Multiz Poly PairingD SetMultiz.
From Verif.Proofs Require Import FieldFacts SlotFacts QuadFacts PolyAlgebra PolyFacts ExtFacts PolymodFacts PolymodRuns ExtFrobenius MultizFacts MultizField.
Import ListNotations.
Open Scope nat_scope.

Lemma get_nth_some : forall (A : Type) (l : list A) i d, i < length l -> get l i = Ok (nth i l d).
Proof. intros A l i d H. unfold get. rewrite (nth_error_nth' l d H). reflexivity. Qed.
Lemma traverse_ext : forall (A B : Type) (f : A -> res B) (g : A -> B) l, (forall x, In x l -> f x = Ok (g x)) -> traverse f l = Ok (map g l).
Proof.
  intros A B f g l. induction l as [|x l IH]; intro H; cbn [traverse map]; auto.
  rewrite (H x) by (left; auto). cbn [bind]. rewrite IH by (intros; apply H; right; auto). reflexivity.
Qed.

(** ** Prime fields *)
Section B.
Variable K : fld.
Hypothesis HK : fld_laws K.
Add Field KFsb : (fl_field K HK).
Lemma base_leaf : forall a, nonempty a ->
  exists z, first_leaf a = Ok z /\ forall k, mvalue K no_gens k a = fofz z.
Proof.
  induction a as [z|l IH] using mz_ind'; intro H.
  - exists z. auto.
  - inversion H as [|l' Hl HF]; subst. destruct l as [|x t]; [congruence|].
    inversion IH as [|? ? Hx _]; subst. inversion HF; subst. destruct (Hx H2) as (z & E & V).
    exists z. split; [exact E|]. intro k. rewrite mvalue_MA. cbn [map]. rewrite horn_cons, V. unfold no_gens.
    ring.
Qed.
Lemma base_stores : stores K no_gens [] (fun x => x) (generic_set_multiz (fofz : Z -> K)).
Proof.
  intros a S. assert (N : nonempty a) by (inversion S; subst; auto; constructor).
  destruct (base_leaf a N) as (z & E & V). unfold generic_set_multiz. rewrite E. cbn [bind]. rewrite V. reflexivity.
Qed.
End B.

(** ** Constants of an extension *)
Lemma mvalue_emb : forall (K M : fld) (h : K -> M), embedding K M h -> (forall z, h (fofz z) = fofz z) ->
  forall (g : nat -> K) (g' : nat -> M), (forall k, g' (S k) = h (g k)) ->
  forall a k, mvalue M g' (S k) a = h (mvalue K g k a).
Proof.
  intros K M h E Z g g' G. induction a as [z|l IH] using mz_ind'; intro k.
  - cbn [mvalue]. symmetry. apply Z.
  - cbn [mvalue]. rewrite G. induction IH as [|x t Hx _ IHt]; cbn [map fold_right].
    + symmetry. apply (em_0 _ _ _ E).
    + rewrite IHt, Hx, (em_add _ _ _ E), (em_mul _ _ _ E). reflexivity.
Qed.

Section K.
Variable K : fld.
Hypothesis HK : fld_laws K.
Add Field KFsm : (fl_field K HK).

(** ** Quadratic extensions *)
Section Q.
Variable d : K.
Hypothesis Hd : ~ is_square d.
Lemma low_emb : embedding K (Quad K d) (fun x => (x, f0)).
Proof. split; auto; intros; cbn [fadd fmul Quad qmul fst snd]; unfold qmul; cbn [fst snd]; f_equal; ring. Qed.
Lemma quad_stores : forall g bs sub, stores K g bs (fun x => x) sub ->
  stores (Quad K d) (quad_gens d g) (2 :: bs) (fun x => x) (fq_set_multiz sub f0).
Proof.
  intros g bs sub S a SA.
  assert (C : forall c, mvalue (Quad K d) (quad_gens d g) 1 c = (mvalue K g 0 c, f0)).
  { intro c. apply (mvalue_emb K (Quad K d) (fun x => (x, f0)) low_emb); [ | reflexivity]. intro z. symmetry. apply (Quad_fofz K HK d Hd). }
  inversion SA as [? z | | n bs' l Hl Hn HF]; subst.
  - cbn [fq_set_multiz]. rewrite (S (MZ z)) by constructor. cbn [bind mvalue]. f_equal. symmetry. apply (Quad_fofz K HK d Hd).
  - destruct l as [|x [|y [|]]]; [congruence | | | cbn in Hn; lia].
    + inversion HF; subst. cbn [fq_set_multiz]. unfold multiz_at. cbn [get nth_error bind]. rewrite (S x) by auto. cbn [bind length Nat.ltb Nat.leb].
      f_equal. cbn [mvalue map fold_right]. rewrite C. cbn [quad_gens fadd fmul Quad f0 fst snd]. unfold qmul. cbn [fst snd]. f_equal; ring.
    + inversion HF as [|? ? Sx HF']; subst. inversion HF'; subst. cbn [fq_set_multiz]. unfold multiz_at. cbn [get nth_error bind]. rewrite (S x) by auto.
      cbn [bind length Nat.ltb Nat.leb get nth_error]. rewrite (S y) by auto. cbn [bind].
      f_equal. cbn [mvalue map fold_right]. rewrite !C. cbn [quad_gens fadd fmul Quad f0 fst snd]. unfold qmul. cbn [fst snd]. f_equal; ring.
Qed.
End Q.

(** ** Extensions K[X]/(m) *)
Section E.
Variables (n : nat) (m : list K).
Hypothesis Hm : monic m n.
Hypothesis Hn : 2 <= n.
Local Notation M := (Ext K n m).
Existing Instance eqp_equiv.
Local Instance mulp_proper_s : Proper (eqp ==> eqp ==> eqp) (mulp K) := mulp_proper K HK.
Local Instance cong_equiv_s m : Equivalence (cong m) := cong_equiv K HK m.
Local Instance eqp_cong_s m : subrelation (@eqp K) (cong m) := eqp_cong K HK m.
Lemma x_shift : forall v : M, vcoef v (n - 1) = f0 ->
  fmul (xelem K n m) v = (mkvec n (fun i => match i with O => f0 | S i => vcoef v i end) : M).
Proof.
  intros v V. apply (vec_cong K HK n m Hm). rewrite (E_mul K HK n m Hm ltac:(lia)). apply (eqp_cong K HK).
  assert (X : eqp (vl K n (xelem K n m)) [f0; f1]).
  { change (xelem K n m) with (unitv K n m 1). rewrite (vl_unit K n m Hn 1) by lia. reflexivity. }
  rewrite X. intro i. pose proof (cons_split K HK f0 (vl K n v) i) as C. rewrite (coef_addp K HK) in C.
  assert (Z : coef [f0 : K] i = f0) by (destruct i; [reflexivity | apply coef_nil]). rewrite Z in C.
  transitivity (coef (f0 :: vl K n v) i); [rewrite C; ring | ].
  change (coef (vl K n (mkvec n (fun i => match i with O => f0 | S i => vcoef v i end))) i) with (vcoef (mkvec n (fun i => match i with O => f0 | S i => vcoef v i end)) i).
  rewrite vcoef_mk. destruct i as [|i]; [destruct (0 <? n); reflexivity|]. change (coef (f0 :: vl K n v) (S i)) with (vcoef v i).
  destruct (Nat.ltb_spec (S i) n); auto. destruct (Nat.eq_dec i (n - 1)) as [-> | Ne]; auto. apply vcoef_over. lia.
Qed.
Lemma horn_ext : forall l : list K, length l <= n ->
  forall i, vcoef (horn M (xelem K n m) (map (cvec K n m) l)) i = nth i l f0.
Proof.
  induction l as [|c l IH]; intros Hl i.
  - cbn [map]. unfold horn. cbn [fold_right]. cbn [f0 Ext]. rewrite vcoef_mk. destruct (i <? n), i; reflexivity.
  - cbn [length] in Hl. cbn [map]. rewrite horn_cons. set (v := horn M _ _) in *.
    rewrite x_shift by (rewrite IH by lia; apply nth_overflow; lia).
    rewrite (vc_add K HK n m), (vc_cv K n m), vcoef_mk by lia. destruct i as [|i]; cbn [Nat.eqb].
    + destruct (0 <? n); cbn [nth]; ring.
    + rewrite IH by lia. cbn [nth]. destruct (Nat.ltb_spec (S i) n); [ring | ]. rewrite nth_overflow by lia. ring.
Qed.
Lemma ext_stores : forall g bs sub, stores K g bs (fun x => x) sub ->
  stores M (ext_gens n m g) (n :: bs) (fun x => proj1_sig x) (polymod_set_multiz sub f0 n).
Proof.
  intros g bs sub S a SA.
  assert (C : forall c, mvalue M (ext_gens n m g) 1 c = cvec K n m (mvalue K g 0 c)).
  { intro c. apply (mvalue_emb K M (cvec K n m) (cvec_embedding K HK n m Hm Hn)); [ | reflexivity]. intro z. symmetry. apply (Ext_fofz K HK n m Hm). lia. }
  assert (P : forall (v : M) (l : list K), length l = n -> (forall i, i < n -> vcoef v i = nth i l f0) -> proj1_sig v = l).
  { intros v l Ll H. apply nth_ext with f0 f0; [rewrite Ll; apply vl_length | ]. intros i Hi. apply H. pose proof (vl_length K n v). unfold vl in *. lia. }
  inversion SA as [? z | | n' bs' l Hl Hn' HF]; subst.
  - cbn [polymod_set_multiz]. rewrite (S (MZ z)) by constructor. cbn [bind mvalue]. f_equal. symmetry. apply P.
    + cbn [length]. rewrite repeat_length. lia.
    + intros i Hi. rewrite (Ext_fofz K HK n m Hm) by lia. rewrite (vc_cv K n m) by lia. destruct i; cbn [Nat.eqb nth]; auto.
      destruct (nth_in_or_default i (repeat (f0 : K) (n - 1)) f0) as [I | ->]; auto. symmetry. eapply repeat_spec; eauto.
  - cbn [polymod_set_multiz]. rewrite Forall_forall in HF.
    rewrite (traverse_ext _ _ _ (fun i => nth i (map (mvalue K g 0) l) f0)).
    + f_equal. symmetry. apply P; [rewrite map_length, seq_length; auto | ]. intros i Hi.
      rewrite mvalue_MA. cbn [ext_gens]. rewrite (map_ext _ _ C), <- (map_map (mvalue K g 0) (cvec K n m)).
      change (mkvec n (fun i0 : nat => if i0 =? 1 then f1 else f0)) with (xelem K n m).
      rewrite horn_ext by (rewrite map_length; auto).
      rewrite (nth_indep (map _ (seq 0 n)) f0 (nth 0 (map (mvalue K g 0) l) f0)) by (rewrite map_length, seq_length; auto).
      rewrite (map_nth (fun i => nth i (map (mvalue K g 0) l) f0)), seq_nth by auto. reflexivity.
    + intros i _. destruct (Nat.leb_spec (length l) i).
      * rewrite nth_overflow by (rewrite map_length; auto). reflexivity.
      * unfold multiz_at. rewrite (get_nth_some _ l i (MZ 0)) by auto. cbn [bind]. rewrite S by (apply HF, nth_In; auto).
        rewrite (nth_indep _ f0 (mvalue K g 0 (MZ 0))) by (rewrite map_length; auto). rewrite map_nth. reflexivity.
Qed.
End E.

(** ** Polynomial rings and curves *)
Lemma poly_stores : forall g bs sub, stores K g bs (fun x => x) sub -> forall l, Forall (shaped bs) l ->
  exists f, poly_set_multiz K sub (MA l) = Ok f /\ normal f /\ forall i, coef f i = mvalue K g 0 (nth i l (MZ 0)).
Proof.
  intros g bs sub S l HF. rewrite Forall_forall in HF. cbn [poly_set_multiz].
  rewrite (traverse_ext _ _ _ (fun i => mvalue K g 0 (nth i l (MZ 0)))).
  2: { intros i Hi. apply in_seq in Hi. unfold multiz_at. rewrite (get_nth_some _ l i (MZ 0)) by lia. cbn [bind]. apply S. apply HF. apply nth_In. lia. }
  cbn [bind]. rewrite (remove_ok K HK). eexists. split; [reflexivity | ]. split; [apply (trim_normal K HK) | ].
  intro i. rewrite (coef_trim K HK). unfold coef. destruct (Nat.ltb_spec i (length l)).
  - rewrite (nth_indep _ f0 (mvalue K g 0 (nth 0 l (MZ 0)))) by (rewrite map_length, seq_length; auto).
    rewrite (map_nth (fun i => mvalue K g 0 (nth i l (MZ 0)))), seq_nth by auto. reflexivity.
  - rewrite nth_overflow by (rewrite map_length, seq_length; auto). rewrite (nth_overflow l) by auto. reflexivity.
Qed.
Lemma poly_stores_z : forall sub z, exists f, poly_set_multiz K sub (MZ z) = Ok f /\ normal f /\ forall i, coef f i = if i =? 0 then fofz z else f0.
Proof.
  intros sub z. cbn [poly_set_multiz]. rewrite (remove_ok K HK). eexists. split; [reflexivity | ]. split; [apply (trim_normal K HK) | ].
  intro i. rewrite (coef_trim K HK). destruct i as [|[|]]; reflexivity.
Qed.
Lemma curve_stores : forall g bs sub, stores K g bs (fun x => x) sub -> forall P cx cy l, shaped bs cx -> shaped bs cy ->
  curve_set_multiz K sub P (MA (cx :: cy :: l)) = Ok (Some (mvalue K g 0 cx, mvalue K g 0 cy)).
Proof.
  intros g bs sub S P cx cy l Sx Sy. cbn [curve_set_multiz length Nat.ltb Nat.leb]. unfold multiz_at. cbn [get nth_error bind].
  rewrite (S cx Sx). cbn [bind]. rewrite (S cy Sy). reflexivity.
Qed.
Lemma curve_other : forall sub P,
  curve_set_multiz K sub P (MZ 0) = Ok None /\
  (forall z, z <> 0%Z -> curve_set_multiz K sub P (MZ z) = Ok P) /\
  curve_set_multiz K sub P (MA []) = Ok P /\
  forall c, curve_set_multiz K sub P (MA [c]) = Ok P.
Proof.
  intros sub P. repeat split. intros z Hz. cbn. destruct (Z.eqb_spec z 0); congruence.
Qed.
End K.

(** ** Coordinates and text of elements *)
Lemma zero_repeat : forall (A : Type) (x : A) n, repeat x n = map (fun _ => x) (seq 0 n).
Proof. intros A x n. generalize 0. induction n; intro s; cbn; auto. f_equal. apply IHn. Qed.
Lemma round_trip : forall p t e, is_elem p t e -> tower_set_multiz p t (elem_list t e) = Ok e.
Proof.
  intros p t. induction t as [|t IH|n t IH]; cbn [carrier is_elem elem_list tower_set_multiz].
  - intros x H. unfold generic_set_multiz. cbn [first_leaf bind]. rewrite Z.mod_small by auto. reflexivity.
  - intros [x y] [Hx Hy]. cbn [fst snd] in *. cbn [fq_set_multiz]. unfold multiz_at. cbn [get nth_error bind]. rewrite IH by auto.
    cbn [bind length Nat.ltb Nat.leb get nth_error]. rewrite IH by auto. reflexivity.
  - intros l [Hl HF]. cbn [polymod_set_multiz]. rewrite Forall_forall in HF.
    rewrite (traverse_ext _ _ _ (fun i => nth i l (tower_zero t))).
    + f_equal. apply nth_ext with (tower_zero t) (tower_zero t); rewrite map_length, seq_length; auto. intros i Hi.
      rewrite (nth_indep _ _ (nth 0 l (tower_zero t))) by (rewrite map_length, seq_length; auto).
      rewrite (map_nth (fun i => nth i l (tower_zero t))), seq_nth by auto. reflexivity.
    + intros i Hi. apply in_seq in Hi. rewrite map_length. assert (HL : length l = n) by exact Hl. destruct (Nat.leb_spec (length l) i) as [B | B]; [exfalso; rewrite HL in B; lia | ].
      unfold multiz_at. rewrite (get_nth_some _ _ i (elem_list t (tower_zero t))) by (rewrite map_length; auto). cbn [bind]. rewrite map_nth. apply IH. apply HF. apply nth_In. auto.
Qed.
Definition out_items (num : Z -> list Z) : bool -> list mz -> list Z * nat :=
  fix go (first : bool) (l : list mz) : list Z * nat :=
      match l with
      | [] => ([], 0)
      | x :: l' =>
        let '(sx, nx) := multiz_out_str num x in
        let '(sr, nr) := go false l' in
        ((if first then [] else [44; 32]%Z) ++ sx ++ sr, (if first then 0 else 2) + nx + nr)
      end.
Lemma out_MA : forall num l, multiz_out_str num (MA l) = let '(s, n) := out_items num true l in (91%Z :: s ++ [93%Z], n + 2).
Proof. reflexivity. Qed.
Lemma out_list : forall num (l : list mz) ts, length l = length ts ->
  (forall i, i < length l -> multiz_out_str num (nth i l (MZ 0)) = (nth i ts [], length (nth i ts []))) ->
  multiz_out_str num (MA l) = (bracket ts, length (bracket ts)).
Proof.
  intros num l ts HL H. rewrite out_MA.
  assert (G : forall l ts, length l = length ts -> (forall i, i < length l -> multiz_out_str num (nth i l (MZ 0)) = (nth i ts [], length (nth i ts []))) ->
    l <> [] -> forall first, out_items num first l = ((if first then [] else [44; 32]%Z) ++ commas ts, (if first then 0 else 2) + length (commas ts))).
  { clear. induction l as [|x l IH]; intros [|t ts] HL H N first; cbn [length] in HL; try lia; [congruence|].
    pose proof (H 0 ltac:(cbn; lia)) as H0. cbn [nth] in H0. cbn [out_items]. rewrite H0. fold (out_items num).
    destruct l as [|y l].
    - destruct ts; cbn [length] in HL; [|lia]. cbn [out_items commas]. rewrite app_nil_r. f_equal. lia.
    - destruct ts as [|u ts]; cbn [length] in HL; [lia|]. rewrite (IH (u :: ts)).
      + cbn [commas]. f_equal. rewrite !app_length. cbn [length]. lia.
      + cbn [length]. lia.
      + intros i Hi. apply (H (S i)). cbn [length] in *. lia.
      + discriminate. }
  unfold bracket. destruct l as [|x l].
  - destruct ts; cbn [length] in HL; [|lia]. reflexivity.
  - rewrite (G (x :: l) ts HL H ltac:(discriminate) true). cbn [app]. f_equal. cbn [length]. rewrite app_length. cbn [length]. lia.
Qed.
Lemma out_elem : forall num t e p, is_elem p t e -> multiz_out_str num (elem_list t e) = (elem_text num t e, length (elem_text num t e)).
Proof.
  intros num t. induction t as [|t IH|n t IH]; cbn [carrier is_elem elem_list elem_text]; intros e p H.
  - reflexivity.
  - apply out_list; auto. destruct H. intros [|[|i]] Hi; cbn [length nth] in *; try lia; eapply IH; eauto.
  - apply out_list; [rewrite !map_length; auto|]. destruct H as [Hl HF]. rewrite Forall_forall in HF. intros i Hi. rewrite map_length in Hi.
    rewrite (nth_indep _ (MZ 0) (elem_list t (tower_zero t))) by (rewrite map_length; auto). rewrite map_nth.
    rewrite (nth_indep (map (elem_text num t) e) [] (elem_text num t (tower_zero t))) by (rewrite map_length; auto). rewrite map_nth.
    eapply IH. apply HF. apply nth_In. auto.
Qed.
