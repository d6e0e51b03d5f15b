(** Sums of lists of a shape, and the lists that are stored wrongly. *)
From Coq Require Import ZArith List Bool Lia Arith Znumtheory.
From Verif.Base Require Import Outcome Array Algebra Slots Gmp.
From Verif.Spec Require Import FiniteField Polynomials Extension Quadratic Curve Twist ElementText Multiz SetMultiz.
From Verif.Model Require Import Multiz Poly IntText SetMultiz.
From Verif.Proofs Require Import FieldFacts SlotFacts MultizFacts MultizField SetMultizFacts ZpField.
Import ListNotations.
Open Scope nat_scope.

Lemma shaped_leaf : forall g a bs, shaped bs a -> forall c, at_leaf g a = Ok c -> shaped bs c.
Proof.
  intro g. induction a as [z|l IH] using mz_ind'; intros bs S c E.
  - cbn [at_leaf] in E. injection E as <-. constructor.
  - destruct l as [|x t]; [discriminate E|]. cbn [at_leaf] in E. destruct (at_leaf g x) as [y| | |] eqn:Ex; cbn [bind] in E; try discriminate E.
    injection E as <-. inversion IH as [|? ? Hx _]; subst. inversion S as [|? N|n bs' ? Hl Hn HF]; subst.
    + constructor. inversion N as [|? ? F]; subst. inversion F as [|? ? Nx Nt]; subst. constructor; [discriminate|]. constructor; auto.
      assert (Sy : shaped [] y) by (apply (Hx []); auto; constructor; auto). inversion Sy; subst; auto; constructor.
    + inversion HF; subst. constructor; [discriminate | exact Hn | ]. constructor; eauto.
Qed.
Lemma shaped_nonempty : forall bs a, shaped bs a -> nonempty a.
Proof.
  intros bs a. revert bs. induction a as [z|l IH] using mz_ind'; intros bs S; [constructor|].
  inversion S as [|? N|n bs' ? Hl Hn HF]; subst; auto. constructor; auto. rewrite Forall_forall in *. intros x Hx. eapply IH; eauto.
Qed.
Lemma shaped_int : forall x b bs c, shaped bs b -> bin_int Z.add x b = Ok c -> shaped bs c.
Proof.
  intros x [y|l] bs c S E; cbn [bin_int] in E; [injection E as <-; constructor|]. rewrite clone_id in E. eapply shaped_leaf; eauto.
Qed.
Lemma shaped_traverse : forall bs lb, Forall (shaped bs) lb -> forall l, traverse (bin_int Z.add 0) lb = Ok l -> Forall (shaped bs) l /\ length l = length lb.
Proof.
  intros bs lb H. induction H as [|x t Hx _ IH]; intros l E; cbn [traverse] in E.
  - injection E as <-. auto.
  - destruct (bin_int Z.add 0 x) as [y| | |] eqn:Ex; cbn [bind] in E; try discriminate E.
    destruct (traverse (bin_int Z.add 0) t) as [r| | |] eqn:Et; cbn [bind] in E; try discriminate E. injection E as <-.
    destruct (IH r eq_refl). split; [constructor; auto; eapply shaped_int; eauto | cbn [length]; auto].
Qed.
Lemma shaped_add : forall a b bs, shaped bs a -> shaped bs b -> forall c, mz_add a b = Ok c -> shaped bs c.
Proof.
  unfold mz_add. induction a as [x|la IH] using mz_ind'; intros b bs Sa Sb c E.
  - cbn [bin] in E. eapply shaped_int; eauto.
  - destruct b as [y|lb].
    + cbn [bin] in E. rewrite clone_id in E. exact (shaped_leaf _ _ _ Sa _ E).
    + destruct bs as [|n bs].
      * constructor. apply shaped_nonempty in Sa. apply shaped_nonempty in Sb. destruct (add_ok _ _ Sa Sb) as (c' & E' & N & _).
        unfold mz_add in E'. rewrite E in E'. injection E' as <-. auto.
      * rewrite bin_MA in E. destruct (bin_list Z.add la lb) as [l| | |] eqn:El; cbn [bind] in E; try discriminate E. injection E as <-.
        inversion Sa as [| |? ? ? Na La Fa]; subst. inversion Sb as [| |? ? ? Nb Lb Fb]; subst.
        assert (G : Forall (shaped bs) l /\ length l <= n /\ length la <= length l).
        { clear Sa Sb Na Nb. revert lb n La Lb Fb l El. induction la as [|x la IHl]; intros lb n La Lb Fb l El; cbn [bin_list] in El.
          - destruct (shaped_traverse bs lb Fb l El) as [G1 G2]. split; auto. cbn [length]. lia.
          - inversion IH as [|? ? IHx IHt]; subst. inversion Fa as [|? ? Sx St]; subst. cbn [length] in La.
            destruct lb as [|y lb].
            + destruct (bin Z.add x (MZ 0)) as [z| | |] eqn:Ez; cbn [bind] in El; try discriminate El.
              destruct (bin_list Z.add la []) as [r| | |] eqn:Er; cbn [bind] in El; try discriminate El. injection El as <-.
              destruct (IHl IHt St [] (n - 1) ltac:(lia) ltac:(cbn; lia) ltac:(constructor) r Er) as (G1 & G2 & G3).
              split; [constructor; auto; apply (IHx (MZ 0) bs Sx ltac:(constructor) z Ez) | cbn [length]; lia].
            + cbn [length] in Lb. inversion Fb as [|? ? Sy Sl]; subst. destruct (bin Z.add x y) as [z| | |] eqn:Ez; cbn [bind] in El; try discriminate El.
              destruct (bin_list Z.add la lb) as [r| | |] eqn:Er; cbn [bind] in El; try discriminate El. injection El as <-.
              destruct (IHl IHt St lb (n - 1) ltac:(lia) ltac:(lia) Sl r Er) as (G1 & G2 & G3).
              split; [constructor; auto; apply (IHx y bs Sx Sy z Ez) | cbn [length]; lia]. }
        destruct G as (G1 & G2 & G3). constructor; auto. destruct la; [congruence|]. destruct l; [cbn [length] in G3; lia|discriminate].
Qed.
Lemma commutes : forall (L : fld), fld_laws L -> forall gen bs (A : Type) (rep : L -> A) set, stores L gen bs rep set ->
  forall a b, shaped bs a -> shaped bs b ->
  exists c, mz_add a b = Ok c /\ set c = Ok (rep (fadd (mvalue L gen 0 a) (mvalue L gen 0 b))).
Proof.
  intros L HL gen bs A rep set S a b Sa Sb. destruct (madd_ok L HL a b (shaped_nonempty _ _ Sa) (shaped_nonempty _ _ Sb)) as (c & E & N & V).
  exists c. split; auto. rewrite (S c (shaped_add a b bs Sa Sb c E)), V. reflexivity.
Qed.
Lemma commutes_mul : forall (L : fld), fld_laws L -> forall gen bs (A : Type) (rep : L -> A) set, stores L gen bs rep set ->
  forall a b, shaped bs a -> shaped bs b ->
  exists c, mz_mul a b = Ok c /\ (shaped bs c -> set c = Ok (rep (fmul (mvalue L gen 0 a) (mvalue L gen 0 b)))).
Proof.
  intros L HL gen bs A rep set S a b Sa Sb. destruct (mmul_ok L HL a (shaped_nonempty _ _ Sa) b (shaped_nonempty _ _ Sb)) as (c & E & N & V).
  exists c. split; auto. intro Sc. rewrite (S c Sc), V. reflexivity.
Qed.
Lemma shaped_unary : forall f a bs, shaped bs a -> shaped bs (unary f a).
Proof.
  intro f. induction a as [z|l IH] using mz_ind'; intros bs S; cbn [unary]; [constructor|].
  inversion S as [|? N|n bs' ? Hl Hn HF]; subst.
  - constructor. apply (unary_nonempty f (MA l) N).
  - constructor; [destruct l; [congruence|discriminate] | rewrite map_length; auto | ]. apply Forall_map. rewrite Forall_forall in *. auto.
Qed.
Lemma commutes_neg : forall (L : fld), fld_laws L -> forall gen bs (A : Type) (rep : L -> A) set, stores L gen bs rep set ->
  forall a, shaped bs a -> set (mz_neg a) = Ok (rep (fopp (mvalue L gen 0 a))).
Proof.
  intros L HL gen bs A rep set S a Sa. unfold mz_neg. rewrite (S _ (shaped_unary Z.opp a bs Sa)). change (unary Z.opp a) with (mz_neg a). rewrite (mneg_ok L HL). reflexivity.
Qed.

(** ** Reading back *)
Lemma list_text : forall num l base rest,
  multiz_set_str (fst (multiz_out_str num (MA l)) ++ 0%Z :: rest) base = Ok (MZ 0, 0%Z).
Proof.
  intros num l base rest. rewrite out_MA. destruct (out_items num true l) as [s n]. cbn [fst app]. unfold multiz_set_str, pbc_mpz_set_str.
  destruct (base =? 0)%Z; [reflexivity|]. destruct ((base <? 2) || (base >? 36))%Z; reflexivity.
Qed.

