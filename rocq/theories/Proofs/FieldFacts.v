(** Elementary facts about abstract fields. *)
From Coq Require Import ZArith List Bool Ring Field Field_theory Lia Permutation.
From Verif.Base Require Import Outcome Algebra.
From Verif.Proofs Require Import PowFacts.
Import ListNotations.

Section F.
Variable K : fld.
Hypothesis HK : fld_laws K.
Add Field Kf : (fl_field K HK).
Notation "0" := (@f0 K). Notation "1" := (@f1 K).
Notation "x + y" := (@fadd K x y). Notation "x * y" := (@fmul K x y). Notation "x - y" := (@fsub K x y).
Notation "- x" := (@fopp K x). Notation "/ x" := (@finv K x).

Lemma f_1_neq_0 : 1 <> 0. Proof. apply (F_1_neq_0 (fl_field K HK)). Qed.
Lemma f_eq_dec : forall x y : K, {x = y} + {x <> y}.
Proof.
  intros x y. destruct (feqb x y) eqn:E; [left|right].
  - apply (fl_eqb K HK); auto.
  - intros H. apply (fl_eqb K HK) in H. congruence.
Qed.
Lemma feqb_refl : forall x : K, feqb x x = true. Proof. intros. apply (fl_eqb K HK); auto. Qed.
Lemma feqb_eq : forall x y : K, feqb x y = true -> x = y. Proof. intros. apply (fl_eqb K HK); auto. Qed.
Lemma feqb_neq : forall x y : K, feqb x y = false -> x <> y.
Proof. intros x y E H. apply (fl_eqb K HK) in H. congruence. Qed.
Lemma feqb_false : forall x y : K, x <> y -> feqb x y = false.
Proof. intros x y H. destruct (feqb x y) eqn:E; auto. apply feqb_eq in E. tauto. Qed.

Lemma f_integral : forall x y : K, x * y = 0 -> x = 0 \/ y = 0.
Proof.
  intros x y H. destruct (f_eq_dec x 0); auto. right.
  replace y with (/ x * (x * y)) by (field; auto). rewrite H. ring.
Qed.
Lemma f_mul_nz : forall x y : K, x <> 0 -> y <> 0 -> x * y <> 0.
Proof. intros x y Hx Hy H. destruct (f_integral _ _ H); auto. Qed.
Lemma f_inv_nz : forall x : K, x <> 0 -> / x <> 0.
Proof. intros x Hx H. apply f_1_neq_0. replace 1 with (x * / x) by (field; auto). rewrite H. ring. Qed.
Lemma f_sub_0 : forall x y : K, x - y = 0 -> x = y.
Proof. intros x y H. replace x with (x - y + y) by ring. rewrite H. ring. Qed.
Lemma f_opp_nz : forall x : K, x <> 0 -> - x <> 0.
Proof. intros x Hx H. apply Hx. replace x with (- - x) by ring. rewrite H. ring. Qed.
Lemma f_cancel : forall a x y : K, a <> 0 -> a * x = a * y -> x = y.
Proof.
  intros a x y Ha H. replace x with (/ a * (a * x)) by (field; auto). rewrite H. field; auto.
Qed.
Lemma f_sq_eq : forall x y : K, x * x = y * y -> x = y \/ x = - y.
Proof.
  intros x y H. assert (E : (x - y) * (x + y) = 0) by (transitivity (x * x - y * y); [ring | rewrite H; ring]).
  destruct (f_integral _ _ E) as [E1|E1]; [left; apply f_sub_0; auto | right].
  apply f_sub_0. rewrite <- E1. ring.
Qed.
Lemma finvert_ok : forall x : K, x <> 0 -> finvert x = Ok (/ x).
Proof. intros x Hx. unfold finvert. rewrite feqb_false by auto. reflexivity. Qed.
Lemma finvert_0 : finvert (K := K) 0 = UB.
Proof. unfold finvert. rewrite feqb_refl. reflexivity. Qed.

Notation M := (mul_monoid K).
Lemma mul_monoid_laws : monoid_laws M.
Proof. constructor; intros; simpl; ring. Qed.
Lemma mul_monoid_comm : m_commutative M.
Proof. intros x y. simpl. ring. Qed.
Lemma npow_nz : forall (x : M) n, x <> 0 -> npow x n <> 0.
Proof. intros x n Hx. induction n; simpl; [apply f_1_neq_0 | apply f_mul_nz; auto]. Qed.
Lemma zpow_nz : forall (x : M) n, x <> 0 -> zpow x n <> 0.
Proof. intros. apply npow_nz; auto. Qed.
Lemma npow_0_pos : forall n, (0 < n)%nat -> npow (0 : M) n = 0.
Proof. intros [|n] H; [lia|]. simpl. ring. Qed.
Lemma npow_mul_base : forall (x y : M) n, npow (x * y : M) n = npow x n * npow y n.
Proof. intros. induction n; simpl; [ring|]. rewrite IHn. simpl. ring. Qed.

(** Polynomials have no more roots than their degree. *)
Fixpoint peval (p : list K) (x : K) : K := match p with [] => 0 | c :: p' => c + x * peval p' x end.
(** quotient of p by (X - a), lowest coefficient first *)
Fixpoint pquot (p : list K) (a : K) : list K :=
  match p with [] => [] | [_] => [] | c :: p' => peval p' a :: pquot p' a end.
Lemma pquot_spec : forall p a x, peval p x = peval p a + (x - a) * peval (pquot p a) x.
Proof.
  intros p a x. induction p as [|c p IH]; [simpl; ring|].
  destruct p as [|c' p'].
  - simpl. ring.
  - change (pquot (c :: c' :: p') a) with (peval (c' :: p') a :: pquot (c' :: p') a).
    change (peval (c :: c' :: p') x) with (c + x * peval (c' :: p') x).
    change (peval (c :: c' :: p') a) with (c + a * peval (c' :: p') a).
    set (q := c' :: p') in *. cbn [peval]. rewrite IH. ring.
Qed.
Lemma pquot_length : forall p a, length (pquot p a) = pred (length p).
Proof.
  induction p as [|c p IH]; intros; simpl; auto. destruct p; simpl; auto.
  simpl in IH. rewrite IH. reflexivity.
Qed.
Lemma pquot_last : forall p a, (1 < length p)%nat -> last (pquot p a) 0 = last p 0.
Proof.
  induction p as [|c p IH]; intros a H; simpl in H; [lia|]. destruct p as [|c' p']; [simpl in H; lia|].
  change (pquot (c :: c' :: p') a) with (peval (c' :: p') a :: pquot (c' :: p') a).
  change (last (c :: c' :: p') 0) with (last (c' :: p') 0).
  destruct p' as [|c'' p''].
  - simpl. ring.
  - rewrite <- (IH a) by (simpl; lia). destruct (pquot (c' :: c'' :: p'') a) eqn:E; [|reflexivity].
    apply (f_equal (@length K)) in E. rewrite pquot_length in E. simpl in E. lia.
Qed.
Lemma root_count : forall n p l, length p = S n -> last p 0 <> 0 -> NoDup l ->
  (forall x, In x l -> peval p x = 0) -> (length l <= n)%nat.
Proof.
  induction n; intros p l Hl Hd HN HR.
  - destruct p as [|c [|]]; try discriminate. destruct l as [|x l]; auto. exfalso. simpl in Hd.
    specialize (HR x (or_introl eq_refl)). simpl in HR. apply Hd. rewrite <- HR. ring.
  - destruct l as [|a l]; [simpl; lia|]. simpl. apply le_n_S.
    inversion HN; subst. apply (IHn (pquot p a)); auto.
    + rewrite pquot_length, Hl. reflexivity.
    + rewrite pquot_last; auto. lia.
    + intros x Hx. pose proof (HR a (or_introl eq_refl)) as Ra. pose proof (HR x (or_intror Hx)) as Rx.
      rewrite (pquot_spec p a x), Ra in Rx.
      assert (Z : (x - a) * peval (pquot p a) x = 0) by (rewrite <- Rx; ring).
      destruct (f_integral _ _ Z) as [E|E]; auto. apply f_sub_0 in E. subst. tauto.
Qed.

(** X^n - 1 *)
Lemma npow_root_count : forall n (l : list K), (0 < n)%nat -> NoDup l ->
  (forall x, In x l -> npow (x : M) n = 1) -> (length l <= n)%nat.
Proof.
  intros n l Hn HN HR. destruct n as [|n]; [lia|].
  apply (root_count (S n) (- (1) :: repeat 0 n ++ [1])); auto.
  - simpl. rewrite app_length, repeat_length. simpl. lia.
  - change (- (1) :: repeat 0 n ++ [1]) with ((- (1) :: repeat 0 n) ++ [1]).
    rewrite last_last. apply f_1_neq_0.
  - intros x Hx. specialize (HR x Hx).
    assert (E : forall m, peval (repeat 0 m ++ [1]) x = npow (x : M) m).
    { induction m; simpl; [ring|]. rewrite IHm. simpl. ring. }
    cbn [peval]. rewrite E. simpl in HR. rewrite HR. ring.
Qed.

(** Finite fields. *)
Section Finite.
Variable elems : list K.
Hypothesis HN : NoDup elems.
Hypothesis HE : forall x, In x elems.
Notation q := (length elems).

Definition nonzero := filter (fun x => negb (feqb x 0)) elems.
Lemma nonzero_in : forall x, In x nonzero <-> x <> 0.
Proof.
  intros x. unfold nonzero. rewrite filter_In. split.
  - intros [_ H]. apply negb_true_iff in H. apply feqb_neq; auto.
  - intros H. split; auto. rewrite feqb_false; auto.
Qed.
Lemma nonzero_nodup : NoDup nonzero. Proof. apply NoDup_filter; auto. Qed.
Lemma nonzero_length : q = S (length nonzero).
Proof.
  assert (P : Permutation elems (0 :: nonzero)).
  { apply NoDup_Permutation; auto.
    - constructor; [|apply nonzero_nodup]. rewrite nonzero_in. tauto.
    - intros x. split; auto. intros _. destruct (f_eq_dec x 0); [left; auto | right; apply nonzero_in; auto]. }
  apply Permutation_length in P. simpl in P. auto.
Qed.

Definition prod (l : list K) : K := fold_right (@fmul K) 1 l.
Lemma prod_perm : forall l l', Permutation l l' -> prod l = prod l'.
Proof. induction 1; simpl; congruence || ring || (rewrite IHPermutation; ring). Qed.
Lemma prod_scale : forall a l, prod (map (fun x => a * x) l) = npow (a : M) (length l) * prod l.
Proof. intros a l. induction l; simpl; [ring|]. rewrite IHl. simpl. ring. Qed.
Lemma prod_nz : forall l, (forall x, In x l -> x <> 0) -> prod l <> 0.
Proof.
  induction l; intros H; simpl; [apply f_1_neq_0|]. apply f_mul_nz; [apply H; left; auto|].
  apply IHl. intros. apply H. right; auto.
Qed.

Lemma scale_perm : forall a, a <> 0 -> Permutation (map (fun x => a * x) nonzero) nonzero.
Proof.
  intros a Ha. apply NoDup_Permutation; [|apply nonzero_nodup|].
  - apply FinFun.Injective_map_NoDup; [|apply nonzero_nodup]. intros x y H. eapply f_cancel; eauto.
  - intros x. rewrite in_map_iff, nonzero_in. split.
    + intros [y [<- Hy]]. apply nonzero_in in Hy. apply f_mul_nz; auto.
    + intros Hx. exists (/ a * x). split; [field; auto|]. apply nonzero_in. apply f_mul_nz; auto. apply f_inv_nz; auto.
Qed.

(** Fermat *)
Lemma fermat : forall x : M, x <> 0 -> npow x (q - 1) = 1.
Proof.
  intros x Hx. rewrite nonzero_length. simpl. rewrite Nat.sub_0_r.
  apply f_cancel with (prod nonzero).
  - apply prod_nz. intros y. apply nonzero_in.
  - transitivity (npow x (length nonzero) * prod nonzero); [ring|].
    rewrite <- prod_scale, (prod_perm _ _ (scale_perm x Hx)). ring.
Qed.

(** Each value is taken at most twice. *)
Lemma two_to_one : forall (f : K -> K) (s l : list K), NoDup l -> (forall x, In x l -> In (f x) s) ->
  (forall y, (length (filter (fun x => feqb (f x) y) l) <= 2)%nat) ->
  (length l <= 2 * length s)%nat.
Proof.
  intros f s. induction s as [|y s IH]; intros l HL Hin H2.
  - destruct l as [|x l]; auto. destruct (Hin x (or_introl eq_refl)).
  - assert (E : length l = (length (filter (fun x => feqb (f x) y) l) + length (filter (fun x => negb (feqb (f x) y)) l))%nat).
    { clear. induction l as [|a l IH]; simpl; auto. destruct (feqb (f a) y); simpl; lia. }
    specialize (IH (filter (fun x => negb (feqb (f x) y)) l)).
    assert (length (filter (fun x => negb (feqb (f x) y)) l) <= 2 * length s)%nat.
    { apply IH.
      - apply NoDup_filter; auto.
      - intros x Hx. apply filter_In in Hx. destruct Hx as [Hx Hy]. apply negb_true_iff, feqb_neq in Hy.
        destruct (Hin x Hx); auto. congruence.
      - intros z. eapply Nat.le_trans; [|apply (H2 z)].
        clear. induction l as [|a l IH]; simpl; auto.
        destruct (feqb (f a) y); simpl; destruct (feqb (f a) z); simpl; lia. }
    specialize (H2 y). simpl. lia.
Qed.

Definition squares := nodup f_eq_dec (map (fun x => x * x) nonzero).
Lemma squares_count : (length nonzero <= 2 * length squares)%nat.
Proof.
  apply (two_to_one (fun x => x * x)).
  - apply nonzero_nodup.
  - intros x Hx. unfold squares. apply nodup_In. apply in_map_iff. eauto.
  - intros y. set (l := filter (fun x => feqb (x * x) y) nonzero).
    assert (NL : NoDup l) by (apply NoDup_filter, nonzero_nodup).
    assert (HL : forall x, In x l -> x * x = y).
    { intros x Hx. apply filter_In in Hx. apply feqb_eq. tauto. }
    destruct l as [|a l]; [simpl; lia|].
    assert (In a (a :: l)) as Ia by (left; auto). pose proof (HL a Ia) as Ea.
    assert (forall x, In x (a :: l) -> In x [a; - a]).
    { intros x Hx. specialize (HL x Hx). assert (x * x = a * a) by congruence.
      destruct (f_sq_eq _ _ H); subst; simpl; auto. }
    apply (NoDup_incl_length NL) in H. exact H.
Qed.

Hypothesis Hodd : q = (2 * (q / 2) + 1)%nat.
Notation h := (q / 2)%nat.

Lemma h_pos : (0 < h)%nat.
Proof.
  destruct (q / 2)%nat eqn:E; [|lia]. exfalso. pose proof Hodd as H1.
  pose proof nonzero_length.
  assert (In 1 nonzero) by (apply nonzero_in, f_1_neq_0).
  destruct nonzero; [inversion H0|]. simpl in H. lia.
Qed.

Lemma square_power : forall x y : M, x <> 0 -> y * y = x -> npow x h = 1.
Proof.
  intros x y Hx E. assert (y <> 0) by (intros H; apply Hx; rewrite <- E, H; change (@eq K (0 * 0) 0); ring).
  rewrite <- E. rewrite npow_mul_base. rewrite <- (fermat y) by auto.
  pose proof (npow_add M mul_monoid_laws y h h) as A. cbn [mmul mul_monoid] in A. rewrite <- A. f_equal. lia.
Qed.

(** Euler's criterion *)
Lemma euler : forall x : M, x <> 0 -> npow x h = 1 -> exists y, y * y = x.
Proof.
  intros x Hx Hp. destruct (in_dec f_eq_dec x squares) as [I|I].
  - unfold squares in I. apply nodup_In in I. apply in_map_iff in I. destruct I as [y [E _]]. eauto.
  - exfalso. assert (H : (S (@length K squares) <= h)%nat).
    { apply (npow_root_count h ((x : K) :: squares)); [apply h_pos| |].
      - constructor; auto. apply NoDup_nodup.
      - intros z [<-|Hz]; auto. unfold squares in Hz. apply nodup_In in Hz. apply in_map_iff in Hz.
        destruct Hz as [y [E Hy]]. apply nonzero_in in Hy. apply square_power with y; auto.
        rewrite <- E. apply f_mul_nz; auto. }
    pose proof squares_count. pose proof nonzero_length. lia.
Qed.

Lemma half_power : forall x : M, x <> 0 -> npow x h = 1 \/ npow x h = - (1).
Proof.
  intros x Hx. assert (E : npow x h * npow x h = 1 * 1).
  { pose proof (npow_add M mul_monoid_laws x h h) as A. cbn [mmul mul_monoid] in A. rewrite <- A.
    replace (h + h)%nat with (q - 1)%nat by lia. rewrite fermat by auto. ring. }
  apply f_sq_eq in E. auto.
Qed.

Lemma nonsquare_power : forall x : M, x <> 0 -> (forall y, y * y <> x) -> npow x h = - (1).
Proof.
  intros x Hx H. destruct (half_power x Hx) as [E|E]; auto.
  destruct (euler x Hx E) as [y Ey]. destruct (H y Ey).
Qed.
End Finite.
End F.
