(** The ring K[X] on coefficient lists, up to leading zeroes. *)
From Coq Require Import ZArith List Bool Lia Arith Ring Field Setoid Morphisms Wf_nat.
From Verif.Base Require Import Outcome Algebra.
From Verif.Spec Require Import Polynomials.
From Verif.Proofs Require Import FieldFacts.
Import ListNotations.
Open Scope nat_scope.

Section P.
Variable K : fld.
Hypothesis HK : fld_laws K.
Add Field KFp : (fl_field K HK).
Notation "0" := (@f0 K). Notation "1" := (@f1 K).
Notation "x + y" := (@fadd K x y). Notation "x * y" := (@fmul K x y). Notation "x - y" := (@fsub K x y).
Notation "- x" := (@fopp K x).
Implicit Types f g h m : list K.

Fixpoint addp f g : list K :=
  match f, g with
  | [], _ => g
  | _, [] => f
  | a :: f', b :: g' => (a + b) :: addp f' g'
  end.
Definition scalp (c : K) f := map (fmul c) f.
Definition oppp f := map (@fopp K) f.
Definition subp f g := addp f (oppp g).
Fixpoint mulp f g : list K := match f with [] => [] | a :: f' => addp (scalp a g) (0 :: mulp f' g) end.

Lemma coef_nil : forall i, coef ([] : list K) i = 0. Proof. intro i. unfold coef. destruct i; auto. Qed.
Lemma coef_cons : forall a f i, coef (a :: f) i = match i with O => a | S i' => coef f i' end.
Proof. intros. destruct i; auto. Qed.
Lemma coef_over : forall f i, length f <= i -> coef f i = 0. Proof. intros. unfold coef. apply nth_overflow; auto. Qed.
Lemma coef_addp : forall f g i, coef (addp f g) i = coef f i + coef g i.
Proof.
  induction f as [ | a f IH]; intros g i; [cbn [addp]; rewrite coef_nil; ring | ].
  destruct g as [ | b g]; cbn [addp]; [rewrite coef_nil; ring | ]. destruct i; [reflexivity | ]. rewrite !coef_cons. auto.
Qed.
Lemma coef_scalp : forall c f i, coef (scalp c f) i = c * coef f i.
Proof. intros c f. induction f as [ | a f IH]; intro i; [unfold scalp; cbn [map]; rewrite coef_nil; ring | ]. destruct i; [reflexivity | ]. apply IH. Qed.
Lemma coef_oppp : forall f i, coef (oppp f) i = - coef f i.
Proof. intros f. induction f as [ | a f IH]; intro i; [unfold oppp; cbn [map]; rewrite coef_nil; ring | ]. destruct i; [reflexivity | ]. apply IH. Qed.
Lemma coef_subp : forall f g i, coef (subp f g) i = coef f i - coef g i.
Proof. intros. unfold subp. rewrite coef_addp, coef_oppp. ring. Qed.

Lemma sum_ext : forall n (t u : nat -> K), (forall i, i < n -> t i = u i) -> sum n t = sum n u.
Proof. induction n; intros t u H; [reflexivity | ]. cbn [sum]. rewrite (IHn t u) by (intros; apply H; lia). rewrite H by lia. auto. Qed.
Lemma sum_first : forall n (t : nat -> K), sum (S n) t = t O + sum n (fun i => t (S i)).
Proof. induction n; intro t; [cbn [sum]; ring | ]. change (sum (S (S n)) t) with (sum (S n) t + t (S n)). rewrite IHn. cbn [sum]. ring. Qed.
Lemma sum_0 : forall n (t : nat -> K), (forall i, i < n -> t i = 0) -> sum n t = 0.
Proof. induction n; intros t H; [reflexivity | ]. cbn [sum]. rewrite IHn, H by (auto; intros; apply H; lia). ring. Qed.
Lemma sum_split : forall a b (t : nat -> K), sum (a + b)%nat t = sum a t + sum b (fun i => t (a + i)%nat).
Proof. induction b; intro t; [rewrite Nat.add_0_r; cbn [sum]; ring | ]. rewrite Nat.add_succ_r. cbn [sum]. rewrite IHb. ring. Qed.
Lemma sum_scal : forall n c (t : nat -> K), sum n (fun i => c * t i) = c * sum n t.
Proof. induction n; intros c t; cbn [sum]; [ring | ]. rewrite IHn. ring. Qed.
Lemma sum_plus : forall n (t u : nat -> K), sum n (fun i => t i + u i) = sum n t + sum n u.
Proof. induction n; intros; cbn [sum]; [ring | ]. rewrite IHn. ring. Qed.

Lemma coef_mulp : forall f g i, coef (mulp f g) i = conv f g i.
Proof.
  induction f as [ | a f IH]; intros g i.
  - cbn [mulp]. rewrite coef_nil. unfold conv. symmetry. apply sum_0. intros. rewrite coef_nil. ring.
  - cbn [mulp]. rewrite coef_addp, coef_scalp, coef_cons. unfold conv. rewrite sum_first. rewrite coef_cons, Nat.sub_0_r. f_equal.
    destruct i as [ | i]; [reflexivity | ]. rewrite IH. unfold conv. apply sum_ext. intros j Hj. rewrite coef_cons. reflexivity.
Qed.

Global Instance eqp_equiv : Equivalence (@eqp K).
Proof. split; [intros f i; auto | intros f g H i; auto | intros f g h H1 H2 i; rewrite H1; auto]. Qed.
Global Instance addp_proper : Proper (eqp ==> eqp ==> eqp) addp.
Proof. intros f f' Hf g g' Hg i. rewrite !coef_addp, Hf, Hg. auto. Qed.
Global Instance oppp_proper : Proper (eqp ==> eqp) oppp.
Proof. intros f f' Hf i. rewrite !coef_oppp, Hf. auto. Qed.
Global Instance subp_proper : Proper (eqp ==> eqp ==> eqp) subp.
Proof. intros f f' Hf g g' Hg i. rewrite !coef_subp, Hf, Hg. auto. Qed.
Global Instance scalp_proper : Proper (eq ==> eqp ==> eqp) scalp.
Proof. intros c c' Hc f f' Hf i. subst. rewrite !coef_scalp, Hf. auto. Qed.
Global Instance mulp_proper : Proper (eqp ==> eqp ==> eqp) mulp.
Proof. intros f f' Hf g g' Hg i. rewrite !coef_mulp. unfold conv. apply sum_ext. intros. rewrite Hf, Hg. auto. Qed.
Global Instance cons_proper : Proper (eq ==> eqp ==> eqp) (@cons K).
Proof. intros c c' Hc f f' Hf i. subst. destruct i; [auto | apply (Hf i)]. Qed.

Lemma mulp_nil_r : forall f, eqp (mulp f []) [].
Proof. intros f i. rewrite coef_mulp, coef_nil. apply sum_0. intros. rewrite coef_nil. ring. Qed.
Lemma mulp_cons_r : forall f b g, eqp (mulp f (b :: g)) (addp (scalp b f) (0 :: mulp f g)).
Proof.
  induction f as [ | a f IH]; intros b g.
  - cbn [mulp]. intro i. rewrite coef_addp, coef_scalp, coef_cons, !coef_nil. destruct i; rewrite ?coef_nil; ring.
  - cbn [mulp]. rewrite (IH b g). intro i. rewrite !coef_addp, !coef_scalp, !coef_cons. destruct i as [ | i]; [ring | ].
    rewrite !coef_addp, !coef_scalp, !coef_cons. ring.
Qed.
Lemma mulp_comm : forall f g, eqp (mulp f g) (mulp g f).
Proof. intros f g. induction f as [ | a f IH]; [rewrite mulp_nil_r; reflexivity | ]. rewrite mulp_cons_r. cbn [mulp]. rewrite IH. reflexivity. Qed.
Lemma mulp_addp_l : forall f g h, eqp (mulp (addp f g) h) (addp (mulp f h) (mulp g h)).
Proof.
  intros f g h i. rewrite coef_addp, !coef_mulp. unfold conv. rewrite <- sum_plus. apply sum_ext. intros. rewrite coef_addp. ring.
Qed.
Lemma mulp_scalp_l : forall c f h, eqp (mulp (scalp c f) h) (scalp c (mulp f h)).
Proof. intros c f h i. rewrite coef_scalp, !coef_mulp. unfold conv. rewrite <- sum_scal. apply sum_ext. intros. rewrite coef_scalp. ring. Qed.
Lemma cons_0 : forall f g, eqp (0 :: addp f g) (addp (0 :: f) (0 :: g)).
Proof. intros f g i. rewrite coef_addp, !coef_cons. destruct i; [ring | apply coef_addp]. Qed.
Lemma mulp_shift_l : forall f h, eqp (mulp (0 :: f) h) (0 :: mulp f h).
Proof. intros f h i. cbn [mulp]. rewrite coef_addp, coef_scalp. ring. Qed.
Lemma mulp_assoc : forall f g h, eqp (mulp f (mulp g h)) (mulp (mulp f g) h).
Proof.
  induction f as [ | a f IH]; intros g h; [reflexivity | ]. cbn [mulp]. rewrite mulp_addp_l, mulp_scalp_l, mulp_shift_l, (IH g h). reflexivity.
Qed.
Lemma mulp_1_l : forall f, eqp (mulp [1] f) f.
Proof. intros f i. cbn [mulp]. rewrite coef_addp, coef_scalp, coef_cons. destruct i; rewrite ?coef_nil; ring. Qed.

Lemma poly_ring : ring_theory ([] : list K) [1] addp mulp subp oppp eqp.
Proof.
  constructor.
  - intros f i. reflexivity.
  - intros f g i. rewrite !coef_addp. ring.
  - intros f g h i. rewrite !coef_addp. ring.
  - apply mulp_1_l.
  - apply mulp_comm.
  - apply mulp_assoc.
  - apply mulp_addp_l.
  - intros f g. reflexivity.
  - intros f i. rewrite coef_addp, coef_oppp, coef_nil. ring.
Qed.
Lemma poly_ext : ring_eq_ext addp mulp oppp eqp.
Proof. constructor; [apply addp_proper | apply mulp_proper | apply oppp_proper]. Qed.
Add Ring PolyR : poly_ring (setoid eqp_equiv poly_ext).

Lemma scalp_mulp : forall c f, eqp (scalp c f) (mulp [c] f).
Proof. intros c f i. cbn [mulp]. rewrite coef_addp, coef_cons. destruct i; rewrite ?coef_nil; ring. Qed.
Lemma shift_mulp : forall f, eqp (0 :: f) (mulp [0; 1] f).
Proof.
  intros f. rewrite mulp_comm, mulp_cons_r. intro i. rewrite coef_addp, coef_scalp, !coef_cons.
  destruct i; [ring | ]. assert (E : coef (mulp f [1]) i = coef f i) by (rewrite (mulp_comm f [1] i); apply mulp_1_l).
  rewrite E. ring.
Qed.
Lemma cons_split : forall a f, eqp (a :: f) (addp [a] (mulp [0; 1] f)).
Proof. intros a f. rewrite <- shift_mulp. intro i. rewrite coef_addp, !coef_cons. destruct i; rewrite ?coef_nil; ring. Qed.

(** ** Degree *)
Lemma trim_eqp : forall f, eqp (trim f) f.
Proof.
  induction f as [ | a f IH]; [reflexivity | ]. cbn [trim]. destruct (trim f) as [ | b g] eqn:E.
  - destruct (feqb a 0) eqn:Ea.
    + apply (feqb_eq K HK) in Ea. subst. intro i. rewrite coef_cons, coef_nil. destruct i; auto. rewrite <- (IH i). rewrite coef_nil. auto.
    + intro i. rewrite !coef_cons. destruct i; auto.
  - rewrite IH. reflexivity.
Qed.
Lemma trim_normal : forall f, normal (trim f).
Proof.
  induction f as [ | a f IH]; intro H; [contradiction | ]. cbn [trim] in *. destruct (trim f) as [ | b g] eqn:E.
  - destruct (feqb a 0) eqn:Ea; [contradiction | ]. cbn [last]. apply (feqb_neq K HK); auto.
  - change (last (a :: b :: g) 0) with (last (b :: g) 0). apply IH. discriminate.
Qed.
Lemma last_coef : forall f, last f 0 = coef f (length f - 1).
Proof.
  induction f as [ | a f IH]; [reflexivity | ]. destruct f as [ | b f]; [reflexivity | ].
  change (last (a :: b :: f) 0) with (last (b :: f) 0). rewrite IH. cbn [length]. rewrite coef_cons. destruct f; reflexivity.
Qed.
Lemma normal_lead : forall f, normal f -> f <> [] -> coef f (length f - 1) <> 0.
Proof. intros f H N. rewrite <- last_coef. auto. Qed.
Lemma lead_normal : forall f, (f <> [] -> coef f (length f - 1) <> 0) -> normal f.
Proof. intros f H N. rewrite last_coef. auto. Qed.
Lemma length_pos : forall f, f <> [] -> 0 < length f. Proof. intros [ | ] H; [contradiction | cbn; lia]. Qed.
Lemma length_0 : forall f, length f = O -> f = []. Proof. intros [ | ] H; [auto | discriminate]. Qed.
Lemma normal_length : forall f n, normal f -> (forall i, n <= i -> coef f i = 0) -> length f <= n.
Proof.
  intros f n N H. destruct (le_lt_dec (length f) n) as [L | L]; auto. exfalso.
  apply (normal_lead f N); [intro; subst; cbn in L; lia | ]. apply H. lia.
Qed.
Lemma normal_unique : forall f g, normal f -> normal g -> eqp f g -> f = g.
Proof.
  intros f g Nf Ng E.
  assert (L : length f = length g).
  { apply Nat.le_antisymm; apply normal_length; auto; intros i Hi; [rewrite E | rewrite <- E]; apply coef_over; auto. }
  apply nth_ext with 0 0; auto. intros i _. apply E.
Qed.
Lemma coef_trim : forall f i, coef (trim f) i = coef f i. Proof. intros. apply trim_eqp. Qed.
Lemma trim_of_normal : forall f, normal f -> trim f = f.
Proof. intros. apply normal_unique; auto using trim_normal, trim_eqp. Qed.
Lemma trim_length : forall f, length (trim f) <= length f.
Proof. intro f. apply normal_length; [apply trim_normal | ]. intros. rewrite coef_trim. apply coef_over; auto. Qed.
Lemma normal_nil : normal ([] : list K). Proof. intro. contradiction. Qed.
Lemma eqp_trim : forall f g, eqp f g -> trim f = trim g.
Proof. intros. apply normal_unique; auto using trim_normal. rewrite !trim_eqp. auto. Qed.
Lemma trim_nil_iff : forall f, trim f = [] <-> eqp f [].
Proof.
  intro f. split; intro H; [rewrite <- trim_eqp, H; reflexivity | ]. apply normal_unique; auto using trim_normal, normal_nil. rewrite trim_eqp. auto.
Qed.

(** ** The constructors of the specification *)
Lemma coef_map_seq : forall (c : nat -> K) n i, coef (map c (seq 0 n)) i = if i <? n then c i else 0.
Proof.
  intros c n i. destruct (Nat.ltb_spec i n) as [H | H].
  - unfold coef. rewrite nth_indep with (d' := c O) by (rewrite map_length, seq_length; auto). rewrite map_nth, seq_nth by auto. reflexivity.
  - apply coef_over. rewrite map_length, seq_length. auto.
Qed.
Lemma coef_poly_of : forall c n i, coef (poly_of n c) i = if i <? n then c i else 0.
Proof. intros. unfold poly_of. rewrite coef_trim. apply coef_map_seq. Qed.
Lemma poly_of_normal : forall n (c : nat -> K), normal (poly_of n c). Proof. intros. apply trim_normal. Qed.
Lemma Xadd_eqp : forall f g, eqp (Xadd f g) (addp f g).
Proof.
  intros f g i. unfold Xadd. rewrite coef_poly_of, coef_addp. destruct (Nat.ltb_spec i (max (length f) (length g))) as [H | H]; auto.
  rewrite !coef_over by lia. ring.
Qed.
Lemma Xsub_eqp : forall f g, eqp (Xsub f g) (subp f g).
Proof.
  intros f g i. unfold Xsub. rewrite coef_poly_of, coef_subp. destruct (Nat.ltb_spec i (max (length f) (length g))) as [H | H]; auto.
  rewrite !coef_over by lia. ring.
Qed.
Lemma Xopp_eqp : forall f, eqp (Xopp f) (oppp f).
Proof. intros f i. unfold Xopp. rewrite coef_poly_of, coef_oppp. destruct (Nat.ltb_spec i (length f)); auto. rewrite coef_over by lia. ring. Qed.
Lemma Xscale_eqp : forall c f, eqp (Xscale c f) (scalp c f).
Proof. intros c f i. unfold Xscale. rewrite coef_poly_of, coef_scalp. destruct (Nat.ltb_spec i (length f)); auto. rewrite coef_over by lia. ring. Qed.
Lemma conv_over : forall f g i, length f + length g <= S i -> conv f g i = 0.
Proof.
  intros f g i H. apply sum_0. intros j Hj. destruct (le_lt_dec (length f) j) as [L | L].
  - rewrite (coef_over f) by auto. ring.
  - rewrite (coef_over g) by lia. ring.
Qed.
Lemma Xmul_eqp : forall f g, eqp (Xmul f g) (mulp f g).
Proof.
  intros f g i. unfold Xmul. rewrite coef_poly_of, coef_mulp. destruct (Nat.ltb_spec i (length f + length g)); auto.
  symmetry. apply conv_over. lia.
Qed.
Lemma Xconst_eqp : forall c : K, eqp (Xconst c) [c].
Proof. intros c i. unfold Xconst. rewrite coef_poly_of. destruct i as [ | i]; [reflexivity | ]. rewrite coef_cons, coef_nil. reflexivity. Qed.

(** ** Products of normal polynomials *)
Lemma sum_single : forall n k (t : nat -> K), k < n -> (forall i, i < n -> i <> k -> t i = 0) -> sum n t = t k.
Proof.
  intros n k t Hk H. replace n with (k + S (n - S k))%nat by lia. rewrite sum_split, sum_first.
  rewrite (sum_0 k) by (intros; apply H; lia). rewrite (sum_0 (n - S k)) by (intros; apply H; lia). rewrite Nat.add_0_r. ring.
Qed.
Lemma conv_lead : forall f g a b, (forall i, a < i -> coef f i = 0) -> (forall i, b < i -> coef g i = 0) ->
  conv f g (a + b) = coef f a * coef g b.
Proof.
  intros f g a b Ha Hb. unfold conv. rewrite (sum_single _ a); [ | lia | ].
  - replace (a + b - a)%nat with b by lia. auto.
  - intros i Hi Ni. destruct (le_lt_dec i a); [rewrite (Hb (a + b - i)%nat) by lia; ring | rewrite Ha by lia; ring].
Qed.
Lemma mul_length : forall f g h, normal f -> normal g -> normal h -> f <> [] -> g <> [] -> eqp h (mulp f g) ->
  (length h + 1 = length f + length g)%nat.
Proof.
  intros f g h Nf Ng Nh Zf Zg E. pose proof (length_pos f Zf). pose proof (length_pos g Zg).
  assert (L : coef h (length f - 1 + (length g - 1)) <> 0).
  { rewrite E, coef_mulp, conv_lead by (intros; apply coef_over; lia). apply (f_mul_nz K HK); apply normal_lead; auto. }
  assert (U : length h <= length f + length g - 1).
  { apply normal_length; auto. intros i Hi. rewrite E, coef_mulp. apply conv_over. lia. }
  destruct (le_lt_dec (length h) (length f - 1 + (length g - 1))) as [B | B]; [rewrite coef_over in L by auto; contradiction | lia].
Qed.
Lemma mul_nz : forall f g, ~ eqp f [] -> ~ eqp g [] -> ~ eqp (mulp f g) [].
Proof.
  intros f g Hf Hg H.
  assert (Zf : trim f <> []) by (rewrite trim_nil_iff; auto). assert (Zg : trim g <> []) by (rewrite trim_nil_iff; auto).
  pose proof (mul_length (trim f) (trim g) [] (trim_normal f) (trim_normal g) normal_nil Zf Zg) as E.
  assert (E0 : eqp [] (mulp (trim f) (trim g))) by (rewrite !trim_eqp, H; reflexivity). specialize (E E0). pose proof (length_pos _ Zf). pose proof (length_pos _ Zg). cbn in E. lia.
Qed.
Lemma eqp_dec0 : forall f : list K, {eqp f []} + {~ eqp f []}.
Proof. intro f. destruct (trim f) eqn:E; [left | right]; [apply trim_nil_iff; auto | intro H; apply trim_nil_iff in H; congruence]. Qed.

Lemma divides_mulp : forall d f, divides d f <-> exists h, eqp f (mulp d h).
Proof. intros. split; intros [h H]; exists h; intro i; rewrite (H i), ?coef_mulp; auto. Qed.
Lemma cong_mulp : forall m f g, cong m f g <-> exists h, eqp f (addp g (mulp h m)).
Proof. intros. split; intros [h H]; exists h; intro i; rewrite (H i), ?coef_addp, ?coef_mulp; auto. Qed.
Global Instance cong_equiv m : Equivalence (cong m).
Proof.
  split.
  - intro f. apply cong_mulp. exists []. ring.
  - intros f g H. apply cong_mulp in H. destruct H as [h H]. apply cong_mulp. exists (oppp h). rewrite H. ring.
  - intros f g k H1 H2. apply cong_mulp in H1. apply cong_mulp in H2. destruct H1 as [h1 H1], H2 as [h2 H2]. apply cong_mulp. exists (addp h1 h2). rewrite H1, H2. ring.
Qed.
Global Instance eqp_cong m : subrelation (@eqp K) (cong m).
Proof. intros f g H. apply cong_mulp. exists []. rewrite H. ring. Qed.
Global Instance addp_cong m : Proper (cong m ==> cong m ==> cong m) addp.
Proof.
  intros f f' Hf g g' Hg. apply cong_mulp in Hf. apply cong_mulp in Hg. destruct Hf as [h1 H1], Hg as [h2 H2].
  apply cong_mulp. exists (addp h1 h2). rewrite H1, H2. ring.
Qed.
Global Instance mulp_cong m : Proper (cong m ==> cong m ==> cong m) mulp.
Proof.
  intros f f' Hf g g' Hg. apply cong_mulp in Hf. apply cong_mulp in Hg. destruct Hf as [h1 H1], Hg as [h2 H2].
  apply cong_mulp. exists (addp (mulp f' h2) (addp (mulp h1 g') (mulp (mulp h1 h2) m))). rewrite H1, H2. ring.
Qed.
Global Instance oppp_cong m : Proper (cong m ==> cong m) oppp.
Proof. intros f f' Hf. apply cong_mulp in Hf. destruct Hf as [h1 H1]. apply cong_mulp. exists (oppp h1). rewrite H1. ring. Qed.
Global Instance subp_cong m : Proper (cong m ==> cong m ==> cong m) subp.
Proof. intros f f' Hf g g' Hg. unfold subp. rewrite Hf, Hg. reflexivity. Qed.
Global Instance cong_proper : Proper (@eqp K ==> @eqp K ==> @eqp K ==> iff) cong.
Proof. intros m m' Hm f f' Hf g g' Hg. rewrite !cong_mulp. split; intros [h H]; exists h; [rewrite <- Hf, <- Hg, <- Hm | rewrite Hf, Hg, Hm]; auto. Qed.

(** Two reduced polynomials that are congruent are equal. *)
Lemma cong_unique : forall m n f g, monic m n -> length f <= n -> length g <= n -> cong m f g -> eqp f g.
Proof.
  intros m n f g [Lm Mm] Lf Lg H. apply cong_mulp in H. destruct H as [h H].
  destruct (eqp_dec0 h) as [Z | Z]; [rewrite H, Z; ring | exfalso].
  rewrite <- (trim_eqp h) in H. assert (Zt : trim h <> []) by (rewrite trim_nil_iff; auto).
  assert (C := H (length (trim h) - 1 + n)%nat). rewrite coef_addp, coef_mulp in C.
  rewrite (coef_over f), (coef_over g) in C by lia.
  rewrite conv_lead in C by (intros; apply coef_over; lia). rewrite Mm in C.
  apply (normal_lead (trim h) (trim_normal h) Zt). transitivity (0 + coef (trim h) (length (trim h) - 1) * 1); [ring | symmetry; exact C].
Qed.
Lemma cong_0 : forall m f, cong m f [] <-> divides m f.
Proof. intros. rewrite cong_mulp, divides_mulp. split; intros [h H]; exists h; rewrite H; ring. Qed.
End P.
