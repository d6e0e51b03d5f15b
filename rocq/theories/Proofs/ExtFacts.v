(** K[X]/(m): field laws and number of elements. *)
From Coq Require Import ZArith List Bool Lia Arith Ring Field Setoid Morphisms Eqdep_dec.
From Verif.Base Require Import Outcome Array Algebra Slots.
From Verif.Spec Require Import FiniteField Polynomials Extension.
From Verif.Model Require Import Poly.
From Verif.Proofs Require Import FieldFacts SlotFacts RandomFacts QuadFacts PolyAlgebra PolyFacts.
Import ListNotations.
Open Scope nat_scope.

Section P.
Variable K : fld.
Hypothesis HK : fld_laws K.
Add Field KFe : (fl_field K HK).
Add Ring PolyRe : (poly_ring K HK) (setoid (eqp_equiv K) (poly_ext K HK)).
Existing Instance eqp_equiv.
Local Instance addp_proper'' : Proper (eqp ==> eqp ==> eqp) (addp K) := addp_proper K HK.
Local Instance oppp_proper'' : Proper (eqp ==> eqp) (oppp K) := oppp_proper K HK.
Local Instance subp_proper'' : Proper (eqp ==> eqp ==> eqp) (subp K) := subp_proper K HK.
Local Instance mulp_proper'' : Proper (eqp ==> eqp ==> eqp) (mulp K) := mulp_proper K HK.
Local Instance cong_equiv'' m : Equivalence (cong m) := cong_equiv K HK m.
Local Instance eqp_cong'' m : subrelation (@eqp K) (cong m) := eqp_cong K HK m.
Local Instance addp_cong'' m : Proper (cong m ==> cong m ==> cong m) (addp K) := addp_cong K HK m.
Local Instance mulp_cong'' m : Proper (cong m ==> cong m ==> cong m) (mulp K) := mulp_cong K HK m.
Local Instance oppp_cong'' m : Proper (cong m ==> cong m) (oppp K) := oppp_cong K HK m.
Local Instance subp_cong'' m : Proper (cong m ==> cong m ==> cong m) (subp K) := subp_cong K HK m.
Notation "0" := (@f0 K). Notation "1" := (@f1 K).
Notation "x + y" := (@fadd K x y). Notation "x * y" := (@fmul K x y). Notation "x - y" := (@fsub K x y).
Notation "- x" := (@fopp K x).
Notation poly := (list K).
Implicit Types f g h : poly.

Section N.
Variables (n : nat) (m : poly).
Hypothesis Hm : monic m n.
Hypothesis Hn : 0 < n.
Notation L := (Ext K n m).
Notation vec := (vec K n).
Definition vl (a : vec) : poly := proj1_sig a.
Lemma vl_length : forall a : vec, length (vl a) = n. Proof. intros [l H]. cbn. apply Nat.eqb_eq. auto. Qed.
Lemma vcoef_mk : forall c i, vcoef (mkvec n c) i = if i <? n then c i else 0.
Proof. intros c i. unfold vcoef, mkvec. cbn [proj1_sig]. apply coef_map_seq. Qed.
Lemma vec_ext : forall a b : vec, (forall i, i < n -> vcoef a i = vcoef b i) -> a = b.
Proof.
  clear Hn. intros [l Hl] [k Hk] H. assert (E : l = k).
  { pose proof (proj1 (Nat.eqb_eq _ _) Hl). pose proof (proj1 (Nat.eqb_eq _ _) Hk). apply nth_ext with 0 0; [congruence | ]. intros i Hi. apply H. lia. }
  subst k. f_equal. apply UIP_dec. apply bool_dec.
Qed.
Lemma vec_cong : forall a b : vec, cong m (vl a) (vl b) -> a = b.
Proof. intros a b H. apply vec_ext. intros i _. apply (cong_unique K HK m n (vl a) (vl b) Hm); auto; rewrite vl_length; auto. Qed.
Lemma vcoef_over : forall (a : vec) i, n <= i -> vcoef a i = 0.
Proof. clear Hn. intros a i H. apply coef_over. rewrite vl_length. auto. Qed.

Lemma red_length : forall f, f <> [] -> length (red K n m f) = n.
Proof. intros [ | a f] H; [contradiction | ]. cbn [red]. rewrite map_length, seq_length. auto. Qed.
Lemma red_cong : forall f, cong m (red K n m f) f.
Proof.
  induction f as [ | a f IH]; [reflexivity | ]. cbn [red]. set (t := a :: red K n m f).
  assert (T : cong m t (a :: f)).
  { unfold t. assert (X : forall g : poly, eqp (a :: g) (addp K [a] (mulp K [0; 1] g))) by (intro; apply (cons_split K HK)).
    apply (cong_proper K HK m m (reflexivity m) _ _ (X _) _ _ (X _)). rewrite IH. reflexivity. }
  rewrite <- T. apply (cong_mulp K HK). exists (oppp K [coef t n]). intro i. rewrite (coef_map_seq K).
  assert (E : eqp (addp K t (mulp K (oppp K [coef t n]) m)) (subp K t (scalp K (coef t n) m))) by (rewrite (scalp_mulp K HK); ring).
  rewrite E, (coef_subp K HK), (coef_scalp K HK). destruct (Nat.ltb_spec i n) as [I | I]; auto.
  destruct Hm as [Lm Cm]. destruct (Nat.eq_dec i n) as [N | N]; [subst; rewrite Cm; ring | ].
  rewrite (coef_over K m) by lia. rewrite (coef_over K t); [ring | ]. unfold t. destruct f; [cbn; lia | ]. cbn [length]. rewrite red_length by discriminate. lia.
Qed.
Lemma mk_eqp : forall f, length f <= n -> eqp (vl (mkvec n (coef f))) f.
Proof. intros f H i. unfold vl. change (vcoef (mkvec n (coef f)) i = coef f i). rewrite vcoef_mk. destruct (Nat.ltb_spec i n); auto. rewrite coef_over; auto. lia. Qed.
Lemma E_add : forall a b : L, eqp (vl (fadd a b)) (addp K (vl a) (vl b)).
Proof.
  intros a b i. rewrite (coef_addp K HK). cbn [fadd Ext]. change (vcoef (mkvec n (fun i => vcoef a i + vcoef b i)) i = vcoef a i + vcoef b i).
  rewrite vcoef_mk. destruct (Nat.ltb_spec i n); auto. rewrite !vcoef_over by auto. ring.
Qed.
Lemma E_sub : forall a b : L, eqp (vl (fsub a b)) (subp K (vl a) (vl b)).
Proof.
  intros a b i. rewrite (coef_subp K HK). cbn [fsub Ext]. change (vcoef (mkvec n (fun i => vcoef a i - vcoef b i)) i = vcoef a i - vcoef b i).
  rewrite vcoef_mk. destruct (Nat.ltb_spec i n); auto. rewrite !vcoef_over by auto. ring.
Qed.
Lemma E_opp : forall a : L, eqp (vl (fopp a)) (oppp K (vl a)).
Proof.
  intros a i. rewrite (coef_oppp K HK). cbn [fopp Ext]. change (vcoef (mkvec n (fun i => - vcoef a i)) i = - vcoef a i).
  rewrite vcoef_mk. destruct (Nat.ltb_spec i n); auto. rewrite !vcoef_over by auto. ring.
Qed.
Lemma E_0 : eqp (vl (f0 : L)) [].
Proof. intro i. cbn [f0 Ext]. change (vcoef (mkvec n (fun _ => 0)) i = coef [] i). rewrite vcoef_mk, coef_nil. destruct (i <? n); auto. Qed.
Lemma E_1 : eqp (vl (f1 : L)) [1].
Proof.
  intro i. cbn [f1 Ext]. change (vcoef (mkvec n (fun i => if i =? 0%nat then 1 else 0)) i = coef [1] i). rewrite vcoef_mk, coef_cons.
  destruct i as [ | i]; cbn [Nat.eqb]; [destruct (Nat.ltb_spec 0 n); [auto | lia] | ]. rewrite coef_nil. destruct (_ <? n); auto.
Qed.
Lemma E_mul : forall a b : L, cong m (vl (fmul a b)) (mulp K (vl a) (vl b)).
Proof.
  intros a b. cbn [fmul Ext]. unfold emul. set (l := map (conv (proj1_sig a) (proj1_sig b)) (seq 0 (n + n))).
  assert (X : eqp l (mulp K (vl a) (vl b))).
  { intro i. unfold l. rewrite coef_map_seq, (coef_mulp K HK). destruct (Nat.ltb_spec i (n + n)%nat) as [I | I]; auto.
    symmetry. apply (conv_over K HK). fold (vl a). fold (vl b). rewrite !vl_length. lia. }
  assert (N : l <> []) by (intro E; apply (f_equal (@length K)) in E; unfold l in E; rewrite map_length, seq_length in E; cbn [length] in E; lia).
  assert (Y : eqp (vl (mkvec n (coef (red K n m l)))) (red K n m l)) by (apply mk_eqp; rewrite red_length; auto).
  apply (cong_proper K HK m m (reflexivity m) _ _ Y _ _ (symmetry X)). apply red_cong.
Qed.
Lemma Ext_eqb : forall x y : L, feqb x y = true <-> x = y.
Proof.
  intros x y. cbn [feqb Ext]. rewrite forallb_forall. split.
  - intro H. apply vec_ext. intros i Hi. apply (feqb_eq K HK). apply H. apply in_seq. lia.
  - intros -> i _. apply (feqb_refl K HK).
Qed.
Lemma vec_0 : forall a : L, eqp (vl a) [] -> a = f0.
Proof. intros a H. apply vec_cong. apply (eqp_cong K HK). rewrite H, E_0. reflexivity. Qed.

(** ring laws hold for every monic m *)
Ltac law := intros; apply vec_cong; rewrite ?E_mul, ?E_add, ?E_sub, ?E_opp, ?E_mul, ?E_add, ?E_0, ?E_1; apply (eqp_cong K HK); ring.
Theorem Ext_ring : ring_theory (f0 : L) f1 fadd fmul fsub fopp eq.
Proof.
  constructor.
  - law.
  - law.
  - law.
  - law.
  - law.
  - law.
  - law.
  - law.
  - law.
Qed.

Hypothesis Hi : irreducible m.
Lemma coprime : forall f, ~ eqp f [] -> length f <= n -> forall d, divides d f -> divides d m -> constant d.
Proof.
  intros f Zf Lf d Df [h Dm]. apply (divides_mulp K HK) in Df. destruct Df as [g Df].
  destruct (proj2 Hi d h Dm) as [C | C]; auto. exfalso.
  assert (Eh : eqp h [coef h 0]) by (intros [ | i]; rewrite coef_cons; auto; rewrite coef_nil; apply C; lia).
  assert (Em : eqp m (mulp K d h)) by (intro i; rewrite Dm; symmetry; apply (coef_mulp K HK)).
  assert (Cd : coef d n <> 0).
  { intro E. destruct Hm as [_ C1]. apply (f_1_neq_0 K HK). rewrite <- C1, Em.
    assert (X : eqp (mulp K d h) (scalp K (coef h 0) d)) by (rewrite (scalp_mulp K HK); generalize dependent (coef h 0); intros c Eh; rewrite Eh; ring).
    rewrite X, (coef_scalp K HK), E. ring. }
  assert (Zg : ~ eqp g []) by (intro E; apply Zf; rewrite Df, E; ring).
  pose proof (trim_eqp K HK d) as Td. pose proof (trim_eqp K HK g) as Tg. pose proof (trim_eqp K HK f) as Tf.
  assert (Ld : n < length (trim d)).
  { destruct (le_lt_dec (length (trim d)) n) as [B | B]; auto. exfalso. apply Cd. rewrite <- Td. apply coef_over. auto. }
  assert (Lt : (length (trim f) + 1 = length (trim d) + length (trim g))%nat).
  { apply (mul_length K HK); try apply (trim_normal K HK).
    - intro E. rewrite E in Ld. cbn [length] in Ld. lia.
    - intro E. apply Zg. apply (trim_nil_iff K HK). auto.
    - rewrite Td, Tg, Tf. auto. }
  assert (Pg : 0 < length (trim g)) by (apply length_pos; intro E; apply Zg; apply (trim_nil_iff K HK); auto).
  pose proof (trim_length K HK f). lia.
Qed.
Lemma monic_normal : normal m.
Proof. destruct Hm as [Lm Cm]. apply lead_normal. intros _. rewrite Lm. replace (S n - 1)%nat with n by lia. rewrite Cm. apply (f_1_neq_0 K HK). Qed.
Lemma invert_vec : forall a : L, a <> f0 -> exists g, (forall fuel, length m <= fuel -> poly_invert K fuel (trim (vl a)) m = Ok g) /\
  normal g /\ length g <= n /\ cong m (mulp K g (vl a)) [1].
Proof.
  intros a Za. assert (Zf : ~ eqp (vl a) []) by (intro E; apply Za; apply vec_0; auto).
  assert (Zt : trim (vl a) <> []) by (intro E; apply Zf; apply (trim_nil_iff K HK); auto).
  pose proof (trim_length K HK (vl a)) as Lt. rewrite vl_length in Lt. pose proof Hm as [Lm _].
  destruct (poly_invert_ok K HK (trim (vl a)) m (trim_normal K HK _) monic_normal Zt ltac:(lia)) as (g & F & N & Lg & C).
  - intros d D1 D2. apply (coprime (trim (vl a))); auto. intro E. apply Zt. apply (normal_unique K); auto; [apply (trim_normal K HK) | apply normal_nil].
  - exists g. split; auto. split; auto. split; [lia | ].
    apply (cong_proper K HK m m (reflexivity m) (mulp K g (vl a)) (mulp K g (trim (vl a)))) with (y := [1]); [ | reflexivity | auto].
    rewrite (trim_eqp K HK). reflexivity.
Qed.
Lemma E_inv : forall a : L, a <> f0 -> cong m (mulp K (vl (finv a)) (vl a)) [1].
Proof.
  intros a Za. destruct (invert_vec a Za) as (g & F & N & Lg & C). cbn [finv Ext]. unfold einv. fold (vl a). rewrite F by auto.
  assert (X : eqp (mulp K (vl (mkvec n (coef g))) (vl a)) (mulp K g (vl a))) by (rewrite (mk_eqp g Lg); reflexivity).
  apply (cong_proper K HK m m (reflexivity m) _ _ X _ _ (reflexivity [1])). auto.
Qed.
Theorem Ext_laws : fld_laws L.
Proof.
  constructor; [constructor; [apply Ext_ring | | | ] | apply Ext_eqb].
  - intro E. apply (f_1_neq_0 K HK). assert (X : eqp [1] []) by (rewrite <- E_1, <- E_0, E; reflexivity). specialize (X O). rewrite coef_cons, coef_nil in X. auto.
  - reflexivity.
  - intros a Za. apply vec_cong. rewrite E_mul, (E_inv a Za), E_1. reflexivity.
Qed.
End N.

(** ** Number of elements *)
Fixpoint lists (l : list K) (n : nat) : list (list K) :=
  match n with O => [[]] | S n' => map (fun p => fst p :: snd p) (list_prod l (lists l n')) end.
Lemma lists_in : forall l n v, (forall x, In x l) -> length v = n -> In v (lists l n).
Proof.
  intros l. induction n as [ | n IH]; intros v A Lv; [destruct v; [left; auto | discriminate] | ].
  destruct v as [ | x v]; [discriminate | ]. cbn [lists]. apply in_map_iff. exists (x, v). split; auto. apply in_prod; auto.
Qed.
Lemma lists_length_in : forall l n v, In v (lists l n) -> length v = n.
Proof.
  intros l. induction n as [ | n IH]; intros v I.
  - destruct I as [<- | []]. auto.
  - cbn [lists] in I. apply in_map_iff in I. destruct I as ((x, w) & <- & I). apply in_prod_iff in I. destruct I as [_ I]. cbn [fst snd length]. f_equal. auto.
Qed.
Lemma lists_NoDup : forall l n, NoDup l -> NoDup (lists l n).
Proof.
  intros l n ND. induction n as [ | n IH]; cbn [lists]; [constructor; [auto | constructor] | ].
  apply NoDup_map_inj_in; [ | apply NoDup_prod; auto]. intros (x, v) (y, w) _ _ E. cbn [fst snd] in E. inversion E. auto.
Qed.
Lemma lists_count : forall l n, Z.of_nat (length (lists l n)) = (Z.of_nat (length l) ^ Z.of_nat n)%Z.
Proof.
  intros l. induction n as [ | n IH]; [reflexivity | ]. cbn [lists]. rewrite map_length. etransitivity; [apply f_equal; apply prod_length | ].
  rewrite Nat2Z.inj_mul, IH. rewrite Nat2Z.inj_succ, Z.pow_succ_r by lia. auto.
Qed.
Theorem Ext_order : forall n m q, has_order K q -> has_order (Ext K n m) (q ^ Z.of_nat n)%Z.
Proof.
  intros n m q (l & ND & IN & LEN). exists (map (fun v => mkvec n (coef v)) (lists l n)). split; [ | split].
  - apply NoDup_map_inj_in; [ | apply lists_NoDup; auto]. intros u v Iu Iv E.
    apply lists_length_in in Iu. apply lists_length_in in Iv. apply nth_ext with 0 0; [congruence | ]. intros i Hi'.
    apply (f_equal (fun z => vcoef z i)) in E. rewrite !vcoef_mk in E. destruct (Nat.ltb_spec i n); [exact E | lia].
  - intros a. apply in_map_iff. exists (vl n a). split; [ | apply lists_in; auto; apply vl_length].
    apply (vec_ext n (mkvec n (coef (vl n a))) a). intros i Hi'. rewrite vcoef_mk. destruct (Nat.ltb_spec i n); [auto | lia].
  - subst q. rewrite map_length. apply lists_count.
Qed.
End P.
