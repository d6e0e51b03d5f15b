(** poly_is_irred and poly_findroot. *)
From Coq Require Import ZArith Znumtheory Zpow_facts List Bool Lia Arith Ring Field Setoid Morphisms.
From Verif.Base Require Import Outcome Array Algebra Slots.
From Verif.Spec Require Import FiniteField Polynomials Extension Roots Numerals.
From Verif.Model Require Import GenericPow IntText Poly PolyTests.
From Verif.Proofs Require Import FieldFacts PowFacts PolyAlgebra PolyFacts PolyRoots PolyRuns ExtFacts Frobenius IntTextFacts IntTextWitness RabinField.
Import ListNotations.
Open Scope nat_scope.

Section F.
Variable K : fld.
Hypothesis HK : fld_laws K.
Add Field KFpt : (fl_field K HK).
Add Ring PolyRpt : (poly_ring K HK) (setoid (eqp_equiv K) (poly_ext K HK)).
Existing Instance eqp_equiv.
Local Instance addp_propert : Proper (eqp ==> eqp ==> eqp) (addp K) := addp_proper K HK.
Local Instance oppp_propert : Proper (eqp ==> eqp) (oppp K) := oppp_proper K HK.
Local Instance mulp_propert : Proper (eqp ==> eqp ==> eqp) (mulp K) := mulp_proper K HK.
Local Instance subp_propert : Proper (eqp ==> eqp ==> eqp) (subp K) := subp_proper K HK.
Local Instance cong_equivt m : Equivalence (cong m) := cong_equiv K HK m.
Local Instance eqp_congt m : subrelation (@eqp K) (cong m) := eqp_cong K HK m.
Local Instance addp_congt m : Proper (cong m ==> cong m ==> cong m) (addp K) := addp_cong K HK m.
Local Instance mulp_congt m : Proper (cong m ==> cong m ==> cong m) (mulp K) := mulp_cong K HK m.
Local Instance oppp_congt m : Proper (cong m ==> cong m) (oppp K) := oppp_cong K HK m.
Local Instance subp_congt m : Proper (cong m ==> cong m ==> cong m) (subp K) := subp_cong K HK m.
Notation pX := (RabinField.pX K). Notation pXn := (RabinField.pXn K). Notation pXX := (RabinField.pXX K).

Lemma ring_monoid : forall n f, monic f n -> 0 < n -> monoid_laws (mul_monoid (Ext K n f)).
Proof.
  intros n f Mf Hn. pose proof (Ext_ring K HK n f Mf Hn) as R. split.
  - intros x y z. apply (Rmul_assoc R).
  - intros x. apply (Rmul_1_l R).
  - intros x. change (fmul (x : Ext K n f) f1 = x). rewrite (Rmul_comm R). apply (Rmul_1_l R).
Qed.
Lemma x_elem_eqp : forall n, 2 <= n -> eqp (vl K n (x_elem K n)) pX.
Proof.
  intros n Hn i. change (coef (vl K n (x_elem K n)) i) with (vcoef (x_elem K n) i). unfold x_elem. rewrite vcoef_mk.
  destruct (Nat.ltb_spec i n); destruct i as [ | [ | [ | i]]]; auto; lia.
Qed.
Lemma pow_cong : forall n f (e : vec K n) (w : list K) N, monic f n -> 0 < n -> cong f (vl K n e) w ->
  exists v, generic_pow_mpz (mul_monoid (Ext K n f)) e (Z.of_nat N) = Ok v /\ v = npow (e : mul_monoid (Ext K n f)) N.
Proof.
  intros n f e w N Mf Hn E. eexists. split; [apply (generic_pow_spec (mul_monoid (Ext K n f)) (ring_monoid n f Mf Hn)); lia | ]. unfold zpow. rewrite Nat2Z.id. reflexivity.
Qed.
Lemma npow_x : forall n f N, monic f n -> 2 <= n -> cong f (vl K n (npow (x_elem K n : mul_monoid (Ext K n f)) N)) (pXn N).
Proof.
  intros n f N Mf Hn. induction N.
  - cbn [npow mul_monoid mone pXn]. rewrite (E_1 K n f ltac:(lia)). reflexivity.
  - cbn [npow mul_monoid mmul RabinField.pXn]. rewrite (E_mul K HK n f Mf ltac:(lia)), IHN, x_elem_eqp by auto. reflexivity.
Qed.
Lemma xpow_ok : forall n f N, monic f n -> 2 <= n -> exists v, x_power_minus_x K n f (Z.of_nat N) = Ok v /\ cong f (vl K n v) (pXX N).
Proof.
  intros n f N Mf Hn. unfold x_power_minus_x. destruct (pow_cong n f (x_elem K n) pX N Mf ltac:(lia) (eqp_cong K HK f _ _ (x_elem_eqp n Hn))) as (v & E & Ev).
  rewrite E. cbn [bind]. eexists. split; [reflexivity | ]. rewrite (E_sub K HK n f), Ev, npow_x, x_elem_eqp by auto. reflexivity.
Qed.
Lemma is0_ok : forall n (v : vec K n), is0 K v = true <-> eqp (vl K n v) [].
Proof.
  intros n v. unfold is0. rewrite forallb_forall. change (proj1_sig v) with (vl K n v). split; intro H.
  - intro i. rewrite coef_nil. destruct (le_lt_dec (length (vl K n v)) i); [apply coef_over; auto | ]. apply (feqb_eq K HK), H. apply nth_In. auto.
  - intros x I. destruct (In_nth _ _ f0 I) as (i & _ & <-). specialize (H i). rewrite coef_nil in H. unfold coef in H. rewrite H. apply (feqb_refl K HK).
Qed.
Lemma gcd_ok : forall a b : list K, normal a -> normal b -> b <> [] ->
  exists d, gcd_value K a b = Ok d /\ normal d /\ d <> [] /\ divides d a /\ divides d b /\ forall h, divides h a -> divides h b -> divides h d.
Proof.
  intros a b Na Nb Zb. destruct (gcd_loop_ok K HK (length b) a b Na Nb Zb (le_n _)) as (d & E & Nd & Zd & (u1 & D1) & (u2 & D2) & (u & w & D3)).
  exists d. split; [apply E; lia | ]. split; auto. split; auto. split; [apply (divides_mulp K HK); eauto | ]. split; [apply (divides_mulp K HK); eauto | ].
  intros h Ha Hb. apply (divides_mulp K HK) in Ha. apply (divides_mulp K HK) in Hb. destruct Ha as [x Ha], Hb as [y Hb]. apply (divides_mulp K HK).
  exists (addp K (mulp K u x) (mulp K w y)). rewrite D3, Ha, Hb. ring.
Qed.
Lemma degree_constant : forall d : list K, normal d -> d <> [] -> (poly_degree K d = 0%Z <-> constant d).
Proof.
  intros d N Z. rewrite (RabinField.constant_trim K HK), (trim_of_normal K HK) by auto. unfold poly_degree. pose proof (length_pos K d Z). lia.
Qed.
(** divisors of a degree at least as large as that of the whole *)
Lemma divides_unit : forall h (f : list K) n, monic f n -> 0 < n -> normal h -> divides h f -> constant h -> forall x : list K, divides h x.
Proof.
  intros h f n Mf Hn Nh Hd Ch x. apply (divides_mulp K HK) in Hd. destruct Hd as [u Hd].
  assert (Eh : eqp h [coef h 0]) by (intros [ | i]; [reflexivity | rewrite (Ch (S i)) by lia; destruct i; reflexivity]).
  assert (Zh : coef h 0 <> f0).
  { intro Z. rewrite Eh, Z in Hd. assert (Q := Hd n). destruct Mf as [_ M]. rewrite M, <- (scalp_mulp K HK), (coef_scalp K HK) in Q. apply (f_1_neq_0 K HK). rewrite Q. ring. }
  apply (divides_mulp K HK). exists (mulp K [finv (coef h 0)] x). rewrite Eh at 1. rewrite (mulp_assoc K HK).
  assert (Xc : eqp (mulp K [coef h 0] [finv (coef h 0)]) [f1]) by (intros [ | [ | i]]; cbn; try field; auto; ring). rewrite Xc. ring.
Qed.

Lemma monic_irreducible_1 : forall f : list K, monic f 1 -> irreducible f.
Proof.
  intros f Mf. assert (NC : ~ constant f) by (intro C; destruct Mf as [_ M]; rewrite (C 1) in M by lia; apply (f_1_neq_0 K HK); auto).
  split; auto. intros g h E. destruct (RabinField.constant_dec K HK g) as [ | Ng]; auto. destruct (RabinField.constant_dec K HK h) as [ | Nh]; auto. exfalso.
  assert (Eg : eqp f (mulp K g h)) by (intro i; rewrite (coef_mulp K HK); auto).
  assert (Zg : ~ eqp g []) by (intro Z1; apply Ng; intros i _; rewrite Z1; apply coef_nil).
  assert (Zh : ~ eqp h []) by (intro Z1; apply Nh; intros i _; rewrite Z1; apply coef_nil).
  assert (L : length f + 1 = length (trim g) + length (trim h)).
  { apply (mul_length K HK); auto; try apply (trim_normal K HK); try (rewrite (trim_nil_iff K HK); auto).
    - apply (monic_normal K HK 1); auto.
    - rewrite !(trim_eqp K HK). auto. }
  rewrite (RabinField.constant_trim K HK) in Ng, Nh. destruct Mf as [Lf _]. lia.
Qed.

Section Order.
Variables (p e : nat).
Hypothesis Pp : prime (Z.of_nat p).
Notation q := (p ^ e).
Hypothesis HO : has_order K (Z.of_nat q).

Lemma checkgcd_ok : forall n f fac k, monic f n -> 2 <= n -> (Z.of_nat n = fac * Z.of_nat k)%Z -> (0 < fac)%Z ->
  exists b, checkgcd K (Z.of_nat q) n f fac = Ok b /\ (b = true <-> common K f (q ^ k)).
Proof.
  intros n f fac k Mf Hn Ek Hf. unfold checkgcd. replace (Z.of_nat n / fac)%Z with (Z.of_nat k) by (rewrite Ek, Z.mul_comm, Z.div_mul; lia).
  rewrite <- Nat2Z.inj_pow. destruct (xpow_ok n f (q ^ k) Mf Hn) as (v & E & C). rewrite E. cbn [bind].
  destruct (is0 K v) eqn:Z0.
  - exists true. split; auto. apply is0_ok in Z0. split; auto. intros _. exists f. split.
    + intro Cf. assert (Q := Cf n ltac:(lia)). destruct Mf as [_ M]. rewrite M in Q. apply (f_1_neq_0 K HK Q).
    + split; [apply (div_refl K HK) | ]. apply (cong_0 K HK). rewrite <- C, Z0. reflexivity.
  - unfold to_poly. rewrite (remove_ok K HK). cbn [bind]. change (proj1_sig v) with (vl K n v).
    assert (Zv : trim (vl K n v) <> []) by (rewrite (trim_nil_iff K HK), <- is0_ok; congruence).
    assert (Nf := monic_normal K HK n f Mf ltac:(lia)).
    destruct (gcd_ok f (trim (vl K n v)) Nf (trim_normal K HK _) Zv) as (d & Ed & Nd & Zd & Da & Db & Dm). rewrite Ed. cbn [bind].
    eexists. split; [reflexivity | ]. rewrite negb_true_iff, Z.eqb_neq, (degree_constant d Nd Zd).
    assert (DV : forall h, divides h f -> (divides h (trim (vl K n v)) <-> divides h (pXX (q ^ k)))).
    { intros h Hh. assert (A : divides h (trim (vl K n v)) <-> divides h (vl K n v)) by (split; apply (div_eqp K HK); [ | symmetry]; apply (trim_eqp K HK)).
      rewrite A. apply (cong_div K HK). apply (div_cong K HK f); auto. }
    split.
    + intro Cd. exists d. split; auto. split; auto. apply DV; auto.
    + intros (h & Ch & Hf' & HX) Cd. apply Ch. assert (Hd : divides h d) by (apply Dm; auto; apply DV; auto).
      apply (divides_mulp K HK) in Hd. destruct Hd as [u Hd]. destruct (RabinField.constant_dec K HK h) as [ | Nh]; auto. exfalso.
      assert (Eh : ~ eqp h []) by (intro Z1; apply Nh; intros i _; rewrite Z1; apply coef_nil).
      assert (Eu : ~ eqp u []) by (intro Z1; apply Zd; rewrite <- (trim_of_normal K HK d Nd); apply (trim_nil_iff K HK); rewrite Hd, Z1; ring).
      assert (L : length d + 1 = length (trim h) + length (trim u)).
      { apply (mul_length K HK); auto; try apply (trim_normal K HK); try (rewrite (trim_nil_iff K HK); auto). rewrite !(trim_eqp K HK). auto. }
      rewrite (RabinField.constant_trim K HK) in Ch, Cd. rewrite (trim_of_normal K HK d Nd) in Cd.
      assert (length (trim u) <> 0) by (intro Z1; apply Eu, (trim_nil_iff K HK), length_0; auto). lia.
Qed.
Lemma visit_ok : forall (P : Z -> Prop) test l, (forall fac, In fac l -> exists b, test (fst fac) = Ok b /\ (b = true <-> P (fst fac))) ->
  exists b, visit test l = Ok b /\ (b = true <-> exists fac, In fac l /\ P (fst fac)).
Proof.
  intros P test l. induction l as [ | x l IH]; intros H.
  - exists false. split; auto. split; [discriminate | intros (y & [] & _)].
  - cbn [visit]. destruct (H x (or_introl eq_refl)) as (b & E & B). rewrite E. cbn [bind]. destruct b.
    + exists true. split; auto. split; auto. intros _. exists x. split; [left | apply B]; auto.
    + destruct IH as (b & E' & B'); [intros y I; apply H; right; auto | ]. exists b. split; auto. rewrite B'. split.
      * intros (y & I & Py). exists y. split; [right | ]; auto.
      * intros (y & [<- | I] & Py); [apply B in Py; discriminate | exists y; auto].
Qed.
Lemma product_div : forall l r k, In (r, k) l -> Forall (fun fk : Z * Z => (2 <= fst fk /\ 1 <= snd fk)%Z) l -> (r | product l)%Z.
Proof.
  induction l as [ | [r' k'] l IH]; intros r k I F; [destruct I | ]. inversion F as [ | ? ? [F1 F2] F3]; subst. cbn [product fst snd] in *. destruct I as [I | I].
  - injection I as -> ->. apply Z.divide_mul_l. exists (r ^ (k - 1))%Z. replace k with (k - 1 + 1)%Z at 1 by lia. rewrite Z.pow_add_r, Z.pow_1_r by lia. reflexivity.
  - apply Z.divide_mul_r. eapply IH; eauto.
Qed.
Lemma product_prime : forall l r, prime r -> (r | product l)%Z -> Forall (fun fk : Z * Z => (2 <= fst fk /\ 1 <= snd fk)%Z /\ prime (fst fk)) l -> exists k, In (r, k) l.
Proof.
  induction l as [ | [r' k'] l IH]; intros r Pr D F.
  - cbn in D. apply Z.divide_pos_le in D; [ | lia]. pose proof (prime_ge_2 r Pr). lia.
  - inversion F as [ | ? ? [[F1 F2] F3] F4]; subst. cbn [product fst snd] in *. apply prime_mult in D; auto. destruct D as [D | D].
    + apply prime_power_prime in D; auto; [ | lia]. subst. exists k'. left. auto.
    + destruct (IH r Pr D F4) as [k I]. exists k. right. auto.
Qed.

(** ** Roots *)
Lemma value_peval : forall (f : list K) x, value f x = PolyRoots.peval K f x.
Proof. induction f; intro x; cbn; [ | rewrite IHf]; reflexivity. Qed.
Lemma value_eqp : forall (f g : list K) x, eqp f g -> value f x = value g x.
Proof. intros. rewrite !value_peval. apply (peval_eqp K); auto. Qed.
Lemma value_mulp : forall (f g : list K) x, value (mulp K f g) x = fmul (value f x) (value g x).
Proof. intros. rewrite !value_peval. apply (peval_mulp K HK). Qed.
Lemma value_addp : forall (f g : list K) x, value (addp K f g) x = fadd (value f x) (value g x).
Proof. intros. rewrite !value_peval. apply (peval_addp K HK). Qed.
Lemma value_oppp : forall (f : list K) x, value (oppp K f) x = fopp (value f x).
Proof. intros f x. assert (E : eqp (oppp K f) (mulp K [fopp f1] f)) by (rewrite <- (scalp_mulp K HK); intro i; rewrite (coef_oppp K HK), (coef_scalp K HK); ring). rewrite (value_eqp _ _ _ E), value_mulp. cbn [value]. ring. Qed.
Lemma value_Xn : forall N x, value (pXn N) x = npow (x : mul_monoid K) N.
Proof. induction N; intro x; cbn [RabinField.pXn npow mul_monoid mmul mone]; [cbn [value]; ring | ]. rewrite value_mulp, IHN. unfold RabinField.pX. cbn [value]. ring. Qed.
Lemma subp_addp : forall f g : list K, eqp (subp K f g) (addp K f (oppp K g)). Proof. intros. ring. Qed.
Lemma value_XX : forall x, value (pXX q) x = f0.
Proof.
  intro x. unfold RabinField.pXX. rewrite (value_eqp _ _ _ (subp_addp _ _)), value_addp, value_oppp, value_Xn, (fermatK K HK p e HO).
  unfold RabinField.pX. cbn [value]. ring.
Qed.
Definition lin (x : K) : list K := [fopp x; f1].
Lemma lin_cong : forall x (f : list K), cong (lin x) f [value f x].
Proof.
  intros x f. induction f as [ | a f IH]; cbn [value].
  - apply (eqp_cong K HK). intros [ | [ | i]]; reflexivity.
  - revert IH. generalize (value f x) as v. intros v IH. rewrite (cons_split K HK a f), IH. assert (Ex : cong (lin x) [f0; f1] [x]).
    { apply (cong_mulp K HK). exists [f1]. unfold lin. intros [ | [ | [ | i]]]; cbn; try ring; rewrite ?coef_nil; auto. }
    rewrite Ex. apply (eqp_cong K HK). intros [ | [ | i]]; cbn; try ring; auto.
Qed.
Lemma root_div : forall x (f : list K), is_root f x <-> divides (lin x) f.
Proof.
  intros x f. unfold is_root. split; intro H.
  - apply (cong_0 K HK). rewrite (lin_cong x f), H. apply (eqp_cong K HK). intros [ | [ | i]]; reflexivity.
  - apply (divides_mulp K HK) in H. destruct H as [h H]. rewrite (value_eqp _ _ _ H), value_mulp. unfold lin. cbn [value]. ring.
Qed.
Lemma root_divides : forall (g f : list K) x, divides g f -> is_root g x -> is_root f x.
Proof. intros g f x D R. apply root_div. apply root_div in R. eapply (div_trans K HK); eauto. Qed.
Lemma lin_normal : forall x, normal (lin x). Proof. intros x _. cbn. apply (f_1_neq_0 K HK). Qed.
Lemma root_dec : forall f : list K, (exists x, is_root f x) \/ ~ exists x, is_root f x.
Proof.
  intro f. destruct HO as (l & _ & All & _). destruct (Exists_dec (fun x => is_root f x) l (fun x => f_eq_dec K HK (value f x) f0)) as [E | E].
  - left. apply Exists_exists in E. destruct E as (x & _ & R). eauto.
  - right. intros (x & R). apply E, Exists_exists. eauto.
Qed.
(** a nonconstant divisor of X^q - X has a root in K *)
Lemma split_root : forall g : list K, ~ constant g -> divides g (pXX q) -> exists x, is_root g x.
Proof.
  intros g Cg Dg. destruct (root_dec g) as [ | N]; auto. exfalso.
  apply (RabinField.factor K HK (length (trim g)) g (le_n _) Cg). intros h d Ih Mh Hd _ Dh.
  assert (D1 : Nat.divide d 1).
  { apply (div_degree K HK p e Pp HO d h Mh Hd Ih 1); auto. rewrite Nat.pow_1_r. eapply (div_trans K HK); eauto. }
  apply Nat.divide_1_r in D1. subst d. destruct Mh as [L M]. destruct h as [ | c [ | c1 [ | ? ?]]]; try discriminate L. cbn in M. subst c1.
  apply N. exists (fopp c). apply (root_divides [c; f1]); auto. unfold is_root. cbn [value]. ring.
Qed.
(** ** poly_make_monic and poly_add on values *)
Lemma make_monic : forall (m : res (list K)) (g : list K), g <> [] ->
  (exists c t, m = Ok t /\ normal t /\ (forall i, coef t i = fmul c (coef g i)) /\ (g = [] \/ coef t (length g - 1) = f1)) -> normal g ->
  exists t, m = Ok t /\ monic t (length g - 1) /\ divides t g /\ divides g t.
Proof.
  intros m g Zg (c & t & E & Nt & Ct & [? | L]) Ng; [contradiction | ]. exists t. split; auto. pose proof (length_pos K g Zg).
  assert (Zc : c <> f0) by (intro Z; rewrite Ct, Z in L; apply (f_1_neq_0 K HK); rewrite <- L; ring).
  assert (Lt : length t = length g).
  { apply Nat.le_antisymm.
    - apply (normal_length K); auto. intros i Hi. rewrite Ct, coef_over by auto. ring.
    - destruct (le_lt_dec (length g) (length t)); auto. rewrite coef_over in L by lia. exfalso. apply (f_1_neq_0 K HK). auto. }
  split; [split; [lia | auto] | ]. split; apply (divides_mulp K HK).
  - exists [finv c]. rewrite (mulp_comm K HK), <- (scalp_mulp K HK). intro i. rewrite (coef_scalp K HK), Ct. field. auto.
  - exists [c]. rewrite (mulp_comm K HK), <- (scalp_mulp K HK). intro i. rewrite (coef_scalp K HK), Ct. auto.
Qed.
Lemma monic_other_ok : forall f g : list K, normal g -> g <> [] -> exists t, monic_other K f g = Ok t /\ monic t (length g - 1) /\ divides t g /\ divides g t.
Proof.
  intros f g N Z. apply make_monic; auto. destruct (monic_assigns K HK 0 1 (private K f g) N) as (c & t & E & (B1 & B2 & _) & L).
  exists c, (t 0). unfold monic_other. rewrite E. cbn [bind]. auto.
Qed.
Lemma monic_same_ok : forall g : list K, normal g -> g <> [] -> exists t, monic_same K g = Ok t /\ monic t (length g - 1) /\ divides t g /\ divides g t.
Proof.
  intros g N Z. apply make_monic; auto. destruct (monic_assigns K HK 0 0 (private K g g) N) as (c & t & E & (B1 & B2 & _) & L).
  exists c, (t 0). unfold monic_same. rewrite E. cbn [bind]. auto.
Qed.
Lemma add_value_ok : forall f g : list K, normal f -> normal g -> exists t, add_value K f g = Ok t /\ normal t /\ eqp t (addp K f g).
Proof.
  intros f g Nf Ng. unfold add_value. destruct (add_assigns K HK 0 0 1 (private K f g)) as (t & E & B1 & B2 & _).
  rewrite E. cbn [bind]. exists (t 0). split; auto. split; auto. intro i. rewrite B2, (coef_addp K HK). reflexivity.
Qed.
Lemma monic_nonconst : forall (g : list K) n, monic g n -> 0 < n -> ~ constant g.
Proof. intros g n [_ M] Hn C. rewrite (C n Hn) in M. apply (f_1_neq_0 K HK). auto. Qed.
Lemma divides_length : forall d g : list K, normal d -> normal g -> g <> [] -> divides d g -> length d <= length g.
Proof.
  intros d g Nd Ng Zg D. apply (divides_mulp K HK) in D. destruct D as [u D].
  assert (Zd : d <> []) by (intro Z; apply Zg; rewrite <- (trim_of_normal K HK g Ng); apply (trim_nil_iff K HK); rewrite D, Z; ring).
  assert (Zu : trim u <> []) by (rewrite (trim_nil_iff K HK); intro Z; apply Zg; rewrite <- (trim_of_normal K HK g Ng); apply (trim_nil_iff K HK); rewrite D, Z; ring).
  pose proof (mul_length K HK d (trim u) g Nd (trim_normal K HK u) Ng Zd Zu) as L.
  pose proof (length_pos K _ Zu). specialize (L ltac:(rewrite (trim_eqp K HK); auto)). lia.
Qed.
Lemma npow_cong : forall n g (y : vec K n) w N, monic g n -> 0 < n -> cong g (vl K n y) w ->
  forall x, divides (lin x) g -> value (vl K n (npow (y : mul_monoid (Ext K n g)) N)) x = npow (value w x : mul_monoid K) N.
Proof.
  intros n g y w N Mg Hn C x D. assert (V : forall a b : list K, cong g a b -> value a x = value b x).
  { intros a b Q. apply (div_cong K HK g (lin x)) in Q; auto. rewrite (lin_cong x a), (lin_cong x b) in Q.
    apply (cong_unique K HK (lin x) 1) in Q; try (cbn; lia). 2: split; reflexivity. apply (Q 0). }
  induction N.
  - cbn [npow mul_monoid mone]. rewrite (V _ [f1]); [cbn [value]; ring | rewrite (E_1 K n g Hn); reflexivity].
  - cbn [npow mul_monoid mmul]. rewrite (V _ _ (E_mul K HK n g Mg Hn _ _)), value_mulp, IHN, (V _ _ C). reflexivity.
Qed.
(** one value drawn *)
Inductive step_result (c : K) (g g' : list K) n : Prop :=
| step_found : is_root g (fopp c) -> g' = lin (fopp c) -> step_result c g g' n
| step_split : ~ is_root g (fopp c) -> (exists m, 0 < m < n /\ monic g' m) -> divides g' g ->
    (forall x, is_root g x -> (is_root g' x <-> npow (fadd x c : mul_monoid K) ((q - 1) / 2) = fopp f1)) -> step_result c g g' n
| step_same : ~ is_root g (fopp c) -> g' = g ->
    (forall x y, is_root g x -> is_root g y -> npow (fadd x c : mul_monoid K) ((q - 1) / 2) = fopp f1 -> npow (fadd y c : mul_monoid K) ((q - 1) / 2) = fopp f1) ->
    step_result c g g' n.
Lemma find_step : forall c src g n, monic g n -> 2 <= n ->
  exists g', find_loop K (Z.of_nat q) (c :: src) g = find_loop K (Z.of_nat q) src g' /\ step_result c g g' n.
Proof.
  intros c src g n Mg Hn. assert (Ng := monic_normal K HK n g Mg ltac:(lia)). assert (Lg : length g = S n) by apply Mg.
  assert (Zg : g <> []) by (intro Z; rewrite Z in Lg; discriminate).
  cbn [find_loop]. assert (Dg : poly_degree K g = Z.of_nat n) by (unfold poly_degree; lia). rewrite Dg.
  destruct (Z.eqb_spec (Z.of_nat n) 1); [lia | ].
  assert (Nr : normal [c; f1]) by (intros _; cbn; apply (f_1_neq_0 K HK)).
  assert (Er : lin (fopp c) = [c; f1]) by (unfold lin; f_equal; ring).
  destruct (gcd_ok [c; f1] g Nr Ng Zg) as (d & E & Nd & Zd & D1 & D2 & D3). rewrite E. cbn [bind].
  pose proof (divides_length d [c; f1] Nd Nr ltac:(discriminate) D1) as Ld. cbn [length] in Ld. pose proof (length_pos K d Zd).
  destruct (Z.gtb_spec (poly_degree K d) 0) as [G | G]; unfold poly_degree in G.
  - assert (L2 : length d = 2) by lia. destruct (monic_other_ok g d Nd Zd) as (t & Et & Mt & T1 & T2). rewrite Et. cbn [bind]. exists t. split; auto.
    rewrite L2 in Mt. cbn in Mt.
    assert (Q : t = [c; f1]).
    { destruct Mt as [Lt Mt]. destruct t as [ | t0 [ | t1 [ | ? ?]]]; try discriminate Lt. cbn in Mt. subst t1.
      assert (R : is_root [c; f1] (fopp t0)) by (apply (root_divides [t0; f1]); [eapply (div_trans K HK); eauto | unfold is_root; cbn [value]; ring]).
      unfold is_root in R. cbn [value] in R. do 2 f_equal. 
      transitivity (fsub c (fadd c (fmul (fopp t0) (fadd f1 (fmul (fopp t0) f0))))); [ring | rewrite R; ring]. }
    apply step_found; [ | rewrite Er; auto]. apply root_div. rewrite Er, <- Q. eapply (div_trans K HK); eauto.
  - assert (NR : ~ is_root g (fopp c)).
    { intro R. apply root_div in R. rewrite Er in R. pose proof (D3 [c; f1] (div_refl K HK _) R) as Q. apply divides_length in Q; auto. cbn in Q. lia. }
    rewrite Nat2Z.id.
    assert (Eh : ((Z.of_nat q - 1) / 2)%Z = Z.of_nat ((q - 1) / 2)).
    { pose proof (q_gt1 K HK p e HO). rewrite Nat2Z.inj_div, Nat2Z.inj_sub by lia. reflexivity. }
    rewrite Eh, (generic_pow_spec (mul_monoid (Ext K n g)) (ring_monoid n g Mg ltac:(lia))) by lia. cbn [bind]. unfold zpow. rewrite Nat2Z.id.
    set (h := (q - 1) / 2). set (y := npow (truncate_to K n [c; f1] : mul_monoid (Ext K n g)) h).
    assert (Ey : forall x, is_root g x -> value (vl K n y) x = npow (fadd x c : mul_monoid K) h).
    { intros x R. unfold y. rewrite (npow_cong n g _ [c; f1] h Mg); try lia.
      - f_equal. cbn [value]. ring.
      - apply (eqp_cong K HK). apply (mk_eqp K n ltac:(lia) [c; f1]). cbn. lia.
      - apply root_div. auto. }
    unfold to_poly. change (proj1_sig y) with (vl K n y). rewrite (remove_ok K HK). cbn [bind].
    assert (N1 : normal ([f1] : list K)) by (intros _; cbn; apply (f_1_neq_0 K HK)).
    destruct (add_value_ok (trim (vl K n y)) [f1] (trim_normal K HK _) N1) as (s & Es & Ns & Vs). rewrite Es. cbn [bind].
    assert (Rs : forall x, is_root g x -> (is_root s x <-> npow (fadd x c : mul_monoid K) h = fopp f1)).
    { intros x R. unfold is_root. rewrite (value_eqp _ _ _ Vs), value_addp, (value_eqp _ _ x (trim_eqp K HK _)), Ey by auto. cbn [value].
      generalize (npow (fadd x c : mul_monoid K) h). intro w. change (fcar K) in w. split; intro Q.
      - change (@eq (fcar K) w (fopp f1)). transitivity (fsub (fadd w (fadd f1 (fmul x f0))) f1); [ring | rewrite Q; ring].
      - rewrite Q. ring. }
    destruct (gcd_ok s g Ns Ng Zg) as (d' & E' & Nd' & Zd' & D1' & D2' & D3'). rewrite E'. cbn [bind].
    pose proof (length_pos K d' Zd').
    assert (Rd : forall x, is_root g x -> (is_root d' x <-> npow (fadd x c : mul_monoid K) h = fopp f1)).
    { intros x R. rewrite <- Rs by auto. split; intro Q; [apply (root_divides d'); auto | ]. apply root_div. apply D3'; apply root_div; auto. }
    pose proof (divides_length d' g Nd' Ng Zg D2').
    destruct (Z.gtb_spec (poly_degree K d') 0) as [G1 | G1]; unfold poly_degree in G1.
    + destruct (Z.ltb_spec (poly_degree K d') (Z.of_nat n)) as [G2 | G2]; unfold poly_degree in G2; cbn [andb].
      * destruct (monic_other_ok g d' Nd' Zd') as (t & Et & Mt & T1 & T2). rewrite Et. cbn [bind]. exists t. split; auto. apply step_split; auto.
        -- exists (length d' - 1). split; auto. lia.
        -- eapply (div_trans K HK); eauto.
        -- intros x R. fold h. rewrite <- Rd by auto. split; apply root_divides; auto.
      * exists g. split; auto. apply step_same; auto. intros x z Rx Rz _. apply Rd; auto.
        apply (divides_mulp K HK) in D2'. destruct D2' as [u U].
        assert (Zu : trim u <> []) by (rewrite (trim_nil_iff K HK); intro Z; apply Zg; rewrite <- (trim_of_normal K HK g Ng); apply (trim_nil_iff K HK); rewrite U, Z; ring).
        assert (Lm : length g + 1 = length d' + length (trim u)) by (apply (mul_length K HK); auto; [apply (trim_normal K HK) | rewrite (trim_eqp K HK); auto]).
        assert (Lu : length (trim u) = 1) by lia. destruct (trim u) as [ | u0 [ | ? ?]] eqn:Eu; try discriminate Lu.
        assert (U0 : u0 <> f0) by (pose proof (trim_normal K HK u) as Nu; rewrite Eu in Nu; apply Nu; discriminate).
        unfold is_root in Rz. rewrite (value_eqp _ _ _ U), value_mulp, (value_eqp u [u0]) in Rz by (rewrite <- Eu; symmetry; apply (trim_eqp K HK)). cbn [value] in Rz.
        unfold is_root. replace (value d' z) with (fdiv (fmul (value d' z) (fadd u0 (fmul z f0))) u0) by (field; auto). rewrite Rz. field. auto.
    + cbn [andb]. exists g. split; auto. apply step_same; auto. intros x z Rx Rz Qx. exfalso. apply Rd in Qx; auto.
      apply root_div in Qx. apply divides_length in Qx; auto using lin_normal. cbn in Qx. lia.
Qed.
Lemma find_linear : forall src g, monic g 1 -> exists x, is_root g x /\ find_loop K (Z.of_nat q) src g = Ok (x, src) /\ forall y, is_root g y -> y = x.
Proof.
  intros src g [L M]. destruct g as [ | c [ | c1 [ | ? ?]]]; try discriminate L. cbn in M. subst c1. exists (fopp c). split; [unfold is_root; cbn [value]; ring | ].
  split; [destruct src; reflexivity | ]. intros y R. unfold is_root in R. cbn [value] in R.
  transitivity (fsub (fadd c (fmul y (fadd f1 (fmul y f0)))) c); [ring | rewrite R; ring].
Qed.
Lemma find_total : forall src g n, monic g n -> 0 < n ->
  (exists x src', find_loop K (Z.of_nat q) src g = Ok (x, src') /\ is_root g x) \/ find_loop K (Z.of_nat q) src g = OutOfFuel.
Proof.
  induction src as [ | c src IH]; intros g n Mg Hn.
  - destruct (Nat.eq_dec n 1) as [-> | N1]; [destruct (find_linear [] g Mg) as (x & R & E & _); left; eauto | ].
    right. cbn [find_loop]. destruct Mg as [L _]. unfold poly_degree. rewrite L. destruct (Z.eqb_spec (Z.of_nat (S n) - 1) 1); [lia | ]. reflexivity.
  - destruct (Nat.eq_dec n 1) as [-> | N1]; [destruct (find_linear (c :: src) g Mg) as (x & R & E & _); left; eauto | ].
    destruct (find_step c src g n Mg ltac:(lia)) as (g' & E & S). rewrite E. destruct S as [R -> | NR (m & Hm & Mm) D _ | NR -> _].
    + destruct (find_linear src (lin (fopp c))) as (x & R' & E' & U); [split; reflexivity | ]. left. exists x, src. split; auto.
      rewrite <- (U (fopp c)); auto. unfold is_root, lin. cbn [value]. ring.
    + destruct (IH g' m Mm ltac:(lia)) as [(x & src' & E' & R') | E']; auto. left. exists x, src'. split; auto. apply (root_divides g'); auto.
    + apply (IH g n); auto.
Qed.
Lemma find_all : forall src g n, monic g n -> 0 < n -> divides g (pXX q) -> (forall x, is_root g x -> In (fopp x) src) ->
  exists r, find_loop K (Z.of_nat q) src g = Ok r.
Proof.
  induction src as [ | c src IH]; intros g n Mg Hn D All.
  - destruct (split_root g (monic_nonconst g n Mg Hn) D) as [x R]. destruct (All x R).
  - destruct (Nat.eq_dec n 1) as [-> | N1]; [destruct (find_linear (c :: src) g Mg) as (x & R & E & _); eauto | ].
    assert (A' : ~ is_root g (fopp c) -> forall x, is_root g x -> In (fopp x) src).
    { intros NR x R. destruct (All x R) as [Q | Q]; auto. exfalso. apply NR. rewrite Q. replace (fopp (fopp x)) with x by ring. auto. }
    destruct (find_step c src g n Mg ltac:(lia)) as (g' & E & S). rewrite E. destruct S as [R -> | NR (m & Hm & Mm) D' _ | NR -> _].
    + destruct (find_linear src (lin (fopp c))) as (x & R' & E' & _); [split; reflexivity | ]. eauto.
    + apply (IH g' m); auto; [lia | eapply (div_trans K HK); eauto | ]. intros x R. apply A'; auto. apply (root_divides g'); auto.
    + apply (IH g n); auto.
Qed.
Lemma findroot_start : forall f n, monic f n -> 2 <= n ->
  (~ (exists x, is_root f x) /\ forall src, poly_findroot K (Z.of_nat q) src f = Ok None) \/
  exists g m, monic g m /\ 0 < m /\ divides g f /\ divides g (pXX q) /\ (forall x, is_root f x -> is_root g x) /\
    forall src, poly_findroot K (Z.of_nat q) src f = (r <- find_loop K (Z.of_nat q) src g ;; Ok (Some r)).
Proof.
  intros f n Mf Hn. assert (Lf : length f = S n) by apply Mf. assert (Nf := monic_normal K HK n f Mf ltac:(lia)).
  assert (Zf : f <> []) by (intro Z; rewrite Z in Lf; discriminate).
  destruct (xpow_ok n f q Mf Hn) as (v & E & C).
  destruct (gcd_ok (trim (vl K n v)) f (trim_normal K HK _) Nf Zf) as (d & Ed & Nd & Zd & Da & Db & Dm).
  destruct (monic_same_ok d Nd Zd) as (g & Eg & Mg & G1 & G2).
  assert (DX : divides d (pXX q)).
  { apply (cong_div K HK d (vl K n v)); [apply (div_cong K HK f); auto | ]. apply (div_eqp K HK (trim (vl K n v))); [apply (trim_eqp K HK) | auto]. }
  assert (RR : forall x, is_root f x -> is_root d x).
  { intros x R. apply root_div. apply root_div in R. apply Dm; auto. apply (div_eqp K HK (vl K n v)); [symmetry; apply (trim_eqp K HK) | ].
    apply (cong_div K HK (lin x) _ (pXX q)); [apply (div_cong K HK f); auto | ]. apply root_div. apply value_XX. }
  assert (ES : forall src, poly_findroot K (Z.of_nat q) src f = if (poly_degree K g =? 0)%Z then Ok None else (r <- find_loop K (Z.of_nat q) src g ;; Ok (Some r))).
  { intro src. unfold poly_findroot. assert (Dg : poly_degree K f = Z.of_nat n) by (unfold poly_degree; lia). rewrite Dg, Nat2Z.id.
    destruct (Z.leb_spec (Z.of_nat n) 1); [lia | ]. rewrite E. cbn [bind]. unfold to_poly. change (proj1_sig v) with (vl K n v). rewrite (remove_ok K HK). cbn [bind].
    rewrite Ed. cbn [bind]. rewrite Eg. cbn [bind]. reflexivity. }
  pose proof (length_pos K d Zd). assert (Lg : length g = length d) by (destruct Mg; lia).
  destruct (Z.eqb_spec (poly_degree K g) 0) as [Z | Z]; unfold poly_degree in Z.
  - left. split; [ | auto]. intros (x & R). apply RR, root_div in R. apply divides_length in R; auto using lin_normal. cbn in R. lia.
  - right. exists g, (length d - 1). split; auto. split; [lia | ]. split; [eapply (div_trans K HK); eauto | ]. split; [eapply (div_trans K HK); eauto | ].
    split; auto. intros x R. apply (root_divides d); auto.
Qed.
Theorem findroot_ok : forall f n, monic f n -> 2 <= n ->
  (forall src, poly_findroot K (Z.of_nat q) src f = Ok None \/ (exists x src', poly_findroot K (Z.of_nat q) src f = Ok (Some (x, src')) /\ is_root f x) \/ poly_findroot K (Z.of_nat q) src f = OutOfFuel) /\
  (forall src, poly_findroot K (Z.of_nat q) src f = Ok None <-> ~ exists x, is_root f x) /\
  (forall src, (forall x, In x src) -> poly_findroot K (Z.of_nat q) src f <> OutOfFuel).
Proof.
  intros f n Mf Hn. destruct (findroot_start f n Mf Hn) as [[N E] | (g & m & Mg & Hm & D1 & D2 & RR & E)].
  - split; [auto | ]. split; [intro src; rewrite E; tauto | ]. intros src _. rewrite E. discriminate.
  - assert (EX : exists x, is_root f x) by (destruct (split_root g (monic_nonconst g m Mg Hm) D2) as [x R]; exists x; apply (root_divides g); auto).
    split; [ | split]; intro src; rewrite E.
    + right. destruct (find_total src g m Mg Hm) as [(x & src' & Ex & R) | Ex]; rewrite Ex; cbn [bind]; auto. left. exists x, src'. split; auto. apply (root_divides g); auto.
    + split; [ | tauto]. intro Q. destruct (find_total src g m Mg Hm) as [(x & src' & Ex & R) | Ex]; rewrite Ex in Q; discriminate.
    + intro All. destruct (find_all src g m Mg Hm D2) as [r Er]; [auto | ]. rewrite Er. discriminate.
Qed.
(** the splitting step: one draw that separates the two roots of a quadratic *)
Theorem findroot_quadratic : forall f x1 x2 c src, monic f 2 -> is_root f x1 -> is_root f x2 -> x1 <> x2 ->
  (c = fopp x1 \/ (fadd x2 c <> f0 /\ npow (fadd x1 c : mul_monoid K) ((q - 1) / 2) = fopp f1 /\ npow (fadd x2 c : mul_monoid K) ((q - 1) / 2) <> fopp f1)) ->
  poly_findroot K (Z.of_nat q) (c :: src) f = Ok (Some (x1, src)).
Proof.
  intros f x1 x2 c src Mf R1 R2 Ne H. destruct (findroot_start f 2 Mf ltac:(lia)) as [[N _] | (g & m & Mg & Hm & D1 & D2 & RR & E)]; [exfalso; eauto | ].
  rewrite E. assert (Lf : length f = 3) by apply Mf. assert (Lg : length g = S m) by apply Mg.
  pose proof (divides_length g f (monic_normal K HK m g Mg Hm) (monic_normal K HK 2 f Mf ltac:(lia)) ltac:(intro Z; rewrite Z in Lf; discriminate) D1).
  assert (M2 : m = 2).
  { destruct (Nat.eq_dec m 1) as [-> | ]; [ | lia]. exfalso. destruct (find_linear [] g Mg) as (x & _ & _ & U). apply Ne. rewrite (U x1), (U x2); auto. }
  subst m. destruct (find_step c src g 2 Mg ltac:(lia)) as (g' & E' & S). rewrite E'.
  assert (F1 : forall x, fopp (fopp x) = (x : K)) by (intro; ring).
  destruct S as [R -> | NR (m & Hm' & Mm) D' U | NR -> U].
  - destruct (find_linear src (lin (fopp c))) as (x & R' & E'' & U); [split; reflexivity | ]. rewrite E''. cbn [bind]. do 3 f_equal.
    assert (X : fopp c = x) by (apply U; unfold is_root, lin; cbn [value]; ring). rewrite <- X. destruct H as [-> | (H1 & H2 & H3)]; auto.
    exfalso. assert (Q : x1 <> fopp c).
    { intro Q. rewrite Q in H2. replace (fadd (fopp c) c) with (f0 : K) in H2 by ring.
      destruct ((q - 1) / 2) as [ | h] eqn:Eh.
      - apply H3. rewrite <- H2. reflexivity.
      - cbn [npow mul_monoid mmul] in H2. apply (f_1_neq_0 K HK). transitivity (fopp (fopp f1) : K); [ring | ]. rewrite <- H2. ring. }
    assert (Q2 : x2 <> fopp c) by (intro Q2; apply H1; rewrite Q2; ring).
    (* three roots of a quadratic *)
    assert (W : forall y, is_root g y -> fmul (fsub y x1) (fsub y x2) = f0).
    { intros y Ry. assert (DD : eqp g (mulp K (lin x1) (lin x2))).
      { destruct (proj1 (divides_mulp K HK (lin x1) g) (proj1 (root_div x1 g) (RR x1 R1))) as [u Hu].
        assert (V2 : value g x2 = fmul (value (lin x1) x2) (value u x2)) by (rewrite (value_eqp _ _ _ Hu), value_mulp; auto).
        rewrite (RR x2 R2) in V2. assert (Vu : is_root u x2).
        { unfold is_root. unfold lin in V2. cbn [value] in V2. destruct (f_eq_dec K HK (value u x2) f0) as [ | Nu]; auto. exfalso. symmetry in V2. apply (f_mul_nz K HK) in V2; auto.
          intro Q3. apply Ne. transitivity (fsub x2 (fadd (fopp x1) (fmul x2 (fadd f1 (fmul x2 f0))))); [ring | rewrite Q3; ring]. }
        apply root_div, (divides_mulp K HK) in Vu. destruct Vu as [w Hw]. assert (Hg : eqp g (mulp K (mulp K (lin x1) (lin x2)) w)) by (rewrite Hu, Hw; ring).
        assert (M3 : monic (mulp K (lin x1) (lin x2)) 2) by (split; [reflexivity | cbn; ring]).
        assert (Zg : g <> []) by (intro Z0; rewrite Z0 in Lg; discriminate).
        assert (Ng := monic_normal K HK 2 g Mg ltac:(lia)). assert (N3 := monic_normal K HK 2 _ M3 ltac:(lia)).
        assert (Zw : trim w <> []) by (rewrite (trim_nil_iff K HK); intro Z; apply Zg; rewrite <- (trim_of_normal K HK g Ng); apply (trim_nil_iff K HK); rewrite Hg, Z; ring).
        assert (Lm : length g + 1 = length (mulp K (lin x1) (lin x2)) + length (trim w)).
        { apply (mul_length K HK); auto; [apply (trim_normal K HK) | discriminate | rewrite (trim_eqp K HK); auto]. }
        change (length (mulp K (lin x1) (lin x2))) with 3 in Lm. assert (Lw : length (trim w) = 1) by lia.
        destruct (trim w) as [ | w0 [ | ? ?]] eqn:Ew; try discriminate Lw. assert (Ew' : eqp w [w0]) by (rewrite <- Ew; symmetry; apply (trim_eqp K HK)).
        assert (W1 : w0 = f1).
        { assert (Hg2 : eqp g (scalp K w0 (mulp K (lin x1) (lin x2)))) by (rewrite (scalp_mulp K HK), Hg, Ew'; ring). destruct Mg as [_ M1]. rewrite Hg2, (coef_scalp K HK) in M1. destruct M3 as [_ M3]. rewrite M3 in M1. rewrite <- M1. ring. }
        rewrite Hg, Ew', W1. ring. }
      unfold is_root in Ry. rewrite (value_eqp _ _ _ DD), value_mulp in Ry. unfold lin in Ry. cbn [value] in Ry. rewrite <- Ry. ring. }
    specialize (W _ R). apply (f_mul_nz K HK) in W; auto; intro Q3; [apply Q | apply Q2].
    + transitivity (fsub (fopp c) (fsub (fopp c) x1)); [ring | rewrite Q3; ring].
    + transitivity (fsub (fopp c) (fsub (fopp c) x2)); [ring | rewrite Q3; ring].
  - assert (m = 1) by lia. subst m. destruct (find_linear src g' Mm) as (x & R' & E'' & U'). rewrite E''. cbn [bind]. do 3 f_equal. symmetry. apply U'.
    destruct H as [-> | (H1 & H2 & H3)]; [exfalso; apply NR; rewrite F1; auto | ]. apply U; auto.
  - exfalso. destruct H as [-> | (H1 & H2 & H3)]; [apply NR; rewrite F1; auto | ]. apply H3. apply (U x1 x2); auto.
Qed.
Variables (isprime : Z -> bool) (nextprime : Z -> Z).
Hypothesis Hip : forall m, (1 <= m)%Z -> isprime m = true <-> prime m.
Hypothesis Hnp : forall p, prime p -> (p < nextprime p)%Z /\ prime (nextprime p) /\ forall q, prime q -> (p < q)%Z -> (nextprime p <= q)%Z.

Theorem is_irred_ok : forall f n, monic f n -> 0 < n ->
  exists b, poly_is_irred K (Z.of_nat q) isprime nextprime f = Ok b /\ (b = true <-> irreducible f).
Proof.
  intros f n Mf Hn. assert (Lf : length f = S n) by apply Mf. unfold poly_is_irred.
  assert (Dg : poly_degree K f = Z.of_nat n) by (unfold poly_degree; lia). rewrite Dg, Nat2Z.id.
  destruct (Z.leb_spec (Z.of_nat n) 0); [lia | ]. destruct (Z.eqb_spec (Z.of_nat n) 1) as [E1 | E1].
  - exists true. split; auto. split; auto. intros _. apply (monic_irreducible_1 f). replace 1 with n by lia. auto.
  - assert (H2 : 2 <= n) by lia. destruct (trial_divide_cor isprime nextprime Hip Hnp (Z.of_nat n) None ltac:(lia)) as (fs & Ef & Pf & Ff).
    rewrite Nat2Z.id in Ef. rewrite Ef. cbn [bind].
    assert (F1 : Forall (fun fk : Z * Z => (2 <= fst fk /\ 1 <= snd fk)%Z /\ prime (fst fk)) fs).
    { eapply Forall_impl; [ | exact Ff]. intros [r k] (A1 & A2 & [A3 | (l & A3 & _)]); [ | discriminate]. auto. }
    assert (F2 : Forall (fun fk : Z * Z => (2 <= fst fk /\ 1 <= snd fk)%Z) fs) by (eapply Forall_impl; [ | exact F1]; intros ? [? ?]; auto).
    destruct (visit_ok (fun fac => common K f (q ^ (n / Z.to_nat fac))) (checkgcd K (Z.of_nat q) n f) fs) as (b & Eb & Bb).
    { intros [r k] I. cbn [fst]. assert (D := product_div fs r k I F2). rewrite Pf in D. assert (A := proj1 (Forall_forall _ _) F2 _ I). cbn [fst snd] in A.
      destruct D as [w D]. assert (0 < w)%Z by nia. apply checkgcd_ok; auto; [ | lia].
      assert (En : n = Z.to_nat w * Z.to_nat r) by (apply Nat2Z.inj; rewrite Nat2Z.inj_mul, !Z2Nat.id; lia).
      rewrite En at 2. rewrite Nat.div_mul by lia. rewrite Z2Nat.id by lia. lia. }
    rewrite Eb. cbn [bind].
    assert (BB : b = true <-> exists r, prime (Z.of_nat r) /\ Nat.divide r n /\ common K f (q ^ (n / r))).
    { rewrite Bb. split.
      - intros ([r k] & I & C). cbn [fst] in C. exists (Z.to_nat r). assert (A := proj1 (Forall_forall _ _) F1 _ I). cbn [fst snd] in A. rewrite Z2Nat.id by lia.
        split; [tauto | ]. split; auto. assert (D := product_div fs r k I F2). rewrite Pf in D. destruct D as [w D]. exists (Z.to_nat w).
        apply Nat2Z.inj. rewrite Nat2Z.inj_mul, !Z2Nat.id; try nia.
      - intros (r & Pr & [w D] & C). destruct (product_prime fs (Z.of_nat r) Pr) as [k I]; auto.
        { rewrite Pf. exists (Z.of_nat w). lia. }
        exists (Z.of_nat r, k). split; auto. cbn [fst]. rewrite Nat2Z.id. auto. }
    pose proof (rabin K HK p e Pp HO f n Mf Hn) as R. destruct b.
    + exists false. split; auto. split; [discriminate | ]. intro I. apply R in I. destruct BB as [(r & P1 & P2 & P3) _]; auto. exfalso. apply (proj2 I r P1 P2 P3).
    + rewrite <- Nat2Z.inj_pow. destruct (xpow_ok n f (q ^ n) Mf H2) as (v & E & C). rewrite E. cbn [bind]. eexists. split; [reflexivity | ].
      rewrite is0_ok, R. assert (DD : eqp (vl K n v) [] <-> divides f (pXX (q ^ n))).
      { rewrite <- (cong_0 K HK). split; intro Q.
        - rewrite <- C, Q. reflexivity.
        - apply (cong_unique K HK f n); auto; [rewrite vl_length; auto | cbn; lia | rewrite C; auto]. }
      rewrite DD. split; [intro D; split; auto | tauto]. intros r P1 P2 P3. assert (false = true) by (apply BB; eauto). discriminate.
Qed.
End Order.
End F.
