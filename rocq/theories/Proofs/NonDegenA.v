(** Types A and A1: the order of the curve, cofactor clearing, non-degeneracy. *)
From Coq Require Import ZArith Znumtheory List Bool Lia Ring Field Permutation.
From Verif.Base Require Import Outcome Algebra Slots.
From Verif.Spec Require Import FiniteField Quadratic Curve Tate Twist PairingValue.
From Verif.Proofs Require Import Frobenius PowFacts FieldFacts FieldChar QuadFacts LucasFacts CurveGroup CurveFacts Embed BilinearZ MillerPoly NonDegenerate CurveOrder Supersingular Twisted PairingAFacts PairingA1Facts.
Import ListNotations.
Local Open Scope Z_scope.

(** a multiple of the order *)
Section M.
Variable K : fld.
Hypothesis HK : fld_laws K.
Add Field KFnm : (fl_field K HK).
Variables a b : K.
Hypothesis HE : elliptic K a b.
Variables P R : point K.
Hypothesis OP : on_curve K a b P.
Variable d : nat.
Hypothesis TP : pmul K a d P = None.
Lemma shift_mul : forall k, pmul K a (d + k) P = pmul K a k P.
Proof. intros. rewrite (g_plus K HK a b HE), TP by auto. reflexivity. Qed.
Lemma miller_shift : forall k, miller K a (d + k) P R = fmul (miller K a d P R) (miller K a k P R).
Proof.
  induction k as [ | k IH]; [rewrite Nat.add_0_r; cbn [miller]; ring | ].
  rewrite Nat.add_succ_r. cbn [miller]. rewrite IH, shift_mul. ring.
Qed.
Lemma miller_multiple : forall m, miller K a (m * d) P R = npow (miller K a d P R : mul_monoid K) m.
Proof. induction m as [ | m IH]; [reflexivity | ]. cbn [Nat.mul]. rewrite miller_shift, IH. reflexivity. Qed.
End M.

Section A.
Variable K : fld.
Variables p n l : Z.
Hypothesis T : type_a1 K p n l.
Let HK := t1_field _ _ _ _ T.
Let Pp := t1_p _ _ _ _ T.
Let Hp := t1_order _ _ _ _ T.
Local Notation v := (fopp f1 : K).
Local Notation L := (Quad K v).
Local Notation onK := (on_curve K f1 f0).
Local Notation val := (type_a_value K p).
Let QB := p_big K p n l T.
Let HE := ell1 K p n l T.
Let VN : ~ is_square v := minus_one_nonsquare K HK p Pp Hp (t1_mod _ _ _ _ T).
Let OD : Z.odd p = true.
Proof. pose proof (t1_mod _ _ _ _ T) as M. rewrite (Z.div_mod p 4), M by lia. rewrite Z.odd_add, Z.odd_mul. reflexivity. Qed.
Let HL : fld_laws L := Quad_laws K HK v VN.
Theorem a1_curve_points : exists pts : list (point K), NoDup pts /\ (forall A, In A pts <-> onK A) /\ Z.of_nat (length pts) = p + 1.
Proof.
  pose proof Hp as Hp2; destruct Hp2 as (els & ND & AL & LE). exists (all_points K els). split; [apply (all_nodup K HK); auto | ]. split; [apply (all_in K HK); auto | ].
  apply (all_len K HK p OD els ND AL LE VN (proj1 HE)).
Qed.
Lemma pz_pos : forall k P, 0 <= k -> pzmul K f1 k P = pmul K f1 (Z.to_nat k) P. Proof. intros [ | k | k] P H; try reflexivity. lia. Qed.
Theorem a1_order_kills : forall Q, onK Q -> pzmul K f1 (p + 1) Q = None.
Proof.
  intros Q O. destruct a1_curve_points as (pts & ND & AL & LE). rewrite pz_pos by lia. rewrite <- LE, Nat2Z.id. apply (order_kills K HK f1 f0 HE pts ND AL Q O).
Qed.
Lemma l_pos' : 0 < l. Proof. pose proof (t1_n _ _ _ _ T). pose proof (t1_l _ _ _ _ T). nia. Qed.
Theorem a1_cleared : forall Q, onK Q -> torsion K f1 f0 n (pzmul K f1 l Q).
Proof.
  intros Q O. pose proof l_pos'. pose proof (t1_n _ _ _ _ T). split; rewrite !pz_pos by lia; [apply (g_mul_on K HK f1 f0 HE); auto | ].
  rewrite <- (g_times K HK f1 f0 HE) by auto. rewrite <- Z2Nat.inj_mul by lia. rewrite (t1_l _ _ _ _ T), <- pz_pos by lia. apply a1_order_kills. auto.
Qed.
Lemma least_order : forall N P, (0 < N)%nat -> pmul K f1 N P = None -> exists d, (0 < d)%nat /\ pmul K f1 d P = None /\ forall k, (0 < k < d)%nat -> pmul K f1 k P <> None.
Proof.
  intro N. induction N as [N IH] using lt_wf_ind. intros P HN E.
  destruct (existsb (fun k => match pmul K f1 k P with None => true | _ => false end) (seq 1 (N - 1))) eqn:EX.
  - apply existsb_exists in EX. destruct EX as (k & I & Ek). apply in_seq in I. apply (IH k); try lia. destruct (pmul K f1 k P); auto. discriminate Ek.
  - exists N. split; auto. split; auto. intros k Hk Ek.
    assert (F : existsb (fun k => match pmul K f1 k P with None => true | _ => false end) (seq 1 (N - 1)) = true).
    { apply existsb_exists. exists k. rewrite Ek. split; auto. apply in_seq. lia. }
    congruence.
Qed.
Lemma order_divides : forall P d N, onK P -> (0 < d)%nat -> pmul K f1 d P = None -> (forall k, (0 < k < d)%nat -> pmul K f1 k P <> None) -> pmul K f1 N P = None -> Nat.divide d N.
Proof.
  intros P d N O Hd E M EN. rewrite <- (g_mod K HK f1 f0 HE d N P O E) in EN. assert (Z : (N mod d = 0)%nat).
  { destruct (Nat.eq_dec (N mod d) 0); auto. exfalso. apply (M (N mod d)%nat); auto. pose proof (Nat.mod_upper_bound N d). lia. }
  apply Nat.mod_divide in Z; auto. lia.
Qed.
(** the value computed with a multiple of the order *)
Lemma value_multiple : forall d m P Q, 0 < d -> 0 < m -> d * m = n -> onK P -> pzmul K f1 d P = None -> val n P Q = val d P Q.
Proof.
  intros d m P Q Hd Hm E O TP. unfold type_a_value, tate.
  assert (TL : pmul L (low K v f1) (Z.to_nat d) (epoint (low K v) P) = None).
  { rewrite pz_pos in TP by lia. pose proof (e_pmul K L HK HL (low K v) (up_embedding K K HK (idh K) (idE K) v) f1 (proj1 HE) (Z.to_nat d) P) as X. rewrite TP in X. symmetry. exact X. }
  pose proof (e_on K L (low K v) (up_embedding K K HK (idh K) (idE K) v) f1 f0 P O) as OL.
  replace (Z.to_nat n) with (Z.to_nat m * Z.to_nat d)%nat by (rewrite <- Z2Nat.inj_mul by lia; f_equal; lia).
  assert (EL : elliptic L (low K v f1) (low K v f0)) by (exact (e_elliptic K L HK HL (low K v) (up_embedding K K HK (idh K) (idE K) v) f1 (proj1 HE) f0 HE)).
  rewrite (miller_multiple L HL _ _ EL _ _ OL (Z.to_nat d) TL).
  set (f := miller L (low K v f1) (Z.to_nat d) (epoint (low K v) P) (twist K v Q)).
  change (fpow (fpow f m) ((p * p - 1) / n) = fpow f ((p * p - 1) / d)).
  assert (DV : ((p * p - 1) / n = (p - 1) * l)%Z) by (symmetry; apply Z.div_unique_exact; pose proof (t1_n _ _ _ _ T); [lia | pose proof (t1_l _ _ _ _ T); nia]).
  assert (DV' : ((p * p - 1) / d = m * ((p - 1) * l))%Z) by (symmetry; apply Z.div_unique_exact; pose proof (t1_l _ _ _ _ T); [lia | nia]).
  rewrite DV, DV'. symmetry. apply (fpowM L HL); [lia | ]. pose proof l_pos'. nia.
Qed.
Lemma FCL : forall x : L, fpow x p = qconj K v x.
Proof.
  intro x. assert (Hp1 : has_order K (p ^ 1)) by (rewrite Z.pow_1_r; exact Hp).
  pose proof (frob K HK p 1 Pp ltac:(lia) ltac:(lia) Hp1 v VN x) as E. rewrite Z.pow_1_r in E. exact E.
Qed.
Lemma nondeg_exact : forall d P, 2 < d -> Z.odd d = true -> (d | p + 1) -> onK P -> P <> None -> exact_order K f1 d P ->
  exists S, onK S /\ val d P S <> f1.
Proof.
  intros d [[px py] | ] H2 HO HD OP NP EX; [ | congruence]. pose proof Hp as Hp2; destruct Hp2 as (els & ND & AL & LE).
  destruct (nondegenerate_points K K HK HK (idh K) (idE K) v VN f1 f0 HE p d H2 HO ltac:(lia) OD HD FCL px py OP EX (good_points K els)) as (S & I & V).
  - apply (good_nodup K HK); auto.
  - apply (good_len K HK p OD els ND AL LE VN (proj1 HE)).
  - intros x y I. rewrite (tw1 K HK), (tw0 K HK). apply (good_in K HK els AL x y I).
  - exists (Some S). split; [ | exact V]. destruct S as [x y]. apply (good_in K HK els AL x y I).
Qed.
Theorem a1_nondegenerate : forall P, torsion K f1 f0 n P -> P <> None -> exists S, onK S /\ val n P S <> f1.
Proof.
  intros P [O TP] NP. pose proof (t1_n _ _ _ _ T) as N2. rewrite pz_pos in TP by lia.
  destruct (least_order (Z.to_nat n) P ltac:(lia) TP) as (d & Hd & Ed & Md).
  destruct (order_divides P d (Z.to_nat n) O Hd Ed Md TP) as [m Em].
  assert (EZ : (Z.of_nat d * Z.of_nat m = n)%Z) by lia.
  assert (M0 : (0 < m)%nat) by (destruct m; lia).
  assert (OD' : Z.odd (Z.of_nat d) = true).
  { pose proof (t1_odd _ _ _ _ T) as X. rewrite <- EZ, Z.odd_mul in X. apply andb_prop in X. tauto. }
  assert (D1 : (d <> 1)%nat). { intros ->. apply NP. cbn [pmul] in Ed. rewrite <- Ed. symmetry. apply (add_0_r K). }
  destruct (nondeg_exact (Z.of_nat d) P) as (S & OS & V); auto.
  - destruct d as [ | [ | [ | d]]]; try lia. discriminate OD'.
  - exists (Z.of_nat m * l). rewrite <- (t1_l _ _ _ _ T), <- EZ. ring.
  - split; [rewrite pz_pos, Nat2Z.id by lia; auto | ]. intros k Hk. rewrite pz_pos by lia. apply Md. lia.
  - exists S. split; auto. rewrite (value_multiple (Z.of_nat d) (Z.of_nat m)); auto; try lia. rewrite pz_pos, Nat2Z.id by lia. auto.
Qed.
End A.
