(** The division polynomials of a point of order r about n = r, and the product
    of Miller's function at Q and at -Q: what is left of the Shipsey-Stange
    method when there is no denominator elimination (type E). *)
From Coq Require Import ZArith List Bool Lia Ring Field.
From Verif.Base Require Import Outcome Algebra Slots Gmp.
From Verif.Spec Require Import Curve Tate.
From Verif.Model Require Import Curve Miller EllNet.
From Verif.Proofs Require Import FieldFacts SlotFacts CurveGroup CurveFacts LineAlgebra TateFacts MillerFacts NetFacts NetLoop.

Section S.
Variable K : fld.
Hypothesis HK : fld_laws K.
Add Field KFnr : (fl_field K HK).
Local Notation "0" := f0. Local Notation "1" := f1.
Local Notation "x + y" := (fadd x y). Local Notation "x - y" := (fsub x y). Local Notation "x * y" := (fmul x y). Local Notation "- x" := (fopp x).
Local Notation "x / y" := (fdiv x y).
Variables (a b : K).
Hypothesis HE : elliptic K a b.
Let C2 : f2 K <> 0 := proj1 HE.
Variables x1 y1 : K.
Local Notation P := (Some (x1, y1)).
Hypothesis OP : on_curve K a b P.
Variable r : nat.
Hypothesis R5 : (5 <= r)%nat.
Local Notation Zr := (Z.of_nat r).
Hypothesis ORD : forall j, (0 < j < r)%nat -> pmul K a j P <> None.
Hypothesis TOR : pmul K a r P = None.
Local Notation T j := (pmul K a j P).
Local Notation an := (an K a x1 y1).
Local Notation xm := (xm K a x1 y1).
Local Notation A := (az K a x1 y1).

(** ** A(r - j) *)
Lemma xm_refl : forall j, (0 < j < r)%nat -> xm (r - j) = xm j.
Proof.
  intros j H. destruct (T_fin K HK a b HE x1 y1 OP r ORD j H) as (x & y & E & O & ->).
  destruct (T_fin K HK a b HE x1 y1 OP r ORD (r - j)%nat ltac:(lia)) as (x' & y' & E' & O' & ->).
  pose proof (T_plus K HK a b HE x1 y1 OP j (r - j)) as F. replace (j + (r - j))%nat with r in F by lia. rewrite TOR, E, E' in F.
  apply (infinite_sum K HK a b x y x' y'); auto.
Qed.
Definition gg : K := f2 K * y1 * an (r - 1) / an (r - 2).
Fixpoint gp (n : nat) : K := match n with O => 1 | S m => gp m * gg end.
Lemma nz : forall n, (0 < n < r)%nat -> an n <> 0. Proof. exact (an_nz K HK a b HE x1 y1 OP r R5 ORD). Qed.
Lemma yy : f2 K * y1 <> 0. Proof. exact (yy_nz K HK a b HE x1 y1 r R5 ORD). Qed.
Lemma gg_nz : gg <> 0.
Proof. unfold gg. apply (div_nz K HK); [apply (f_mul_nz K HK); [apply yy | apply nz; lia] | apply nz; lia]. Qed.
Lemma gp_nz : forall n, gp n <> 0.
Proof. induction n; cbn [gp]; [apply (f_1_neq_0 K HK) | apply (f_mul_nz K HK); auto using gg_nz]. Qed.
Lemma an_refl : forall j, (1 <= j)%nat -> (j < r)%nat -> an (r - j) * gp (j - 1) = an (r - 1) * an j.
Proof.
  intros j. induction j as [j IH] using lt_wf_ind. intros H1 H2.
  destruct (Nat.eq_dec j 1) as [-> | N1]; [cbn [gp Nat.sub]; rewrite an_1; ring | ].
  destruct (Nat.eq_dec j 2) as [-> | N2].
  { cbn [gp Nat.sub]. rewrite an_2. unfold gg. pose proof (nz (r - 2) ltac:(lia)). field. auto. }
  assert (I1 := IH (j - 1)%nat ltac:(lia) ltac:(lia) ltac:(lia)). assert (I2 := IH (j - 2)%nat ltac:(lia) ltac:(lia) ltac:(lia)).
  assert (E1 := an_rec K HK a b HE x1 y1 OP r R5 ORD (j - 1)%nat ltac:(lia)).
  assert (E2 := an_rec K HK a b HE x1 y1 OP r R5 ORD (r - (j - 1))%nat ltac:(lia)).
  rewrite xm_refl in E2 by lia.
  replace (j - 1 + 1)%nat with j in E1 by lia. replace (j - 1 - 1)%nat with (j - 2)%nat in E1 by lia.
  replace (r - (j - 1) + 1)%nat with (r - (j - 2))%nat in E2 by lia. replace (r - (j - 1) - 1)%nat with (r - j)%nat in E2 by lia.
  assert (G1 : gp (j - 1) = gp (j - 1 - 1) * gg). { replace (j - 1)%nat with (S (j - 1 - 1)) at 1 by lia. reflexivity. }
  assert (G2 : gp (j - 1 - 1) = gp (j - 2 - 1) * gg). { replace (j - 1 - 1)%nat with (S (j - 2 - 1)) at 1 by lia. reflexivity. }
  pose proof (nz (r - 1) ltac:(lia)) as NE. pose proof (nz (j - 2) ltac:(lia)) as N3. pose proof (gp_nz (j - 2 - 1)) as NG.
  apply (f_cancel K HK (an (r - 1) * an (j - 2))). { apply (f_mul_nz K HK); auto. }
  rewrite <- I2 at 1.
  transitivity (an (r - (j - 2)) * an (r - j) * (gp (j - 1 - 1) * gp (j - 1 - 1))); [rewrite G1, G2; ring | ].
  rewrite E2. transitivity (an (r - (j - 1)) * gp (j - 1 - 1) * (an (r - (j - 1)) * gp (j - 1 - 1)) * (x1 - xm (j - 1))); [ring | ].
  rewrite I1. transitivity (an (r - 1) * an (r - 1) * (an (j - 1) * an (j - 1) * (x1 - xm (j - 1)))); [ring | ]. rewrite <- E1. ring.
Qed.
Lemma an_refl' : forall j, (j <= r)%nat -> an (r - j) * gp j = an (r - 1) * gg * an j.
Proof.
  intros j H. destruct j as [ | j].
  - rewrite Nat.sub_0_r, (an_last K HK a b HE x1 y1 OP r R5 ORD TOR), an_0. ring.
  - destruct (Nat.eq_dec (S j) r) as [E | N].
    + rewrite E, Nat.sub_diag, (an_last K HK a b HE x1 y1 OP r R5 ORD TOR), an_0. ring.
    + pose proof (an_refl (S j) ltac:(lia) ltac:(lia)) as F. replace (S j - 1)%nat with j in F by lia. cbn [gp].
      transitivity (an (r - S j) * gp j * gg); [ring | ]. rewrite F. ring.
Qed.
Local Notation nc := (net_const K a x1 y1 r).
Lemma nc_gg : nc = gg * gg * an (r - 1). Proof. reflexivity. Qed.
Variable C : K.
Hypothesis HC : C * (f2 K * y1) = 1.
(** the value of c_1 after the last step: k = (r - 1) / 2 *)
Lemma c1_last : forall k, r = (2 * k + 1)%nat ->
  (an (k + 1) * an (k + 3) * (an k * an k) - an (k - 1) * an (k + 1) * (an (k + 2) * an (k + 2))) * C = - nc.
Proof.
  intros k Ek. assert (K2 : (2 <= k)%nat) by lia.
  set (e := an (r - 1)). set (g := gg). set (t := gp (k - 2)). set (u := an (k + 1)). set (z := an (k + 3)). set (w := an (k + 2)).
  set (s := an (k - 2)). set (p := an (k - 1)). set (c := an k).
  assert (NT : t <> 0) by apply gp_nz. assert (NG : g <> 0) by apply gg_nz.
  assert (G1 : gp (k - 1) = t * g). { replace (k - 1)%nat with (S (k - 2)) by lia. reflexivity. }
  assert (G2 : gp k = t * g * g). { replace k with (S (k - 1)) by lia. cbn [gp]. rewrite G1. reflexivity. }
  assert (G3 : gp (k + 1) = t * g * g * g). { replace (k + 1)%nat with (S k) by lia. cbn [gp]. rewrite G2. reflexivity. }
  assert (Hz : z * t = e * g * s). { pose proof (an_refl' (k - 2) ltac:(lia)) as F. replace (r - (k - 2))%nat with (k + 3)%nat in F by lia. exact F. }
  assert (Hw : w * t = e * p). { apply (f_cancel K HK g); auto. pose proof (an_refl' (k - 1) ltac:(lia)) as F. replace (r - (k - 1))%nat with (k + 2)%nat in F by lia.
    rewrite G1 in F. fold w e p g in F. transitivity (w * (t * g)); [ring | ]. rewrite F. ring. }
  assert (Hu : u * t * g = e * c). { apply (f_cancel K HK g); auto. pose proof (an_refl' k ltac:(lia)) as F. replace (r - k)%nat with (k + 1)%nat in F by lia.
    rewrite G2 in F. fold u e c g in F. transitivity (u * (t * g * g)); [ring | ]. rewrite F. ring. }
  assert (Hc : c * t * (g * g) = e * u). { apply (f_cancel K HK g); auto. pose proof (an_refl' (k + 1) ltac:(lia)) as F. replace (r - (k + 1))%nat with k in F by lia.
    rewrite G3 in F. fold u e c g in F. transitivity (c * (t * g * g * g)); [ring | ]. rewrite F. ring. }
  assert (M : e = (w * c * (p * p) - u * u * (c * s)) * C).
  { pose proof (even_term K HK a b HE x1 y1 OP r R5 ORD C HC (Z.of_nat k) ltac:(lia)) as F.
    replace (2 * Z.of_nat k)%Z with (Z.of_nat (r - 1)) in F by lia. replace (Z.of_nat k + 2)%Z with (Z.of_nat (k + 2)) in F by lia.
    replace (Z.of_nat k - 1)%Z with (Z.of_nat (k - 1)) in F by lia. replace (Z.of_nat k + 1)%Z with (Z.of_nat (k + 1)) in F by lia.
    replace (Z.of_nat k - 2)%Z with (Z.of_nat (k - 2)) in F by lia. rewrite !(az_nat K a x1 y1 r R5) in F. exact F. }
  rewrite nc_gg. fold e g. rewrite M at 1.
  transitivity ((- (g * g * (w * c * (p * p) - u * u * (c * s)))) * C); [ | ring]. f_equal.
  apply (f_cancel K HK (t * t)). { apply (f_mul_nz K HK); auto. }
  transitivity (u * ((z * t) * t * (c * c) - p * ((w * t) * (w * t)))); [ring | ]. rewrite Hz, Hw.
  transitivity (e * u * (g * s * t * (c * c) - e * p * p * p)); [ring | ]. rewrite <- Hc.
  transitivity (- (g * t * c * (g * (w * t) * (p * p) - u * (u * t * g) * s))); [ | ring]. rewrite Hw, Hu.
  transitivity (- (g * t * c * (g * e * p * (p * p) - e * u * c * s))); [ | ring]. rewrite <- Hc. ring.
Qed.

(** ** The loop *)
Section Loop.
Variable L : fld.
Variable scal : K -> L -> L.
Variable mulA : L -> L.
Variable B : L.
Local Notation cinv := (cinv K a x1 y1 r).
Lemma loop_c1 : Z.odd Zr = true -> forall m c d, (m <= start_bit Zr)%nat -> cinv (Z.of_nat (kk Zr (S m))) c ->
  c1 (fst (net_loop K Zr L scal mulA B m C c d)) = - nc.
Proof.
  intros OD. assert (R2 : (2 < Zr)%Z) by lia.
  assert (ST : forall m c, (m <= start_bit Zr)%nat -> cinv (Z.of_nat (kk Zr (S m))) c -> cinv (Z.of_nat (kk Zr m)) (c_step K (mpz_tstbit Zr (Z.of_nat m)) C (keep K c) (rest K c))).
  { intros m c M Hc. change (mpz_tstbit Zr (Z.of_nat m)) with (Z.testbit Zr (Z.of_nat m)).
    assert (E : Z.of_nat (kk Zr m) = (2 * Z.of_nat (kk Zr (S m)) + bitz (Z.testbit Zr (Z.of_nat m)))%Z).
    { rewrite (kk_step Zr R2 m). unfold bitz. destruct (Z.testbit Zr (Z.of_nat m)); lia. }
    pose proof (kk_pos Zr R2 m M) as KP.
    assert (KL : (Z.of_nat (kk Zr m) <= Zr)%Z). { unfold kk. rewrite Z2Nat.id by (apply Z.div_pos; [lia | apply Z.pow_pos_nonneg; lia]). apply Z.div_le_upper_bound; [apply Z.pow_pos_nonneg; lia | ].
      assert (0 < 2 ^ Z.of_nat m)%Z by (apply Z.pow_pos_nonneg; lia). nia. }
    rewrite E in *. apply (c_step_inv K HK a b HE x1 y1 OP r R5 ORD C HC); auto; lia. }
  induction m as [ | m IH]; intros c d M Hc; cbn [net_loop].
  - cbn [fst]. assert (BB : mpz_tstbit Zr (Z.of_nat 0) = true). { change (mpz_tstbit Zr (Z.of_nat 0)) with (Z.testbit Zr 0). rewrite Z.bit0_odd. auto. }
    rewrite BB. cbn [c_step c_double_add c1 keep t2 s0 t0 s2].
    set (k := kk Zr 1) in *. assert (Ek : r = (2 * k + 1)%nat).
    { pose proof (kk_step Zr R2 0) as F. rewrite kk_0 in F. change (Z.testbit Zr (Z.of_nat 0)) with (mpz_tstbit Zr (Z.of_nat 0)) in F. rewrite BB in F. fold k in F. lia. }
    destruct (cinv_get _ _ _ _ _ R5 _ _ Hc) as (_ & _ & E3 & E4 & E5 & E6 & E7 & _).
    destruct E3 as [E3 | ]; [ | lia]. destruct E4 as [E4 | ]; [ | lia]. destruct E5 as [E5 | ]; [ | lia]. destruct E6 as [E6 | ]; [ | lia]. destruct E7 as [E7 | ]; [ | lia].
    rewrite E3, E4, E5, E6, E7. rewrite <- (c1_last k Ek).
    replace (Z.of_nat k + 3)%Z with (Z.of_nat (k + 3)) by lia. replace (Z.of_nat k + 2)%Z with (Z.of_nat (k + 2)) by lia. replace (Z.of_nat k - 1)%Z with (Z.of_nat (k - 1)) by lia.
    replace (Z.of_nat k + 1)%Z with (Z.of_nat (k + 1)) by lia. rewrite !(az_nat K a x1 y1 r R5). reflexivity.
  - apply IH; [lia | ]. apply ST; auto.
Qed.
End Loop.

(** ** f(Q) f(-Q) *)
Variables xq yq : K.
Hypothesis OQ : on_curve K a b (Some (xq, yq)).
Hypothesis QN : forall j, T j <> Some (xq, yq).
Local Notation Q := (Some (xq, yq)).
Local Notation R := (Some (xq, - yq)).
Fixpoint xp (n : nat) : K := match n with O => 1 | S m => xp m * (xq - x1) end.
Local Notation mil n := (miller K a n P).
Lemma off : forall j, (0 < j < r)%nat -> xq - xm j <> 0.
Proof. intros j H F. apply (off_q K HK a b HE x1 y1 OP r R5 ORD TOR xq yq OQ QN j H). symmetry. apply (f_sub_0 K HK). auto. Qed.
Lemma pair_step : forall n, (0 < n)%nat -> (n + 1 < r)%nat ->
  miller_step K a (T n) P Q * miller_step K a (T n) P R * (xq - xm (n + 1)) = - ((xq - xm n) * (xq - x1)).
Proof.
  intros n H1 H2. destruct (T_fin K HK a b HE x1 y1 OP r ORD n ltac:(lia)) as (x & y & E & O & EX).
  destruct (T_fin K HK a b HE x1 y1 OP r ORD (n + 1)%nat ltac:(lia)) as (x' & y' & E' & O' & EX').
  assert (SM' : padd K a (Some (x, y)) P = Some (x', y')). { rewrite <- E, <- E'. replace (n + 1)%nat with (S n) by lia. symmetry. apply (T_S K HK a x1 y1). }
  pose proof (off (n + 1) ltac:(lia)) as NO. rewrite EX' in *. rewrite EX, E.
  assert (LN := line_ex K HK a b HE x y x1 y1 x' y' O OP SM').
  set (l := slope K a x y x1 y1) in *. set (m := y - l * x) in *.
  rewrite !(step_line K HK a b HE x y x1 y1 x' y' l m) by auto.
  pose proof (line_norm K HK a b _ _ _ _ _ _ _ _ xq LN) as NM. cbn [on_curve] in OQ. unfold rhs in OQ.
  assert (EN : (yq - l * xq - m) * (- yq - l * xq - m) = - ((xq - x) * (xq - x1) * (xq - x'))).
  { rewrite <- NM. transitivity (- (yq * yq) + (l * xq + m) * (l * xq + m)); [ring | ]. rewrite OQ. unfold cubic. ring. }
  transitivity ((yq - l * xq - m) * (- yq - l * xq - m) / (xq - x')); [field; auto | ]. rewrite EN. field. auto.
Qed.
Lemma mil_pair : forall n, (1 <= n)%nat -> (n < r)%nat -> exists s, (s = 1 \/ s = - (1)) /\ mil n Q * mil n R * (xq - xm n) = s * xp n.
Proof.
  intros n. induction n as [ | n IH]; intros H1 H2; [lia | ]. destruct (Nat.eq_dec n 0) as [-> | N].
  - exists 1. split; auto. cbn [miller xp pmul miller_step]. replace (xm 1) with x1 by reflexivity. ring.
  - destruct IH as (s & Hs & IH); try lia. exists (- s). split; [destruct Hs as [-> | ->]; [right | left]; ring | ].
    cbn [miller xp]. pose proof (pair_step n ltac:(lia) ltac:(lia)) as F. replace (n + 1)%nat with (S n) in F by lia.
    transitivity (mil n Q * mil n R * (miller_step K a (T n) P Q * miller_step K a (T n) P R * (xq - xm (S n)))); [ring | ]. rewrite F.
    transitivity (- (mil n Q * mil n R * (xq - xm n)) * (xq - x1)); [ring | ]. rewrite IH. ring.
Qed.
Lemma mil_last : forall y, mil r (Some (xq, y)) = mil (r - 1)%nat (Some (xq, y)) * (xq - x1).
Proof.
  intros y. replace r with (S (r - 1)) at 1 by lia. cbn [miller]. f_equal. rewrite (T_last K HK a b HE x1 y1 OP r R5 ORD TOR). unfold miller_step.
  replace (padd K a (Some (x1, - y1)) P) with (None : point K); [reflexivity | ]. symmetry. rewrite (add_comm K HK a). apply (add_neg_r K HK a C2).
Qed.
Theorem mil_product : exists s, (s = 1 \/ s = - (1)) /\ mil r Q * mil r R = s * xp r.
Proof.
  destruct (mil_pair (r - 1) ltac:(lia) ltac:(lia)) as (s & Hs & E). exists s. split; auto. rewrite !mil_last.
  rewrite (xm_last K HK a b HE x1 y1 OP r R5 ORD TOR) in E. replace r with (S (r - 1)) at 3 by lia. cbn [xp].
  transitivity (s * xp (r - 1) * (xq - x1)); [rewrite <- E | ]; ring.
Qed.
Lemma xp_npow : forall n, xp n = npow (xq - x1 : mcar (mul_monoid K)) n.
Proof. induction n; cbn [xp npow]; auto. rewrite IHn. cbn. ring. Qed.
(** The quotient the code forms is f(Q) up to a sign and an r-th power. *)
Theorem net_quotient : exists s, (s = 1 \/ s = - (1)) /\
  bz K a x1 y1 r xq yq (Zr + 1) * finv (- nc) * npow (xq - x1 : mcar (mul_monoid K)) r = s * mil r Q.
Proof.
  destruct mil_product as (s & Hs & E). destruct (net_miller K HK a b HE x1 y1 OP r R5 ORD TOR xq yq OQ QN) as (s' & Hs' & E').
  pose proof (net_const_nz K HK a b HE x1 y1 OP r R5 ORD) as N.
  rewrite <- xp_npow. set (w := bz K a x1 y1 r xq yq (Zr + 1)) in *. set (m := mil r R) in *. set (M := mil r Q) in *. set (c := nc) in *. set (X := xp r) in *. clearbody w m M c X.
  exists (- (s * s')). split.
  { destruct Hs as [-> | ->], Hs' as [-> | ->]; [right | left | left | right]; ring. }
  assert (SS : s * s = 1) by (destruct Hs as [-> | ->]; ring).
  assert (NC : - c <> 0) by (apply (f_opp_nz K HK); auto).
  transitivity (w * finv (- c) * (s * s * X)); [rewrite SS; ring | ]. transitivity (s * (w * finv (- c)) * (s * X)); [ring | ]. rewrite <- E.
  transitivity (s * M * finv (- c) * (w * m)); [ring | ]. rewrite E'.
  transitivity (- (s * s' * M) * (finv (- c) * - c)); [ring | ].
  rewrite (Finv_l (fl_field K HK)) by auto. ring.
Qed.
End S.
