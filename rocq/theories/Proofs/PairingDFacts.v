(** Type D and G pairings compute the reduced Tate pairing. *)
From Coq Require Import ZArith List Bool Lia Ring Field Znumtheory.
From Verif.Base Require Import Outcome Array Algebra Slots Gmp.
From Verif.Spec Require Import Curve Tate Quadratic Twist FiniteField Polynomials Extension PairingValue PairingValueD.
From Verif.Model Require Import GenericPow Curve Lucas Pairing PairingA Miller PairingD.
From Verif.Proofs Require Import PowFacts FieldFacts SlotFacts QuadFacts CurveGroup CurveFacts LineAlgebra TateFacts Bilinear Embed Frobenius
  Twisted LucasFacts FieldChar ArrayFacts CurveBatch PairingABatch PairingAFacts PairingAApi MillerFacts TwistedValue ExtFacts PolymodFacts ExtFrobenius DFinal.
From Verif.Model Require Import Pairing.
Import ListNotations.

Section Lines.
Variable K : fld.
Hypothesis HK : fld_laws K.
Variable a4 : K.
Hypothesis C2 : f2 K <> f0.
Add Field KFdl : (fl_field K HK).
Local Notation "0" := f0. Local Notation "1" := f1.
Local Notation "x + y" := (fadd x y). Local Notation "x - y" := (fsub x y). Local Notation "x * y" := (fmul x y). Local Notation "- x" := (fopp x).
Local Notation "x / y" := (fdiv x y).
Lemma fofz3 : forall x : K, fofz 3 * x = x + (x + x).
Proof. intros. assert (E : (fofz 3 : K) = 1 + 1 + 1) by (change 3%Z with (1 + 1 + 1)%Z; rewrite !(fofz_add K HK), (fofz_1 K); reflexivity). rewrite E. ring. Qed.
Lemma d_tangent_same : forall x y, d_tangent_pp K a4 x y = d_tangent K a4 x y.
Proof. intros. unfold d_tangent_pp, d_tangent. cbv zeta. rewrite fofz3. reflexivity. Qed.
Lemma d_tan : forall x y, y <> 0 -> is_line K a4 (Some (x, y)) (Some (x, y)) (d_tangent K a4 x y).
Proof.
  intros x y N. unfold is_line, d_tangent, slope. cbv zeta. rewrite (feqb_refl K HK), fofz3.
  assert (E : y + y = f2 K * y) by (unfold f2; ring). assert (N2 : f2 K * y <> 0) by (apply (f_mul_nz K HK); auto).
  rewrite E. split; [auto | ]. unfold f3. split; field; repeat split; auto.
Qed.
Lemma d_lin : forall x1 y1 x2 y2, x1 <> x2 -> is_line K a4 (Some (x1, y1)) (Some (x2, y2)) (d_line K x1 y1 x2 y2).
Proof.
  intros x1 y1 x2 y2 N. unfold is_line, d_line, slope. cbv zeta. rewrite (feqb_false K HK) by auto.
  assert (N2 : x2 - x1 <> 0) by (intro E; apply N; symmetry; apply (f_sub_0 K HK); auto).
  split; auto. split; field; auto.
Qed.
End Lines.

Section Pp.
Variables (K : fld) (n : nat) (m : list K).
Hypothesis HK : fld_laws K.
Variable nqr : Ext K n m.
Variable a4 : K.
Variable r : Z.
Local Notation M := (Ext K n m).
Local Notation bits := (miller_bits K (Fqk K n m nqr) (M * M) a4 (d_tangent K a4) (d_line K) (d_miller_evalfn K n m nqr) r).
(** number of ones among the bits 1 .. k of r *)
Fixpoint nb (k : nat) : nat := match k with O => 0 | S k' => nb k' + (if mpz_tstbit r (Z.of_nat k) then 1 else 0) end.
Lemma d_pp_agree : forall k P i tab V Q0 g0 g', bits k P Q0 g0 V = Ok g' -> (i + k + 1 + nb k <= length tab)%nat ->
  exists tab', d_pp_loop K a4 r k P i tab V = Ok tab' /\ length tab' = length tab /\ (forall j, (j < i)%nat -> nth_error tab' j = nth_error tab j) /\
    (forall j, (i <= j < i + k + 1 + nb k)%nat -> exists b, nth_error tab' j = Some (Some b)) /\
    (forall Q f, bits k P Q f V = d_pp_eval K n m nqr r k i tab' Q f).
Proof.
  induction k; intros P i tab V Q0 g0 g' E L; cbn [miller_bits d_pp_loop d_pp_eval nb] in *; unfold do_tangent, store_abc in *.
  - destruct (coords K V) as [[vx vy] | | | ] eqn:EC; cbn [bind] in *; try discriminate.
    destruct (put_ok tab i (Some (d_tangent_pp K a4 vx vy)) ltac:(lia)) as (c1 & -> & L1 & H1 & H2). cbn [bind]. exists c1.
    split; [reflexivity | ]. split; [lia | ]. split; [intros j Hj; apply H2; lia | ]. split.
    + intros j Hj. replace j with i by lia. rewrite H1. eauto.
    + intros Q f. unfold get_coeff, get. rewrite H1. cbn [bind]. rewrite (d_tangent_same K HK). reflexivity.
  - destruct (coords K V) as [[vx vy] | | | ] eqn:EC; cbn [bind] in *; try discriminate.
    destruct (double_value K a4 V) as [V2 | | | ] eqn:ED; cbn [bind] in *; try discriminate.
    destruct (mpz_tstbit r (Z.of_nat (S k))) eqn:TB.
    + unfold do_line in *. destruct (coords K V2) as [[wx wy] | | | ] eqn:EC2; cbn [bind] in *; try discriminate.
      destruct (coords K P) as [[px py] | | | ] eqn:ECP; cbn [bind] in *; try discriminate.
      destruct (mul_value K a4 V2 P) as [V3 | | | ] eqn:EM; cbn [bind] in *; try discriminate.
      destruct (put_ok tab i (Some (d_tangent_pp K a4 vx vy)) ltac:(lia)) as (c1 & -> & L1 & H1 & H2). cbn [bind].
      destruct (put_ok c1 (S i) (Some (d_line K wx wy px py)) ltac:(lia)) as (c2 & -> & L2 & H3 & H4). cbn [bind].
      destruct (IHk P (S (S i)) c2 V3 _ _ _ E ltac:(lia)) as (c3 & -> & L3 & H5 & H6 & H7). exists c3. split; [reflexivity | ]. split; [lia | ]. split; [ | split].
      * intros j Hj. rewrite H5, H4, H2 by lia. auto.
      * intros j Hj. destruct (Nat.eq_dec j i) as [-> | N1]; [rewrite H5, H4, H1 by lia; eauto | ].
        destruct (Nat.eq_dec j (S i)) as [-> | N2]; [rewrite H5, H3 by lia; eauto | ]. apply H6. lia.
      * intros Q f. unfold get_coeff, get. rewrite (H5 i), (H4 i), H1, (H5 (S i)), H3 by lia. cbn [bind]. rewrite H7, (d_tangent_same K HK). reflexivity.
    + destruct (put_ok tab i (Some (d_tangent_pp K a4 vx vy)) ltac:(lia)) as (c1 & -> & L1 & H1 & H2). cbn [bind] in *.
      destruct (IHk P (S i) c1 V2 _ _ _ E ltac:(lia)) as (c3 & -> & L3 & H5 & H6 & H7). exists c3. split; [reflexivity | ]. split; [lia | ]. split; [ | split].
      * intros j Hj. rewrite H5, H2 by lia. auto.
      * intros j Hj. destruct (Nat.eq_dec j i) as [-> | N1]; [rewrite H5, H1 by lia; eauto | ]. apply H6. lia.
      * intros Q f. unfold get_coeff, get. rewrite (H5 i), H1 by lia. cbn [bind]. rewrite H7, (d_tangent_same K HK). reflexivity.
Qed.
(** without room for everything: undefined *)
Lemma put_ub : forall {A} (l : list A) i x, (length l <= i)%nat -> put l i x = UB.
Proof. intros A l i x H. unfold put. destruct (Nat.ltb_spec i (length l)); [lia | reflexivity]. Qed.
Lemma put_len : forall {A} (l : list A) i x l', put l i x = Ok l' -> length l' = length l.
Proof. intros A l i x l' E. destruct (Nat.lt_ge_cases i (length l)) as [H | H]; [destruct (put_ok l i x H) as (l2 & E2 & HL & _); congruence | rewrite put_ub in E by auto; discriminate]. Qed.
Lemma d_pp_over : forall k P i tab V Q0 g0 g', bits k P Q0 g0 V = Ok g' -> (length tab < i + k + 1 + nb k)%nat -> d_pp_loop K a4 r k P i tab V = UB.
Proof.
  induction k; intros P i tab V Q0 g0 g' E L; cbn [miller_bits d_pp_loop nb] in *; unfold do_tangent, store_abc in *.
  - destruct (coords K V) as [[vx vy] | | | ] eqn:EC; cbn [bind] in *; try discriminate. rewrite put_ub by lia. reflexivity.
  - destruct (coords K V) as [[vx vy] | | | ] eqn:EC; cbn [bind] in *; try discriminate.
    destruct (double_value K a4 V) as [V2 | | | ] eqn:ED; cbn [bind] in *; try discriminate.
    destruct (Nat.lt_ge_cases i (length tab)) as [LI | LI]; [ | rewrite put_ub by lia; reflexivity].
    destruct (put_ok tab i (Some (d_tangent_pp K a4 vx vy)) LI) as (c1 & -> & L1 & _). cbn [bind].
    destruct (mpz_tstbit r (Z.of_nat (S k))) eqn:TB.
    + unfold do_line in *. destruct (coords K V2) as [[wx wy] | | | ] eqn:EC2; cbn [bind] in *; try discriminate.
      destruct (coords K P) as [[px py] | | | ] eqn:ECP; cbn [bind] in *; try discriminate.
      destruct (mul_value K a4 V2 P) as [V3 | | | ] eqn:EM; cbn [bind] in *; try discriminate.
      destruct (Nat.lt_ge_cases (S i) (length c1)) as [LS | LS]; [ | rewrite put_ub by lia; reflexivity].
      destruct (put_ok c1 (S i) (Some (d_line K wx wy px py)) LS) as (c2 & -> & L2 & _). cbn [bind].
      eapply IHk; [exact E | lia].
    + cbn [bind] in *. eapply IHk; [exact E | lia].
Qed.
Lemma d_clear_ok : forall k i tab, (forall j, (i <= j < i + k)%nat -> exists b, nth_error tab j = Some (Some b)) -> d_pp_clear K k i tab = Ok tt.
Proof.
  induction k; intros i tab H; cbn [d_pp_clear]; auto. unfold get_coeff, get. destruct (H i ltac:(lia)) as (b & ->). cbn [bind]. apply IHk. intros j Hj. apply H. lia.
Qed.
Lemma nb_le : forall k, (nb k <= k)%nat. Proof. induction k; cbn [nb]; [lia | ]. destruct (mpz_tstbit _ _); lia. Qed.
Lemma nb_lt : forall k, (exists i, (1 <= i <= k)%nat /\ Z.testbit r (Z.of_nat i) = false) <-> (nb k < k)%nat.
Proof.
  induction k; cbn [nb]; [split; [intros (i & H & _); lia | lia] | ]. pose proof (nb_le k). unfold mpz_tstbit. split.
  - intros (i & H1 & H2). destruct (Nat.eq_dec i (S k)) as [-> | N]; [rewrite H2; lia | ].
    assert (nb k < k)%nat by (apply IHk; exists i; split; [lia | auto]). destruct (Z.testbit r (Z.of_nat (S k))); lia.
  - intros H1. destruct (Z.testbit r (Z.of_nat (S k))) eqn:T; [ | exists (S k); split; [lia | auto]].
    destruct (proj2 IHk) as (i & A & B); [lia | exists i; split; [lia | auto]].
Qed.
End Pp.

(** ** Counting bits *)
Section Count.
Local Open Scope Z_scope.
Fixpoint cnt (z : Z) (k : nat) : Z := match k with O => 0 | S k' => cnt z k' + (if Z.testbit z (Z.of_nat k') then 1 else 0) end.
Lemma cnt_double : forall z (b : bool) k, cnt (2 * z + Z.b2z b) (S k) = Z.b2z b + cnt z k.
Proof.
  intros z b k. induction k; [cbn [cnt]; rewrite Z.testbit_0_r; destruct b; reflexivity | ].
  change (cnt (2 * z + Z.b2z b) (S (S k))) with (cnt (2 * z + Z.b2z b) (S k) + (if Z.testbit (2 * z + Z.b2z b) (Z.of_nat (S k)) then 1 else 0)). rewrite IHk.
  cbn [cnt]. replace (Z.of_nat (S k)) with (Z.succ (Z.of_nat k)) by lia. rewrite Z.testbit_succ_r by lia. lia.
Qed.
Lemma popcount_cnt : forall p, popcount_pos p = cnt (Zpos p) (S (Z.to_nat (Z.log2 (Zpos p)))).
Proof.
  induction p.
  - change (popcount_pos p~1) with (1 + popcount_pos p). rewrite Pos2Z.inj_xI. change 1 with (Z.b2z true) at 2. rewrite cnt_double. cbn [Z.b2z].
    rewrite IHp. f_equal. f_equal. rewrite Z.log2_succ_double by lia. pose proof (Z.log2_nonneg (Zpos p)). lia.
  - change (popcount_pos p~0) with (popcount_pos p). rewrite Pos2Z.inj_xO. replace (2 * Z.pos p) with (2 * Z.pos p + Z.b2z false) by (cbn [Z.b2z]; lia). rewrite cnt_double. cbn [Z.b2z].
    rewrite IHp. rewrite Z.add_0_l. f_equal. rewrite Z.add_0_r, Z.log2_double by lia. pose proof (Z.log2_nonneg (Zpos p)). lia.
  - reflexivity.
Qed.
Lemma cnt_nb : forall r k, Z.odd r = true -> cnt r (S k) = 1 + Z.of_nat (nb r k).
Proof.
  intros r k O. induction k; [cbn [cnt nb]; rewrite Z.bit0_odd, O; reflexivity | ].
  change (cnt r (S (S k))) with (cnt r (S k) + (if Z.testbit r (Z.of_nat (S k)) then 1 else 0)). rewrite IHk. cbn [nb]. unfold mpz_tstbit.
  destruct (Z.testbit r (Z.of_nat (S k))); lia.
Qed.
Variable r : Z.
Hypothesis R3 : 2 < r.
Hypothesis RO : Z.odd r = true.
Lemma size_start : sizeinbase2 r = Z.of_nat (start_bit r) + 2 /\ Z.log2 r = Z.of_nat (start_bit r) + 1.
Proof.
  pose proof (start_log r R3) as SL. assert (E : sizeinbase2 r = Z.log2 r + 1).
  { unfold sizeinbase2. destruct (Z.eqb_spec r 0); [lia | ]. rewrite Z.abs_eq by lia. lia. }
  rewrite E. lia.
Qed.
Lemma clear_count : d_pp_clear_count r = (start_bit r + 1 + nb r (start_bit r))%nat.
Proof.
  destruct size_start as (S1 & S2). unfold d_pp_clear_count. rewrite S1.
  assert (PC : mpz_popcount r = 2 + Z.of_nat (nb r (start_bit r))).
  { destruct r as [ | p | p]; try lia. cbn [mpz_popcount]. rewrite popcount_cnt, S2. replace (Z.to_nat (Z.of_nat (start_bit (Z.pos p)) + 1)) with (S (start_bit (Z.pos p))) by lia.
    change (cnt (Z.pos p) (S (S (start_bit (Z.pos p))))) with (cnt (Z.pos p) (S (start_bit (Z.pos p))) + (if Z.testbit (Z.pos p) (Z.of_nat (S (start_bit (Z.pos p)))) then 1 else 0)).
    rewrite cnt_nb by auto. replace (Z.of_nat (S (start_bit (Z.pos p)))) with (Z.log2 (Z.pos p)) by lia. rewrite Z.bit_log2 by lia. lia. }
  rewrite PC. destruct (Z.gtb_spec (Z.of_nat (start_bit r) + 2 + (2 + Z.of_nat (nb r (start_bit r)))) 3); lia.
Qed.
Lemma all_ones : nb r (start_bit r) = start_bit r <-> r + 1 = 2 ^ sizeinbase2 r.
Proof.
  destruct size_start as (S1 & S2). pose proof (nb_lt r (start_bit r)) as NL. pose proof (nb_le r (start_bit r)) as NE. split.
  - intros E. assert (O : r = Z.ones (sizeinbase2 r)).
    { apply Z.bits_inj'. intros i Hi. rewrite Z.testbit_ones_nonneg by lia. destruct (Z.ltb_spec i (sizeinbase2 r)).
      - destruct (Z.testbit r i) eqn:T; auto. exfalso. destruct (Z.eq_dec i 0) as [-> | N0]; [rewrite Z.bit0_odd, RO in T; discriminate | ].
        destruct (Z.eq_dec i (Z.log2 r)) as [-> | N1]; [rewrite Z.bit_log2 in T by lia; discriminate | ].
        assert (nb r (start_bit r) < start_bit r)%nat; [ | lia]. apply NL. exists (Z.to_nat i). rewrite Z2Nat.id by lia. split; [lia | auto].
      - apply Z.bits_above_log2; lia. }
    rewrite O at 1. rewrite Z.ones_equiv. lia.
  - intros E. destruct (Nat.eq_dec (nb r (start_bit r)) (start_bit r)); auto. exfalso.
    destruct (proj2 NL) as (i & I1 & I2); [lia | ]. replace r with (Z.ones (sizeinbase2 r)) in I2 by (rewrite Z.ones_equiv; lia).
    rewrite Z.testbit_ones_nonneg in I2 by lia. apply Z.ltb_ge in I2. lia.
Qed.
End Count.

(** ** The pairings, for a final powering [tp] that is correct on values satisfying [ok]. *)
Section Main.
Variable K : fld.
Variables (n : nat) (m : list K).
Variables c a b : K.
Variables q r : Z.
Hypothesis T : type_dg K n m c a b q r.
Let Pq := dg_q _ _ _ _ _ _ _ _ T.
Let Q3 := dg_q3 _ _ _ _ _ _ _ _ T.
Let HK := dg_field _ _ _ _ _ _ _ _ T.
Let HO := dg_order _ _ _ _ _ _ _ _ T.
Let Hn := dg_n _ _ _ _ _ _ _ _ T.
Let On := dg_odd _ _ _ _ _ _ _ _ T.
Let Hm := dg_monic _ _ _ _ _ _ _ _ T.
Let Hi := dg_irred _ _ _ _ _ _ _ _ T.
Let NS := dg_c _ _ _ _ _ _ _ _ T.
Let HE := dg_ell _ _ _ _ _ _ _ _ T.
Let Pr := dg_r _ _ _ _ _ _ _ _ T.
Let R3 := dg_r2 _ _ _ _ _ _ _ _ T.
Let RD := dg_deg _ _ _ _ _ _ _ _ T.
Local Notation M := (Ext K n m).
Local Notation h := (const K n m).
Local Notation v := (const K n m c).
Local Notation L := (Quad M v).
Lemma q2 : (2 < q)%Z. Proof. lia. Qed.
Let HM : fld_laws M := Ext_laws K HK n m Hm (n_pos n Hn) Hi.
Let Hh : embedding K M h := cvec_embedding K HK n m Hm Hn.
Lemma Hv : ~ is_square (v : M). Proof. exact (vns K HK n m Hm Hi Hn q Pq q2 HO On c NS). Qed.
Let HL : fld_laws L := Quad_laws M HM v Hv.
Add Field KFdm : (fl_field K HK).
Add Field MFdm : (fl_field M HM).
Lemma RO : Z.odd r = true.
Proof.
  destruct (Z.odd r) eqn:E; auto. exfalso. rewrite <- Z.negb_even in E. apply negb_false_iff in E. apply Z.even_spec in E. destruct E as [w E].
  destruct (prime_divisors _ Pr 2) as [D | [D | [D | D]]]; try lia. exists w. lia.
Qed.
Local Notation NZ := (Z.of_nat n).
Local Notation e := ((q ^ (2 * NZ) - 1) / r)%Z.
Local Notation kk0 := ((q ^ NZ + 1) / r)%Z.
Lemma NZ0 : (0 <= NZ)%Z. Proof. lia. Qed.
Lemma RK : (r * kk0 = q ^ NZ + 1)%Z. Proof. destruct RD as (w & ->). rewrite Z.div_mul by lia. ring. Qed.
Lemma EE : e = ((q ^ NZ - 1) * kk0)%Z.
Proof.
  pose proof RK as A. symmetry. apply Z.div_unique_exact; [lia | ].
  replace (q ^ (2 * NZ))%Z with (q ^ NZ * q ^ NZ)%Z by (rewrite <- Z.pow_add_r by lia; f_equal; lia). nia.
Qed.
Let HOM : has_order M (q ^ NZ) := ext_order K n m q HO.
Let C2 := proj1 HE.
Local Notation val := (dg_value K n m c a q r).
Local Notation G1 := (torsion K a b r).
Local Notation onM := (on_twist K n m c a b).
Local Notation ev := (d_miller_evalfn K n m v).
Local Notation Ex := (@fst M M).
Local Notation Ey := (@snd M M).
Lemma ev_ok : forall ca cb cc (Q : M * M), ev (ca, cb, cc) Q = lineval K M h v ca cb cc (Ex Q) (Ey Q).
Proof.
  intros ca cb cc [X Y]. unfold d_miller_evalfn, lineval. cbn [fst snd]. apply f_equal2.
  - apply vec_ext. intros i Hi'. rewrite vcoef_mk. change (const K n m) with (cvec K n m). rewrite (vc_add K HK n m), (cvec_mul K HK n m Hm (n_pos n Hn)), (vc_cv K n m Hn), vcoef_mk.
    destruct (Nat.ltb_spec i n); [ | lia]. destruct (Nat.eqb i 0); ring.
  - apply vec_ext. intros i Hi'. change (const K n m) with (cvec K n m). rewrite (cvec_mul K HK n m Hm (n_pos n Hn)), !vcoef_mk. destruct (Nat.ltb_spec i n); [ring | lia].
Qed.
Local Notation gd' := (gd K M h v a b r (M * M) Ex Ey).
Lemma v_nz : (v : M) <> f0. Proof. intro E. apply Hv. exists f0. rewrite E. ring. Qed.
Definition unt (Q : M * M) : M * M := (fdiv (fst Q) v, fdiv (snd Q) (fmul v v)).
Lemma div_1 : forall x : M, fmul x (finv v) = fdiv x v. Proof. pose proof v_nz. intros. field. auto. Qed.
Lemma div_2 : forall x : M, fmul x (fmul (finv v) (finv v)) = fdiv x (fmul v v). Proof. pose proof v_nz. intros. field. auto. Qed.
Lemma untwist_ok : forall Q : M * M, untwist K n m v (Some Q) = Ok (unt Q).
Proof.
  intros [x y]. unfold untwist, unt. cbn [coords bind fst snd].
  assert (EI : nqrinv K n m v = Ok (finv v)) by (unfold nqrinv; apply (finvert_ok M HM); exact v_nz). rewrite EI. cbn [bind]. f_equal.
  apply (f_equal2 pair); [exact (div_1 x) | exact (div_2 y)].
Qed.
Lemma gd_in : forall P Q, G1 P -> P <> None -> onM (Some Q) -> gd' (P, unt Q).
Proof.
  intros P [x y] (O & TP) N OQ. split; [exact O | ]. split; [exact TP | ]. split.
  - apply exact_regular; [exact R3 | exact RO | ]. apply (prime_exact K HK a b HE r R3 P); auto. split; auto.
  - exact (twist_G2 K M HM h v Hv a b (Some (x, y)) OQ).
Qed.
Local Notation mil1' := (MillerFacts.mil1 K M h v a (M * M) Ex Ey).
Lemma val_mil : forall P Q, val P (Some Q) = fpow (mil1' (Z.to_nat r) (P, unt Q)) e.
Proof. intros P [x y]. reflexivity. Qed.
Local Notation Hmil := (miller_affine_ok K M HK HM h Hh v Hv a b HE r R3 RO (M * M) Ex Ey _ _ _ (d_tan K HK a C2) (d_lin K HK a) ev_ok).
Variable tp : Quad M v -> res L.
Variable ok : L -> Prop.
Hypothesis HT : forall x : L, x <> f0 -> ok (fpow x e) -> tp x = Ok (fpow x e).
Lemma fin_ok : forall P Q f, gd' (P, unt Q) -> Twisted.sim M v f (mil1' (Z.to_nat r) (P, unt Q)) -> ok (val P (Some Q)) -> tp f = Ok (val P (Some Q)).
Proof.
  intros P Q f GD F OV. assert (NZM : mil1' (Z.to_nat r) (P, unt Q) <> f0) by (apply (MillerFacts.mil1_nz K M HK HM h Hh v Hv a b HE r R3 RO); auto).
  assert (EF : fpow f e = val P (Some Q)) by (rewrite val_mil; exact (fin_sim M HM v Hv r R3 q NZ Pq q2 NZ0 HOM _ _ RK EE f _ F)).
  rewrite <- EF. apply HT; [apply (sim_nz M HM v Hv _ _ F); auto | rewrite EF; auto].
Qed.
Theorem d_affine_ok : forall P Q, G1 P -> P <> None -> onM Q -> Q <> None -> ok (val P Q) -> cc_pairing K n m v a r tp MillerAffine P Q = Ok (val P Q).
Proof.
  intros P [Q | ] IP NP OQ NQ OV; [ | congruence]. pose proof (gd_in P Q IP NP OQ) as GD.
  unfold cc_pairing. rewrite untwist_ok. cbn [bind]. destruct (Hmil P (unt Q) GD) as (f & EF & F).
  match goal with |- bind ?x _ = _ => replace x with (Ok f) by (symmetry; exact EF) end. cbn [bind]. apply fin_ok; auto.
Qed.
(** preprocessing *)
Local Notation mul := (pmul K a).
Local Notation bits := (miller_bits K L (M * M) a (d_tangent K a) (d_line K) ev r).
Lemma bits_def : forall P Q, G1 P -> P <> None -> forall k f, (k <= start_bit r)%nat -> exists f', bits k P Q f (mul (kk r (S k)) P) = Ok f'.
Proof.
  intros P Q (OP & TP) NP.
  assert (RG : regular K a r P). { apply exact_regular; [exact R3 | exact RO | ]. apply (prime_exact K HK a b HE r R3 P); auto. split; auto. }
  pose proof (reg_tan K M HK HM h Hh v Hv a b HE r R3 RO P OP TP RG) as RT. pose proof (reg_line K M HK HM h Hh v Hv a b HE r R3 RO P OP TP RG) as RL.
  pose proof (MillerFacts.mul_plus' K M HK HM h Hh v Hv a b HE r R3 RO P OP TP) as MP.
  induction k; intros f Hk; cbn [miller_bits]; unfold do_tangent.
  - destruct (RT 0%nat Hk) as (x & y & EQ & NY). rewrite EQ. cbn [coords bind]. eexists. reflexivity.
  - destruct (RT (S k) Hk) as (x & y & EQ & NY). rewrite EQ. cbn [coords bind].
    rewrite (double_value_ok K HK a C2), (mul_value_ok K HK a C2). cbn [bind].
    replace (padd K a (Some (x, y)) (Some (x, y))) with (mul (2 * kk r (S (S k)))%nat P).
    2: { replace (2 * kk r (S (S k)))%nat with (kk r (S (S k)) + kk r (S (S k)))%nat by lia. rewrite MP, EQ. reflexivity. }
    unfold mpz_tstbit. destruct (Z.testbit r (Z.of_nat (S k))) eqn:TB.
    + destruct (RL k Hk TB) as (x1 & y1 & x2 & y2 & E1 & E2 & NX & NN).
      assert (EK : kk r (S k) = (2 * kk r (S (S k)) + 1)%nat) by (rewrite (kk_step r R3 (S k)), TB; reflexivity).
      unfold do_line. assert (CZ : coords K (mul (2 * kk r (S (S k)))%nat P) = Ok (x1, y1)) by (rewrite E1; reflexivity).
      assert (CP : coords K P = Ok (x2, y2)) by (rewrite E2; reflexivity). rewrite CZ, CP. cbn [bind]. rewrite (mul_value_ok K HK a C2). cbn [bind].
      replace (padd K a (mul (2 * kk r (S (S k)))%nat P) P) with (mul (kk r (S k)) P) by (rewrite EK, MP, (mul_1 K a P); reflexivity).
      apply IHk. lia.
    + cbn [bind]. assert (EK : kk r (S k) = (2 * kk r (S (S k)))%nat) by (rewrite (kk_step r R3 (S k)), TB; lia). rewrite <- EK in *.
      apply IHk. lia.
Qed.
Lemma affine_def : forall P Q, G1 P -> P <> None -> exists f', bits (start_bit r) P Q f1 P = Ok f'.
Proof. intros P Q IP NP. destruct (bits_def P Q IP NP (start_bit r) f1 (le_n _)) as (f & EF). rewrite (kk_start r R3), mul_1 in EF. eauto. Qed.
Theorem d_pp_ok : not_all_ones r -> forall P, G1 P -> P <> None -> exists t, d_pairing_pp_init K a r P = Ok t /\ length t = (2 * start_bit r)%nat /\ d_pairing_pp_clear K r t = Ok tt /\ forall Q, onM Q -> Q <> None -> ok (val P Q) -> d_pairing_pp_apply K n m v r tp t Q = Ok (val P Q).
Proof.
  intros NA P IP NP. destruct (affine_def P (f0, f0) IP NP) as (f & EF).
  assert (NB : (nb r (start_bit r) < start_bit r)%nat).
  { pose proof (nb_le r (start_bit r)). destruct (Nat.eq_dec (nb r (start_bit r)) (start_bit r)) as [E | ]; [ | lia]. exfalso. apply NA. apply (all_ones r R3 RO). auto. }
  destruct (d_pp_agree K n m HK v a r (start_bit r) P 0 (repeat None (2 * start_bit r)) P (f0, f0) f1 f EF) as (t & E & LT & _ & H1 & H2); [rewrite repeat_length; lia | ].
  rewrite repeat_length in LT. exists t. split; [exact E | ]. split; [exact LT | ]. split.
  - unfold d_pairing_pp_clear. rewrite (clear_count r R3 RO). apply d_clear_ok. intros j Hj. apply H1. lia.
  - intros [Q | ] OQ NQ OV; [ | congruence]. unfold d_pairing_pp_apply. rewrite untwist_ok. cbn [bind]. pose proof (gd_in P Q IP NP OQ) as GD.
    destruct (Hmil P (unt Q) GD) as (f' & EF' & F'). unfold miller_affine in EF'. assert (EG := eq_trans (eq_sym (H2 (unt Q) f1)) EF').
    match goal with |- bind ?x _ = _ => replace x with (Ok f') by (symmetry; exact EG) end. cbn [bind]. apply fin_ok; auto.
Qed.
(** the table is too small exactly when r is 2^s - 1 *)
Theorem d_pp_overrun : ~ not_all_ones r -> forall P, G1 P -> P <> None -> d_pairing_pp_init K a r P = UB.
Proof.
  intros NA P IP NP. destruct (affine_def P (f0, f0) IP NP) as (f & EF).
  assert (NB : nb r (start_bit r) = start_bit r) by (apply (all_ones r R3 RO); apply Decidable.not_not in NA; [auto | unfold Decidable.decidable; lia]).
  unfold d_pairing_pp_init. eapply (d_pp_over K n m v a r); [exact EF | ]. rewrite repeat_length. lia.
Qed.
(** products *)
Lemma untwist_all_ok : forall Qs : list (M * M), untwist_all K n m v (map (fun x => Some x) Qs) = Ok (map unt Qs).
Proof. induction Qs as [ | x Qs IH]; auto. cbn [map untwist_all]. rewrite untwist_ok. cbn [bind]. rewrite IH. reflexivity. Qed.
Local Notation PM' := (MillerFacts.PM K M h v a (M * M) Ex Ey).
Definition un2 (pq : point K * (M * M)) : point K * (M * M) := (fst pq, unt (snd pq)).
Lemma PM_pow : forall ll, fpow (PM' (Z.to_nat r) (map un2 ll)) e = gprod (map (fun pq => val (fst pq) (Some (snd pq))) ll).
Proof.
  induction ll as [ | [P Q] ll IH]; cbn [MillerFacts.PM map gprod fold_right].
  - apply (BilinearZ.fpow1 L HL).
  - etransitivity; [exact (zpow_mul_base _ (mul_monoid_laws L HL) (mul_monoid_comm L HL) _ _ _) | ]. apply (f_equal2 fmul); [symmetry; apply val_mil | exact IH].
Qed.
Local Notation prods in1 in2 := (gprod (map (fun pq => val (fst pq) (snd pq)) (combine in1 in2))).
Theorem d_prod_ok : forall in1 in2, length in1 = length in2 -> in1 <> [] -> Forall G1 in1 -> Forall onM in2 ->
  Forall (fun P => P <> None) in1 -> Forall (fun Q => Q <> None) in2 -> ok (prods in1 in2) ->
  cc_pairings_affine K n m v a r tp in1 in2 (length in1) = Ok (prods in1 in2).
Proof.
  intros in1 in2 EL NE F1 F2 N1 N2 OV.
  set (xy := fun Q : point M => match Q with Some x => x | None => (f0, f0) end).
  set (ll := combine in1 (map xy in2)).
  assert (LL : length ll = length in1) by (unfold ll; rewrite combine_length, map_length; lia).
  assert (M1 : map fst ll = in1) by (apply combine_fst; rewrite map_length; auto).
  assert (M2 : map (fun pq : point K * (M * M) => Some (snd pq) : point M) ll = in2).
  { rewrite <- (map_map snd (fun x => Some x : point M)). unfold ll. rewrite combine_snd by (rewrite map_length; auto). rewrite map_map.
    rewrite <- (map_id in2) at 2. apply map_ext_in. intros [x | ] I; [reflexivity | ]. rewrite Forall_forall in N2. destruct (N2 _ I). reflexivity. }
  assert (GL : Forall gd' (map un2 ll)).
  { apply Forall_forall. intros pq I. apply in_map_iff in I. destruct I as ([P x] & <- & I). assert (I1 : In P in1) by (rewrite <- M1; apply in_map_iff; exists (P, x); auto).
    assert (I2 : In (Some x : point M) in2) by (rewrite <- M2; apply in_map_iff; exists (P, x); auto).
    rewrite Forall_forall in F1, F2, N1. apply gd_in; auto. }
  assert (NL : map un2 ll <> []) by (intro E; destruct ll; [destruct in1; [congruence | discriminate] | discriminate]).
  destruct (millers_affine_ok K M HK HM h Hh v Hv a b HE r R3 RO (M * M) Ex Ey _ _ _ (d_tan K HK a C2) (d_lin K HK a) ev_ok (map un2 ll) GL NL) as (f & EF & F).
  unfold cc_pairings_affine. assert (SL1 := slice_app (point K) [] in1 [] 0%nat (length in1) eq_refl eq_refl). assert (SL2 := slice_app (point M) [] in2 [] 0%nat (length in2) eq_refl eq_refl). cbn [app] in SL1, SL2. rewrite app_nil_r in SL1, SL2.
  rewrite SL1. cbn [bind]. rewrite EL. match goal with |- bind ?x _ = _ => replace x with (Ok in2) by (symmetry; exact SL2) end. cbn [bind].
  assert (CA : untwist_all K n m v in2 = Ok (map snd (map un2 ll))).
  { rewrite <- M2. etransitivity; [ | etransitivity; [apply (untwist_all_ok (map snd ll)) | ]]; [f_equal; symmetry; apply map_map | f_equal; rewrite !map_map; reflexivity]. }
  rewrite CA. cbn [bind].
  assert (M1' : map fst (map un2 ll) = in1) by (rewrite map_map; exact M1).
  rewrite <- M1' at 1. match goal with |- bind ?x _ = _ => replace x with (Ok f) by (symmetry; exact EF) end. cbn [bind].
  assert (NZM : PM' (Z.to_nat r) (map un2 ll) <> f0) by (apply (MillerFacts.PM_nz K M HK HM h Hh v Hv a b HE r R3 RO); auto).
  assert (EC : combine in1 in2 = map (fun pq : point K * (M * M) => (fst pq, Some (snd pq) : point M)) ll).
  { rewrite <- M1 at 1. rewrite <- M2 at 1. apply combine_maps. }
  assert (EV : fpow f e = prods in1 in2).
  { etransitivity; [exact (fin_sim M HM v Hv r R3 q NZ Pq q2 NZ0 HOM _ _ RK EE f _ F) | ]. rewrite PM_pow, EC, map_map. reflexivity. }
  rewrite <- EV in *. apply HT; auto. apply (sim_nz M HM v Hv _ _ F); auto.
Qed.
Lemma prods_generic : forall mp, (forall P Q, G1 P -> P <> None -> onM Q -> Q <> None -> ok (val P Q) -> mp P Q = Ok (val P Q)) ->
  forall in1 in2, length in1 = length in2 -> in1 <> [] -> Forall G1 in1 -> Forall onM in2 ->
  Forall (fun P => P <> None) in1 -> Forall (fun Q => Q <> None) in2 -> Forall (fun pq => ok (val (fst pq) (snd pq))) (combine in1 in2) ->
  generic_prod_pairings mp in1 in2 (length in1) = Ok (prods in1 in2).
Proof.
  intros mp Hmp in1 in2 EL NE F1 F2 N1 N2 OV. apply (@generic_prod_ok (point K) (point M) L HL mp val in1 in2 EL NE).
  rewrite Forall_forall in *. intros [P Q] I. cbn [fst snd]. apply Hmp; auto.
  - apply F1. apply in_combine_l in I. auto.
  - apply N1. apply in_combine_l in I. auto.
  - apply F2. apply in_combine_r in I. auto.
  - apply N2. apply in_combine_r in I. auto.
  - apply (OV (P, Q) I).
Qed.
End Main.
