(** Type I over the stored field. *)
From Coq Require Import ZArith List Bool Lia Arith Ring Field.
From Verif.Base Require Import Outcome Array Algebra Slots.
From Verif.Spec Require Import FiniteField Polynomials Curve Quadratic Extension Ternary TernaryTower TernaryValues EtaT TernaryPoints.
From Verif.Model Require Import GenericPow GF3m GF3Tower EtaT3 PairingI.
From Verif.Proofs Require Import PowFacts PowWitness PowRel FieldFacts CurveGroup CurveFacts BilinearZ GF3mBits GF3mPoly GF3mMain TowerAlgebra TowerFields TowerFacts EtaFinal EtaLoop EtaMain TernaryCurve EtaInst PairingIFacts.
From Verif.Model Require Import EtaT3 PairingI.
Import ListNotations.
Open Scope nat_scope.

Section M.
Variables (m t : nat) (p : params).
Hypothesis D : dims m t.
Hypothesis E : field_init_gf3m (Z.of_nat m) (Z.of_nat t) = Ok p.
Hypothesis Irr : irreducible (trinomial m t).
Hypothesis Om : Nat.odd m = true.
Hypothesis N3 : m mod 3 <> 0.
Local Notation K := (GF3m m t). Local Notation F := (gf3m_ops p).
Local Notation h1 := (holds m t). Local Notation h6 := (holds6 m t p). Local Notation hp := (holds_point m t p). Local Notation hc := (holds_curve_point m t p).
Let HK : fld_laws K := proj1 (m_field m t D Irr).
Let HO : has_order K (3 ^ Z.of_nat m) := proj2 (m_field m t D Irr).
Let C3 : fadd (fadd f1 f1) f1 = (f0 : K) := order_char3 K m HK HO.
Let B := base m t p D E. Let BN := base_neg m t p. Let BV := base_inv m t p D E Irr.
Let L6 := level6 m t p D E Irr Om.
Let H6 : fld_laws (GF36m K) := laws36 K HK m HO Om N3.
Let EL := t_elliptic K HK C3.

Lemma p_m_ok : p_m p = Z.of_nat m.
Proof. exact (proj1 (proj2 (init_good m t D p E))). Qed.
(** Stored elements are determined by what they stand for. *)
Lemma inj1 : forall a b x, h1 a x -> h1 b x -> a = b.
Proof. intros a b x (A & <-) (A' & G). exact (valid_inj m t a b A A' (eq_sym G)). Qed.
Lemma inj2 : forall a b x, holds2 m t p a x -> holds2 m t p b x -> a = b.
Proof. intros [a0 a1] [b0 b1] x (A & A') (G & G'). cbn [fst snd] in *. f_equal; eapply inj1; eauto. Qed.
Lemma inj6 : forall a b x, h6 a x -> h6 b x -> a = b.
Proof.
  intros [a0 a1 a2] [b0 b1 b2] x (A & A' & A'') (G & G' & G''). cbn [g_0 g_1 g_2] in *.
  rewrite (inj2 _ _ _ A G), (inj2 _ _ _ A' G'), (inj2 _ _ _ A'' G''). reflexivity.
Qed.
Lemma injP : forall a b P, hp a P -> hp b P -> a = b.
Proof.
  intros [[c d] | ] [[c' d'] | ] [[x y] | ]; cbn [holds_point]; try contradiction; auto.
  intros (A & A') (G & G'). rewrite (inj1 _ _ _ A G), (inj1 _ _ _ A' G'). reflexivity.
Qed.
(** Points *)
Lemma on_add : forall P Q, tp_on K P -> tp_on K Q -> tp_on K (tp_add K P Q). Proof. exact (add_on K HK (fopp f1) f1 (proj1 EL)). Qed.
Lemma on_mul : forall n P, tp_on K P -> tp_on K (tp_mul K n P). Proof. exact (pz_on K HK m HO). Qed.
Lemma on_neg : forall P, tp_on K P -> tp_on K (pneg P). Proof. exact (neg_on K HK (fopp f1) f1). Qed.
Lemma cmp_ok : forall a b P Q, hp a P -> hp b Q -> exists r, point_cmp F a b = Ok r /\ (r = 0%Z <-> P = Q).
Proof. exact (cmpP F K h1 B). Qed.
Lemma add_ok : forall a b P Q, hc a P -> hc b Q -> returns hc (point_add F a b) (tp_add K P Q).
Proof.
  intros a b P Q (A & OA) (G & OG). destruct (addP F K h1 HK C3 B BN BV a b P Q A G OA OG) as (c & Ec & Hc). exists c. split; [exact Ec | split; [exact Hc | ]].
  apply on_add; auto.
Qed.
Lemma neg_ok : forall a P, hc a P -> returns hc (point_invert F a) (pneg P).
Proof.
  intros a P (A & OA). destruct (negP F K h1 BN a P A) as (c & Ec & Hc). exists c. split; [exact Ec | split; [exact Hc | ]]. apply on_neg; auto.
Qed.
Lemma sub_ok : forall a b P Q, hc a P -> hc b Q -> returns hc (i_point_sub p a b) (tp_add K P (pneg Q)).
Proof.
  intros a b P Q A G. unfold i_point_sub. destruct (neg_ok b Q G) as (c & -> & Hc). cbn [bind].
  unfold tp_add. rewrite (add_comm K HK (fopp f1) P). exact (add_ok c a _ _ Hc A).
Qed.
Lemma pow_ok : forall a P n, (0 <= n)%Z -> hc a P -> returns hc (i_point_pow p a n) (tp_mul K n P).
Proof.
  intros a P n Hn (A & OA). destruct (powP F K h1 HK C3 B BN BV a P n Hn A OA) as (c & Ec & Hc). exists c. split; [exact Ec | split; [exact Hc | ]].
  apply on_mul; auto.
Qed.
Lemma mul_si_ok : forall a n, i_point_mul_si p a n = Ok a. Proof. intros [[c d] | ] n; reflexivity. Qed.
Lemma halve_ok : forall a, i_point_halve p a = Ok a. Proof. intros [[c d] | ]; reflexivity. Qed.

(** Square roots of stored elements *)
Lemma q34 : exists k, (3 ^ Z.of_nat m + 1 = 4 * k /\ 0 < k)%Z.
Proof.
  pose proof (pow3_odd m Om) as Q. pose proof (Z.div_mod (3 ^ Z.of_nat m) 4 ltac:(lia)) as G. pose proof (Z.pow_pos_nonneg 3 (Z.of_nat m) ltac:(lia) ltac:(lia)).
  exists (3 ^ Z.of_nat m / 4 + 1)%Z. split; [lia | ]. pose proof (Z.div_pos (3 ^ Z.of_nat m) 4). lia.
Qed.
Lemma isqrt_ok : forall a x, h1 a x -> exists y, returns h1 (i_sqrt p a) y /\ (is_square x -> fmul y y = x).
Proof.
  intros a x A. destruct q34 as (k & Ek & Hk).
  assert (Q : Z.quot (3 ^ Z.of_nat m + 1) (2 ^ 2) = k) by (rewrite Ek; change (2 ^ 2)%Z with 4%Z; rewrite Z.mul_comm; apply Z.quot_mul; lia).
  exists (fpow x k). split.
  - unfold i_sqrt. rewrite p_m_ok, Q. exact (powF F K h1 HK B a x k ltac:(lia) A).
  - intro SQ. destruct (m_sqrt m t D Irr Om x SQ) as (y & Ey & Hy). unfold gf3m_sqrt in Ey. rewrite Q in Ey.
    rewrite (pow_correct (mul_monoid K)) in Ey by (try exact (mul_monoid_laws K HK); lia). inversion Ey as [Ez]. rewrite <- Ez in Hy. exact Hy.
Qed.

Lemma b_cubic : forall a x, h1 a x -> returns h1 (gf3m_cubic p a) (fmul x (fmul x x)). Proof. exact (i_cubic _ _ _ B). Qed.
Lemma b_sub : forall a b x y, h1 a x -> h1 b y -> returns h1 (gf3m_sub a b) (fsub x y). Proof. exact (i_sub _ _ _ B). Qed.
Lemma b_add : forall a b x y, h1 a x -> h1 b y -> returns h1 (gf3m_add a b) (fadd x y). Proof. exact (i_add _ _ _ B). Qed.
Lemma b_mul : forall a b x y, h1 a x -> h1 b y -> returns h1 (gf3m_mult p a b) (fmul x y). Proof. exact (i_mul _ _ _ B). Qed.
Lemma b_cmp : forall a b x y, h1 a x -> h1 b y -> exists r, gf3m_cmp a b = Ok r /\ (r = 0%Z <-> x = y). Proof. exact (i_cmp _ _ _ B). Qed.
(** Random points *)
Lemma rnd_loop : forall e1 pre v post xs u u2 y uv u2v, h1 e1 f1 -> h1 u uv -> h1 u2 u2v -> (u2v <> uv \/ hd f0 (pre ++ v :: post) <> f0) ->
  Forall2 h1 xs (pre ++ v :: post) -> Forall (fun w => ~ tp_abscissa K w) pre -> tp_abscissa K v ->
  exists c d y', i_random_loop p e1 u u2 y xs = Ok (c, d) /\ h1 c v /\ h1 d y' /\ tp_on K (Some (v, y')).
Proof.
  intros e1 pre v post. induction pre as [ | w pre IH]; intros xs u u2 y uv u2v He Hu Hu2 NE F2 FN GV; cbn [app] in F2; inversion F2 as [ | x vx xs' vs' Hx F2' EX EV]; subst; cbn [i_random_loop].
  - destruct GV as (NZ & SQ). destruct (gf3m_is0 x) eqn:Z0.
    { exfalso. apply NZ. destruct Hx as (Vx & <-). apply (m_is0 m t x Vx). exact Z0. }
    destruct (b_cubic x v Hx) as (t1 & E1 & R1). rewrite E1. cbn [bind].
    destruct (b_sub t1 x _ _ R1 Hx) as (t2 & E2 & R2). rewrite E2. cbn [bind].
    destruct (b_add t2 e1 _ _ R2 He) as (t3 & E3 & R3). rewrite E3. cbn [bind].
    destruct (isqrt_ok t3 _ R3) as (y' & (d & E4 & R4) & G4). rewrite E4. cbn [bind]. specialize (G4 SQ).
    destruct (b_mul d d _ _ R4 R4) as (t4 & E5 & R5). rewrite E5. cbn [bind].
    destruct (b_cmp t4 t3 _ _ R5 R3) as (r & E6 & R6). rewrite E6. cbn [bind].
    rewrite (proj2 (Z.eqb_eq r 0) (proj2 R6 G4)). exists x, d, y'. split; [reflexivity | split; [exact Hx | split; [exact R4 | ]]].
    apply (eq_on K HK C3). rewrite G4. destruct (fl_field K HK) as [[] _ _ _]. f_equal. f_equal. apply Rmul_assoc.
  - inversion FN as [ | w' pre' NW FN' ]; subst. destruct (gf3m_is0 x) eqn:Z0.
    + assert (W0 : w = f0). { destruct Hx as (Vx & <-). apply (m_is0 m t x Vx). exact Z0. }
      assert (NE' : u2v <> uv) by (destruct NE as [X | X]; [exact X | elim X; exact W0]).
      destruct (b_cmp u2 u _ _ Hu2 Hu) as (r & E6 & R6). rewrite E6. cbn [bind].
      destruct (Z.eqb_spec r 0) as [Zr | Zr]; [elim NE'; apply R6; exact Zr | ]. eapply IH; eauto.
    + assert (W0 : w <> f0). { intro W. destruct Hx as (Vx & Ex). rewrite W in Ex. apply (m_is0 m t x Vx) in Ex. congruence. }
      destruct (b_cubic x w Hx) as (t1 & E1 & R1). rewrite E1. cbn [bind].
      destruct (b_sub t1 x _ _ R1 Hx) as (t2 & E2 & R2). rewrite E2. cbn [bind].
      destruct (b_add t2 e1 _ _ R2 He) as (t3 & E3 & R3). rewrite E3. cbn [bind].
      destruct (isqrt_ok t3 _ R3) as (y' & (d & E4 & R4) & _). rewrite E4. cbn [bind].
      destruct (b_mul d d _ _ R4 R4) as (t4 & E5 & R5). rewrite E5. cbn [bind].
      destruct (b_cmp t4 t3 _ _ R5 R3) as (r & E6 & R6). rewrite E6. cbn [bind].
      assert (SN : fmul y' y' <> fadd (fsub (fmul w (fmul w w)) w) f1) by (intro SQ; apply NW; split; [exact W0 | exists y'; exact SQ]).
      destruct (Z.eqb_spec r 0) as [Zr | Zr]; [elim SN; apply R6; exact Zr | ]. eapply IH; eauto.
Qed.
Lemma random_ok : forall n2 y0 xs pre v post, (0 <= n2)%Z -> Forall2 h1 xs (pre ++ v :: post) -> hd f0 (pre ++ v :: post) <> f0 ->
  Forall (fun w => ~ tp_abscissa K w) pre -> tp_abscissa K v ->
  exists y, tp_on K (Some (v, y)) /\ returns hc (i_point_random p n2 y0 xs) (tp_mul K n2 (Some (v, y))).
Proof.
  intros n2 y0 xs pre v post Hn F2 NZ FN GV. unfold i_point_random. rewrite (p_len_ok m t p D E).
  destruct (m_one m t D) as (e1 & E1 & R1). rewrite E1. cbn [bind].
  assert (HZ : h1 (zero (m / 64 + 1)) f0) by exact (m_zero m t).
  destruct (rnd_loop e1 pre v post xs _ _ y0 f0 f0 R1 HZ HZ (or_intror NZ) F2 FN GV) as (c & d & y' & E2 & Hc & Hd & ON). rewrite E2. cbn [bind].
  exists y'. split; [exact ON | ]. apply pow_ok; auto. split; [split; [exact Hc | exact Hd] | exact ON].
Qed.

(** The pairing *)
Lemma tern_on : forall x y, tp_on K (Some (x, y)) -> on_ternary_curve K x y.
Proof. intros x y H. unfold on_ternary_curve. rewrite (on_eq K HK C3 _ _ H). destruct (fl_field K HK) as [[] _ _ _]. do 2 f_equal. symmetry. apply Rmul_assoc. Qed.
Lemma eta_pt_ok : forall a b P Q, hc a P -> hc b Q -> returns h6 (eta_T_pairing F (p_m p) a b) (tp_pair K m P Q).
Proof.
  intros [[a a'] | ] [[b b'] | ] [[x y] | ] [[x' y'] | ] (A & OA) (G & OG); cbn [holds_point] in A, G; try contradiction; rewrite p_m_ok.
  - destruct A as (A & A'), G as (G & G'). exact (proj1 (eta_ok m t p D E Irr Om N3 a a' b b' x y x' y' A A' G G' (tern_on x y OA))).
  - exact (proj2 (eta_inf m t p D E Irr Om _)).
  - exact (proj1 (eta_inf m t p D E Irr Om _)).
  - exact (proj1 (eta_inf m t p D E Irr Om _)).
Qed.
Lemma one6 : returns h6 (i_gt_one p) f1. Proof. exact (i_1 _ _ _ L6). Qed.
Lemma mul6 : forall a b x y, h6 a x -> h6 b y -> returns h6 (i_gt_mul p a b) (fmul x y). Proof. exact (i_mul _ _ _ L6). Qed.
Lemma pair_ok : forall a b P Q, hc a P -> hc b Q -> returns h6 (i_pairing p a b) (tp_pair K m P Q).
Proof.
  intros a b P Q A G. unfold i_pairing. destruct a as [[a a'] | ]; cbn [point_is0].
  2:{ destruct A as (A & _). destruct P as [[? ?] | ]; [contradiction A | ]. exact one6. }
  destruct b as [[b b'] | ]; cbn [point_is0]; [exact (eta_pt_ok _ _ _ _ A G) | ].
  destruct G as (G & _). destruct Q as [[? ?] | ]; [contradiction G | ]. destruct P as [[? ?] | ]; exact one6.
Qed.
Lemma gtpow_ok : forall a x n, (0 <= n)%Z -> h6 a x -> returns h6 (i_gt_pow p a n) (fpow x n).
Proof. exact (powF (gf36m_ops F) (GF36m K) h6 H6 L6). Qed.
Lemma pair_root : forall P Q, tp_on K P -> tp_on K Q -> fpow (tp_pair K m P Q) (eta_N m) = f1. Proof. exact (eta_root K HK m HO Om N3). Qed.
Lemma pair_nz : forall P Q, tp_on K P -> tp_on K Q -> tp_pair K m P Q <> f0. Proof. exact (eta_nz K HK m HO Om N3). Qed.
Lemma pair_bil : forall P Q i j, tp_on K P -> tp_on K Q -> (0 <= i)%Z -> (0 <= j)%Z ->
  tp_pair K m (tp_mul K i P) (tp_mul K j Q) = fpow (tp_pair K m P Q) (i * j).
Proof.
  intros P Q i j HP HQ Hi Hj. pose proof (eta_bilinear K HK m HO Om N3 (eta_N m) (N_pos m Om N3) i j P Q HP HQ (eta_root K HK m HO Om N3 P Q HP HQ)) as G.
  change (eta K m (tp_mul K i P) (tp_mul K j Q) = fpow (eta K m P Q) (i * j)). unfold tp_mul. rewrite G.
  symmetry. apply (fpow_mod (GF36m K) H6); [exact (N_pos m Om N3) | apply Z.mul_nonneg_nonneg; auto | ]. exact (eta_root K HK m HO Om N3 P Q HP HQ).
Qed.
Lemma api_bilinear : forall a b P Q i j, hc a P -> hc b Q -> (0 <= i)%Z -> (0 <= j)%Z ->
  exists ai bj v w, i_point_pow p a i = Ok ai /\ i_point_pow p b j = Ok bj /\ i_pairing p a b = Ok v /\ i_gt_pow p v (i * j) = Ok w /\ i_pairing p ai bj = Ok w.
Proof.
  intros a b P Q i j A G Hi Hj. destruct (pow_ok a P i Hi A) as (ai & E1 & R1). destruct (pow_ok b Q j Hj G) as (bj & E2 & R2).
  destruct (pair_ok a b P Q A G) as (v & E3 & R3). destruct (gtpow_ok v _ (i * j) ltac:(apply Z.mul_nonneg_nonneg; auto) R3) as (w & E4 & R4).
  destruct (pair_ok ai bj _ _ R1 R2) as (w' & E5 & R5). rewrite (pair_bil P Q i j (proj2 A) (proj2 G) Hi Hj) in R5.
  exists ai, bj, v, w. rewrite E5, (inj6 _ _ _ R5 R4). auto.
Qed.
Lemma pair_add_l : forall P P' Q, tp_on K P -> tp_on K P' -> tp_on K Q -> tp_pair K m (tp_add K P P') Q = fmul (tp_pair K m P Q) (tp_pair K m P' Q).
Proof. exact (eta_add_l K HK m HO Om N3). Qed.
Lemma pair_add_r : forall P Q Q', tp_on K P -> tp_on K Q -> tp_on K Q' -> tp_pair K m P (tp_add K Q Q') = fmul (tp_pair K m P Q) (tp_pair K m P Q').
Proof. exact (eta_add_r K HK m HO Om N3). Qed.
Lemma api_add : forall a a' b P P' Q, hc a P -> hc a' P' -> hc b Q ->
  exists s v v' w, point_add F a a' = Ok s /\ i_pairing p a b = Ok v /\ i_pairing p a' b = Ok v' /\ i_gt_mul p v v' = Ok w /\ i_pairing p s b = Ok w.
Proof.
  intros a a' b P P' Q A A' G. destruct (add_ok a a' P P' A A') as (s & E1 & R1). destruct (pair_ok a b P Q A G) as (v & E2 & R2).
  destruct (pair_ok a' b P' Q A' G) as (v' & E3 & R3). destruct (mul6 v v' _ _ R2 R3) as (w & E4 & R4). destruct (pair_ok s b _ _ R1 G) as (w' & E5 & R5).
  rewrite (pair_add_l P P' Q (proj2 A) (proj2 A') (proj2 G)) in R5. exists s, v, v', w. rewrite E5, (inj6 _ _ _ R5 R4). auto.
Qed.
Lemma api_add_r : forall a b b' P Q Q', hc a P -> hc b Q -> hc b' Q' ->
  exists s v v' w, point_add F b b' = Ok s /\ i_pairing p a b = Ok v /\ i_pairing p a b' = Ok v' /\ i_gt_mul p v v' = Ok w /\ i_pairing p a s = Ok w.
Proof.
  intros a b b' P Q Q' A G G'. destruct (add_ok b b' Q Q' G G') as (s & E1 & R1). destruct (pair_ok a b P Q A G) as (v & E2 & R2).
  destruct (pair_ok a b' P Q' A G') as (v' & E3 & R3). destruct (mul6 v v' _ _ R2 R3) as (w & E4 & R4). destruct (pair_ok a s _ _ A R1) as (w' & E5 & R5).
  rewrite (pair_add_r P Q Q' (proj2 A) (proj2 G) (proj2 G')) in R5. exists s, v, v', w. rewrite E5, (inj6 _ _ _ R5 R4). auto.
Qed.
Lemma api_order : forall a b P Q r, hc a P -> hc b Q -> (0 <= r)%Z -> tp_mul K r P = None \/ r = eta_N m ->
  exists v one, i_pairing p a b = Ok v /\ i_gt_one p = Ok one /\ i_gt_pow p v r = Ok one.
Proof.
  intros a b P Q r A G Hr HH. destruct (pair_ok a b P Q A G) as (v & E1 & R1). destruct one6 as (o & E2 & R2). destruct (gtpow_ok v _ r Hr R1) as (w & E3 & R3).
  exists v, o. rewrite E3. split; [exact E1 | split; [exact E2 | ]]. f_equal. apply (inj6 _ _ _ R3). 
  enough (X : fpow (tp_pair K m P Q) r = f1) by (rewrite X; exact R2).
  destruct HH as [HH | ->]; [exact (eta_order_l K HK m HO Om N3 r P Q Hr (proj2 A) (proj2 G) HH) | exact (pair_root P Q (proj2 A) (proj2 G))].
Qed.
Lemma api_N : forall a P, hc a P -> i_point_pow p a (eta_N m) = Ok None.
Proof.
  intros a P A. destruct (pow_ok a P (eta_N m) (Z.lt_le_incl _ _ (N_pos m Om N3)) A) as (c & E1 & (R1 & _)). rewrite E1. f_equal.
  assert (X : tp_mul K (eta_N m) P = None) by exact (N_kills K HK m HO Om N3 P (proj2 A)). rewrite X in R1. destruct c as [[? ?] | ]; [contradiction R1 | reflexivity].
Qed.

(** Products *)
Lemma nth_F2 : forall (A X : Type) (R : A -> X -> Prop) l l', Forall2 R l l' -> forall i x, nth_error l' i = Some x -> exists a, nth_error l i = Some a /\ R a x.
Proof. induction 1; intros [ | i] z Hz; try discriminate Hz; cbn in *. - inversion Hz; subst; eauto. - eauto. Qed.
Lemma skipn_nth : forall (A : Type) (l : list A) i x, nth_error l i = Some x -> skipn i l = x :: skipn (S i) l.
Proof. induction l as [ | y l IH]; intros [ | i] x H; try discriminate H; cbn in *. - inversion H. auto. - apply IH. auto. Qed.
Definition noninf (P : point K) : bool := match P with None => false | _ => true end.
Lemma scan_ok : forall in1 in2 Ps Qs, Forall2 hc in1 Ps -> Forall2 hc in2 Qs -> length Ps = length Qs -> forall n i, i + n = length Ps ->
  i_scan p in1 in2 i n = Ok (negb (forallb noninf (skipn i Ps) && forallb noninf (skipn i Qs))).
Proof.
  intros in1 in2 Ps Qs H1 H2 HL. induction n as [ | n IH]; intros i Hi; cbn [i_scan].
  - rewrite !skipn_all2 by lia. reflexivity.
  - destruct (nth_error Ps i) as [P | ] eqn:EP; [ | apply nth_error_None in EP; lia]. destruct (nth_error Qs i) as [Q | ] eqn:EQ; [ | apply nth_error_None in EQ; lia].
    destruct (nth_F2 _ _ _ _ _ H1 i P EP) as (a & Ea & Ra). destruct (nth_F2 _ _ _ _ _ H2 i Q EQ) as (b & Eb & Rb). unfold get. rewrite Ea, Eb. cbn [bind].
    rewrite (skipn_nth _ Ps i P EP), (skipn_nth _ Qs i Q EQ). cbn [forallb].
    destruct a as [[a a'] | ], P as [[x y] | ]; try (destruct Ra as (Ra & _); contradiction Ra); cbn [point_is0 noninf andb negb]; auto.
    destruct b as [[b b'] | ], Q as [[x' y'] | ]; try (destruct Rb as (Rb & _); contradiction Rb); cbn [point_is0 noninf andb negb].
    + apply IH. lia.
    + rewrite andb_false_r. reflexivity.
Qed.
Lemma mul6_1 : forall x : GF36m K, fmul x f1 = x.
Proof. intro x. destruct (fl_field _ H6) as [[] _ _ _]. rewrite Rmul_comm. apply Rmul_1_l. Qed.
Lemma mul6_A : forall x y z : GF36m K, fmul x (fmul y z) = fmul (fmul x y) z.
Proof. destruct (fl_field _ H6) as [[] _ _ _]. exact Rmul_assoc. Qed.
Lemma mul6_1l : forall x : GF36m K, fmul f1 x = x.
Proof. destruct (fl_field _ H6) as [[] _ _ _]. exact Rmul_1_l. Qed.
Lemma prod_loop_ok : forall in1 in2 Ps Qs, Forall2 hc in1 Ps -> Forall2 hc in2 Qs -> length Ps = length Qs -> forall n i out x, i + n = length Ps -> h6 out x ->
  returns h6 (i_prod_loop p out in1 in2 i n) (fmul x (tp_prod K m (skipn i Ps) (skipn i Qs))).
Proof.
  intros in1 in2 Ps Qs H1 H2 HL. induction n as [ | n IH]; intros i out x Hi Hx; cbn [i_prod_loop].
  - rewrite !skipn_all2 by lia. exists out. split; auto. change (tp_prod K m [] []) with (f1 : GF36m K). rewrite mul6_1. exact Hx.
  - destruct (nth_error Ps i) as [P | ] eqn:EP; [ | apply nth_error_None in EP; lia]. destruct (nth_error Qs i) as [Q | ] eqn:EQ; [ | apply nth_error_None in EQ; lia].
    destruct (nth_F2 _ _ _ _ _ H1 i P EP) as (a & Ea & Ra). destruct (nth_F2 _ _ _ _ _ H2 i Q EQ) as (b & Eb & Rb). unfold get. rewrite Ea, Eb. cbn [bind].
    destruct (eta_pt_ok a b P Q Ra Rb) as (v & Ev & Rv). rewrite Ev. cbn [bind]. destruct (mul6 out v _ _ Hx Rv) as (w & Ew & Rw). rewrite Ew. cbn [bind].
    rewrite (skipn_nth _ Ps i P EP), (skipn_nth _ Qs i Q EQ). unfold tp_prod. cbn [combine fold_right fst snd]. rewrite mul6_A.
    apply IH; [lia | exact Rw].
Qed.
Lemma prod_ok : forall in1 in2 Ps Qs, Forall2 hc in1 Ps -> Forall2 hc in2 Qs -> length Ps = length Qs -> Ps <> [] -> ~ In None Ps -> ~ In None Qs ->
  returns h6 (i_prod_pairing p in1 in2 (length Ps)) (tp_prod K m Ps Qs).
Proof.
  intros in1 in2 Ps Qs H1 H2 HL NE NP NQ. unfold i_prod_pairing. rewrite (scan_ok in1 in2 Ps Qs H1 H2 HL (length Ps) 0 eq_refl). cbn [skipn bind].
  assert (FB : forall l, ~ In None l -> forallb noninf l = true). { intros l H. apply forallb_forall. intros [? | ] HI; [reflexivity | contradiction]. }
  rewrite !FB by auto. cbn [andb negb].
  destruct Ps as [ | P Ps]; [contradiction | ]. destruct Qs as [ | Q Qs]; [discriminate HL | ].
  inversion H1 as [ | a P' in1' Ps' Ra H1']; subst. inversion H2 as [ | b Q' in2' Qs' Rb H2']; subst. unfold get. cbn [nth_error bind].
  destruct (eta_pt_ok a b P Q Ra Rb) as (v & Ev & Rv). rewrite Ev. cbn [bind].
  exact (prod_loop_ok _ _ _ _ H1 H2 HL (length Ps) 1 v _ ltac:(cbn [length]; lia) Rv) || (replace (length (P :: Ps) - 1) with (length Ps) by (cbn [length]; lia);
  exact (prod_loop_ok _ _ _ _ H1 H2 HL (length Ps) 1 v _ ltac:(cbn [length]; lia) Rv)).
Qed.
Lemma prod_inf : forall in1 in2 Ps Qs, Forall2 hc in1 Ps -> Forall2 hc in2 Qs -> length Ps = length Qs -> In None Ps \/ In None Qs ->
  returns h6 (i_prod_pairing p in1 in2 (length Ps)) f1.
Proof.
  intros in1 in2 Ps Qs H1 H2 HL HI. unfold i_prod_pairing. rewrite (scan_ok in1 in2 Ps Qs H1 H2 HL (length Ps) 0 eq_refl). cbn [skipn bind].
  assert (X : forallb noninf Ps && forallb noninf Qs = false).
  { apply andb_false_iff. destruct HI as [HI | HI]; [left | right]; apply not_true_is_false; intro G; rewrite forallb_forall in G; specialize (G _ HI); discriminate G. }
  rewrite X. exact one6.
Qed.
Lemma prod_empty : forall in1 in2, i_prod_pairing p in1 in2 0 = match in1, in2 with a :: _, b :: _ => eta_T_pairing F (p_m p) a b | _, _ => UB end.
Proof.
  intros [ | a in1] [ | b in2]; unfold i_prod_pairing; cbn; try reflexivity. destruct (eta_T_pairing F (p_m p) a b); reflexivity.
Qed.
(** element_is_almost_coddh *)
Lemma coddh_ok : forall a b c d P Q R S, hc a P -> hc b Q -> hc c R -> hc d S ->
  exists r, i_is_almost_coddh p a b c d = Ok r /\ (r = true <-> tp_pair K m P S = tp_pair K m Q R \/ fmul (tp_pair K m P S) (tp_pair K m Q R) = f1).
Proof.
  intros a b c d P Q R S A G C DD. unfold i_is_almost_coddh. destruct (pair_ok a d P S A DD) as (t0 & E0 & R0). destruct (pair_ok b c Q R G C) as (t1 & E1 & R1).
  rewrite E0, E1. cbn [bind]. destruct (i_cmp _ _ _ L6 t0 t1 _ _ R0 R1) as (r & Er & Hr). change (o_cmp t0 t1) with (gf33m_cmp (gf32m_ops F) t0 t1) in Er. rewrite Er. cbn [bind].
  destruct (Z.eqb_spec r 0) as [Z | Z]; [exists true; split; [reflexivity | split; [intros _; left; apply Hr; exact Z | reflexivity]] | ].
  destruct (mul6 t0 t1 _ _ R0 R1) as (t2 & E2 & R2). rewrite E2. cbn [bind]. destruct one6 as (o & E3 & R3). rewrite E3. cbn [bind].
  destruct (i_cmp _ _ _ L6 t2 o _ _ R2 R3) as (r' & Er' & Hr'). change (o_cmp t2 o) with (gf33m_cmp (gf32m_ops F) t2 o) in Er'. rewrite Er'. cbn [bind].
  exists (r' =? 0)%Z. split; [reflexivity | ]. rewrite Z.eqb_eq, Hr'. split; [auto | ]. intros [X | X]; [elim Z; apply Hr; exact X | exact X].
Qed.
Lemma coddh_acc : forall a b c d P Q x S, (0 <= x)%Z -> hc a P -> hc b (tp_mul K x P) -> hc c Q -> hc d S -> S = tp_mul K x Q \/ S = pneg (tp_mul K x Q) ->
  i_is_almost_coddh p a b c d = Ok true.
Proof.
  intros a b c d P Q x S Hx A G C DD HS. destruct (coddh_ok a b c d P _ Q S A G C DD) as (r & Er & Hr). rewrite Er. f_equal. apply Hr.
  assert (M1 : forall R, tp_on K R -> tp_mul K 1 R = R) by (intros; exact (add_0_r K (fopp f1) R)).
  assert (X1 : tp_pair K m (tp_mul K x P) Q = fpow (tp_pair K m P Q) x).
  { transitivity (tp_pair K m (tp_mul K x P) (tp_mul K 1 Q)); [rewrite (M1 Q (proj2 C)); reflexivity | ].
    rewrite (pair_bil P Q x 1 (proj2 A) (proj2 C) Hx ltac:(discriminate)). f_equal. apply Z.mul_1_r. }
  assert (X2 : tp_pair K m P (tp_mul K x Q) = fpow (tp_pair K m P Q) x).
  { transitivity (tp_pair K m (tp_mul K 1 P) (tp_mul K x Q)); [rewrite (M1 P (proj2 A)); reflexivity | ].
    rewrite (pair_bil P Q 1 x (proj2 A) (proj2 C) ltac:(discriminate) Hx). f_equal. apply Z.mul_1_l. }
  destruct HS as [-> | ->]; [left; rewrite X1, X2; reflexivity | right].
  rewrite X1, <- X2. pose proof (on_mul x Q (proj2 C)) as OQ. rewrite <- (pair_add_r P _ _ (proj2 A) (on_neg _ OQ) OQ).
  unfold tp_add. rewrite (add_comm K HK (fopp f1)). rewrite (add_neg_r K HK (fopp f1) (proj1 EL)). destruct P as [[? ?] | ]; reflexivity.
Qed.
Lemma mul_mul : forall P i j, tp_on K P -> (0 <= i)%Z -> (0 <= j)%Z -> tp_mul K (i * j) P = tp_mul K i (tp_mul K j P).
Proof. intros. exact (zmul_mul K HK (fopp f1) f1 (proj1 EL) (proj2 EL) P i j H H0 H1). Qed.
Lemma random_order : forall n n2 y0 xs pre v post, (0 <= n)%Z -> (0 <= n2)%Z -> (n * n2 = eta_N m)%Z -> Forall2 h1 xs (pre ++ v :: post) -> hd f0 (pre ++ v :: post) <> f0 ->
  Forall (fun w => ~ tp_abscissa K w) pre -> tp_abscissa K v ->
  exists a P, i_point_random p n2 y0 xs = Ok a /\ hc a P /\ i_point_pow p a n = Ok None.
Proof.
  intros n n2 y0 xs pre v post Hn Hn2 EN F2 NZ FN GV. destruct (random_ok n2 y0 xs pre v post Hn2 F2 NZ FN GV) as (y & ON & (a & Ea & Ra)).
  exists a, (tp_mul K n2 (Some (v, y))). split; [exact Ea | split; [exact Ra | ]].
  destruct (pow_ok a _ n Hn Ra) as (c & Ec & (Rc & _)). rewrite Ec. f_equal. rewrite <- mul_mul in Rc by auto. rewrite EN in Rc.
  rewrite (N_kills K HK m HO Om N3 (Some (v, y)) ON : tp_mul K (eta_N m) (Some (v, y)) = None) in Rc. destruct c as [[? ?] | ]; [contradiction Rc | reflexivity].
Qed.
Lemma random_first_0 : forall n2 y0 xs x, h1 x f0 -> i_point_random p n2 y0 (x :: xs) = i_point_pow p (Some (x, y0)) n2.
Proof.
  intros n2 y0 xs x (Vx & Ex). unfold i_point_random. rewrite (p_len_ok m t p D E). destruct (m_one m t D) as (e1 & E1 & _). rewrite E1. cbn [bind i_random_loop].
  rewrite (proj2 (m_is0 m t x Vx) Ex). destruct (b_cmp _ _ _ _ (m_zero m t) (m_zero m t)) as (r & Er & Hr). rewrite Er. cbn [bind].
  rewrite (proj2 (Z.eqb_eq r 0) (proj2 Hr eq_refl)). reflexivity.
Qed.
Lemma gt_random_ok : forall n n2 xs pre v post xs' pre' v' post', (0 <= n)%Z -> (0 <= n2)%Z -> (n * n2 = eta_N m)%Z ->
  Forall2 h1 xs (pre ++ v :: post) -> hd f0 (pre ++ v :: post) <> f0 -> Forall (fun w => ~ tp_abscissa K w) pre -> tp_abscissa K v ->
  Forall2 h1 xs' (pre' ++ v' :: post') -> hd f0 (pre' ++ v' :: post') <> f0 -> Forall (fun w => ~ tp_abscissa K w) pre' -> tp_abscissa K v' ->
  exists g one, i_gt_random p n2 xs xs' = Ok g /\ i_gt_one p = Ok one /\ i_gt_pow p g n = Ok one.
Proof.
  intros n n2 xs pre v post xs' pre' v' post' Hn Hn2 EN F2 NZ FN GV F2' NZ' FN' GV'.
  destruct (random_ok n2 (zero (p_len p)) xs pre v post Hn2 F2 NZ FN GV) as (y & ON & (a & Ea & Ra)).
  destruct (random_ok n2 (zero (p_len p)) xs' pre' v' post' Hn2 F2' NZ' FN' GV') as (y' & ON' & (b & Eb & Rb)).
  destruct (api_order a b _ _ n Ra Rb Hn) as (g & o & E1 & E2 & E3).
  { left. rewrite <- mul_mul by auto. rewrite EN. exact (N_kills K HK m HO Om N3 (Some (v, y)) ON). }
  exists g, o. unfold i_gt_random. rewrite Ea, Eb. cbn [bind]. auto.
Qed.
End M.

(** The first x is 0, over GF(3^5): a point that was new comes out as (0, 0),
    which is not on the curve, and is not the identity after multiplying by
    the order 31 (217 = 7 * 31). *)
Definition coordP (p : params) (r : res (pt (gf3m_ops p))) : list elt := match r with Ok (Some (x, y)) => [x; y] | _ => [] end.
Lemma coordP_inv : forall p r a b, coordP p r = [a; b] -> r = Ok (Some (a, b)).
Proof. intros p [[[x y] | ] | | | ] a b H; cbn in H; inversion H; subst; reflexivity. Qed.
Lemma rnd5 : i_point_random p5 7 zero5 [zero5; one5] = Ok (Some (zero5, zero5)) /\ i_point_pow p5 (Some (zero5, zero5)) 31 = Ok (Some (zero5, zero5)).
Proof. split; apply coordP_inv; vm_compute; reflexivity. Qed.
Section OC.
Variable K : fld.
Hypothesis HK : fld_laws K.
Add Field KFoc : (fl_field K HK).
Lemma off_curve : ~ tp_on K (Some (f0, f0)).
Proof. intro H. cbn in H. unfold rhs in H. apply (f_1_neq_0 K HK). transitivity (fadd (fadd (fmul (fmul f0 f0) f0) (fmul (fopp f1) f0)) (f1 : K)); [ring | rewrite <- H; ring]. Qed.
Lemma on_01 : tp_on K (Some (f0, f1)) /\ tp_on K (Some (f1, f1)). Proof. split; cbn; unfold rhs; ring. Qed.
Lemma abs_1 : tp_abscissa K f1.
Proof. split; [apply (f_1_neq_0 K HK) | exists f1; ring]. Qed.
End OC.
Lemma N5 : eta_N 5 = 217%Z. Proof. reflexivity. Qed.
Lemma points5 : holds_curve_point 5 4 p5 (Some (zero5, one5)) (Some (f0, f1)) /\ holds_curve_point 5 4 p5 (Some (one5, one5)) (Some (f1, f1)).
Proof.
  destruct (on_01 (GF3m 5 4) (proj1 (m_field 5 4 dims5 tri5_irr))) as (A & B). destruct holds5 as (Z & O).
  split; (split; [split; assumption | assumption]).
Qed.
Lemma abs5 : tp_abscissa (GF3m 5 4) f1. Proof. exact (abs_1 (GF3m 5 4) (proj1 (m_field 5 4 dims5 tri5_irr))). Qed.
Lemma off5 : ~ tp_on (GF3m 5 4) (Some (f0, f0)). Proof. exact (off_curve (GF3m 5 4) (proj1 (m_field 5 4 dims5 tri5_irr))). Qed.
Lemma rnd_ref : exists p n n2, (dims 5 4 /\ field_init_gf3m 5 4 = Ok p /\ irreducible (trinomial 5 4) /\ Nat.odd 5 = true /\ 5 mod 3 <> 0) /\ (n * n2 = eta_N 5)%Z /\ (1 < n)%Z /\
  exists xs a P, Forall2 (holds 5 4) xs [f0; f1] /\ i_point_random p n2 (zero (p_len p)) xs = Ok a /\ holds_point 5 4 p a P /\ ~ tp_on (GF3m 5 4) P /\ i_point_pow p a n <> Ok None.
Proof.
  exists p5, 31%Z, 7%Z. split; [split; [exact dims5 | split; [exact init5 | split; [exact tri5_irr | split; [reflexivity | discriminate]]]] | ]. split; [reflexivity | ]. split; [reflexivity | ].
  destruct holds5 as (Z & O). exists [zero5; one5], (Some (zero5, zero5)), (Some (f0, f0)).
  split; [constructor; [exact Z | constructor; [exact O | constructor]] | ]. split; [exact (proj1 rnd5) | ]. split; [split; exact Z | ]. split; [exact off5 | ].
  rewrite (proj2 rnd5). discriminate.
Qed.
