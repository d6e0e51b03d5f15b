(** The final exponentiation of the eta_T pairing. *)
From Coq Require Import ZArith List Bool Lia Arith Ring Field Znumtheory.
From Verif.Base Require Import Outcome Algebra Slots.
From Verif.Spec Require Import FiniteField Polynomials Quadratic Extension Ternary TernaryTower EtaT.
From Verif.Model Require Import GF3m GF3Tower EtaT3.
From Verif.Proofs Require Import PowFacts FieldFacts SlotFacts RootFacts QuadFacts ExtFacts GTFacts BilinearZ TowerAlgebra TowerFields TowerFacts.
Import ListNotations.
Open Scope nat_scope.

Section M.
Variables (F : gfops) (K : fld) (rep : car F -> K -> Prop).
Hypothesis HK : fld_laws K.
Variable m : nat.
Hypothesis HO : has_order K (3 ^ Z.of_nat m).
Hypothesis Om : Nat.odd m = true.
Hypothesis N3 : m mod 3 <> 0.
Hypothesis I : implements F K rep.
Hypothesis IN : implements_neg F K rep.
Hypothesis IV : implements_inv F K rep.
Let C3 : fadd (fadd f1 f1) f1 = (f0 : K) := order_char3 K m HK HO.
Let RK : ring_theory (f0 : K) f1 fadd fmul fsub fopp eq := F_R (fl_field K HK).
Add Ring KR3f : RK (morphism (t_morph K RK C3), constants [t_const]).
Local Notation "x + y" := (@fadd K x y). Local Notation "x * y" := (@fmul K x y). Local Notation "x - y" := (@fsub K x y). Local Notation "- x" := (@fopp K x).
Local Notation F2 := (GF32m K). Local Notation F3 := (GF33m K). Local Notation F6 := (GF36m K).
Let H3 : fld_laws F3 := laws33m K HK m HO N3.
Let C33 : fadd (fadd f1 f1) f1 = (f0 : F3) := char33 K HK C3.
Let RK3 : ring_theory (f0 : F3) f1 fadd fmul fsub fopp eq := F_R (fl_field F3 H3).
Add Ring KR3f3 : RK3 (morphism (t_morph F3 RK3 C33), constants [t_const]).
Let H6 : fld_laws F6 := laws36 K HK m HO Om N3.
Let RK6 : ring_theory (f0 : F6) f1 fadd fmul fsub fopp eq := F_R (fl_field F6 H6).
Add Ring KR6f : RK6.
Local Notation q := (3 ^ Z.of_nat m)%Z.
Local Notation q3 := (3 ^ Z.of_nat (3 * m))%Z.
Definition rep6 : car (gf36m_ops F) -> F6 -> Prop := rep3 (gf32m_ops F) F2 (rep2 F K rep).
Let I3 : implements (gf33m_ops F) F3 (rep3 F K rep) := impl3 F K rep HK C3 I.
Let I6 : implements (gf36m_ops F) F6 rep6 := impl3 (gf32m_ops F) F2 (rep2 F K rep) (laws32 K HK m HO Om) (char32 K HK m HO Om) (impl2 F K rep HK C3 I IN).
Lemma mk6_rep : forall a0 a1 a2 a3 a4 a5 u0 u1 u2 u3 u4 u5, rep a0 u0 -> rep a1 u1 -> rep a2 u2 -> rep a3 u3 -> rep a4 u4 -> rep a5 u5 ->
  rep6 (mk6 F a0 a1 a2 a3 a4 a5) (elt6 u0 u1 u2 u3 u4 u5).
Proof. intros. split; [ | split]; split; assumption. Qed.
Lemma rep6_inv : forall a u0 u1 u2 u3 u4 u5, rep6 a (elt6 u0 u1 u2 u3 u4 u5) -> exists a0 a1 a2 a3 a4 a5, a = mk6 F a0 a1 a2 a3 a4 a5 /\
  rep a0 u0 /\ rep a1 u1 /\ rep a2 u2 /\ rep a3 u3 /\ rep a4 u4 /\ rep a5 u5.
Proof. intros [[a0 a1] [a2 a3] [a4 a5]] u0 u1 u2 u3 u4 u5 ((A & B) & (C & D) & (E & G)). exists a0, a1, a2, a3, a4, a5. split; [reflexivity | ]. repeat split; assumption. Qed.
(** v0 + v1 i with v0, v1 in GF(3^3m) *)
Definition J (a b : F3) : F6 := elt6 (vcoef a 0) (vcoef b 0) (vcoef a 1) (vcoef b 1) (vcoef a 2) (vcoef b 2).
Lemma J_mul : forall a b c d : F3, fmul (J a b) (J c d) = J (fsub (fmul a c) (fmul b d)) (fadd (fmul a d) (fmul b c)).
Proof.
  intros. rewrite (elt3_eta K a), (elt3_eta K b), (elt3_eta K c), (elt3_eta K d).
  generalize (vcoef a 0) (vcoef a 1) (vcoef a 2) (vcoef b 0) (vcoef b 1) (vcoef b 2) (vcoef c 0) (vcoef c 1) (vcoef c 2) (vcoef d 0) (vcoef d 1) (vcoef d 2).
  intros a0 a1 a2 b0 b1 b2 c0 c1 c2 d0 d1 d2. rewrite !(elt3_mul K HK C3), !(elt3_sub K), !(elt3_add K). unfold J.
  repeat match goal with
  | |- context [vcoef (elt3 ?x ?y ?z) 0] => change (vcoef (elt3 x y z) 0) with x
  | |- context [vcoef (elt3 ?x ?y ?z) 1] => change (vcoef (elt3 x y z) 1) with y
  | |- context [vcoef (elt3 ?x ?y ?z) 2] => change (vcoef (elt3 x y z) 2) with z
  end.
  rewrite (elt6_mul K HK m HO Om). f_equal; ring.
Qed.
Lemma J_elt : forall u0 u1 u2 u3 u4 u5 : K, elt6 u0 u1 u2 u3 u4 u5 = J (elt3 u0 u2 u4) (elt3 u1 u3 u5). Proof. reflexivity. Qed.
Lemma conj_J : forall a b : F3, fpow (J a b) q3 = J a (fopp b).
Proof.
  intros. unfold J. rewrite (conj36 K HK m HO Om N3). rewrite (elt3_eta K b), (elt3_opp K). reflexivity.
Qed.
Lemma pow_m1 : forall (x y : F6) e, (0 < e)%Z -> x <> f0 -> fmul y x = fpow x e -> y = fpow x (e - 1).
Proof.
  intros x y e E NZ H. apply (f_cancel F6 H6 x); auto. transitivity (fmul y x); [ring | ]. rewrite H. replace e with (1 + (e - 1))%Z at 1 by lia.
  rewrite (fpowA F6 H6) by lia. change (fpow x 1) with (fmul x f1). ring.
Qed.
Lemma norm_nz : forall a b : F3, J a b <> f0 -> fadd (fmul a a) (fmul b b) <> f0.
Proof.
  intros a b NZ E. apply NZ. pose proof (qnorm_0 F3 H3 (fopp f1) (nsq3 K HK m HO Om N3) (a, b)) as Q. unfold qnorm in Q. cbn [fst snd] in Q.
  assert (Z : (a, b) = (f0, f0)). { apply Q. rewrite <- E. ring. }
  assert (Za : a = f0) by exact (f_equal fst Z). assert (Zb : b = f0) by exact (f_equal snd Z). clear Q Z E NZ. rewrite Za, Zb. unfold J. rewrite (elt3_0 K).
  symmetry. exact (elt3_0 F2).
Qed.
Local Notation rp3 := (rep3 F K rep).
Lemma g_mul : forall a b (x y : F3), rp3 a x -> rp3 b y -> stores rp3 (gf33m_mult F a b) (fmul x y). Proof. exact (i_mul _ _ _ I3). Qed.
Lemma g_add : forall a b (x y : F3), rp3 a x -> rp3 b y -> stores rp3 (gf33m_add F a b) (fadd x y). Proof. exact (i_add _ _ _ I3). Qed.
Lemma g_sub : forall a b (x y : F3), rp3 a x -> rp3 b y -> stores rp3 (gf33m_sub F a b) (fsub x y). Proof. exact (i_sub _ _ _ I3). Qed.
Lemma g_inv : forall a (x : F3), rp3 a x -> x <> f0 -> stores rp3 (gf33m_invert F a) (finv x).
Proof. exact (inv3 F K rep HK C3 I (z3_irreducible K HK C3 m HO N3) IV). Qed.
Ltac g3 := eapply stores_bind; [first [apply g_mul; eassumption | apply g_add; eassumption | apply g_sub; eassumption]
  | let c := fresh "c" in let R := fresh "R" in intros c R; cbv beta].
Lemma algorithm6_ok : forall u x, rep6 u x -> x <> f0 -> stores rep6 (algorithm6 F u) (fpow x (q3 - 1)).
Proof.
  intros u x R NZ. destruct (elt6_eta K x) as (u0 & u1 & u2 & u3 & u4 & u5 & ->). rewrite J_elt in *. set (v0 := elt3 u0 u2 u4) in *. set (v1 := elt3 u1 u3 u5) in *.
  destruct (rep6_inv _ _ _ _ _ _ _ R) as (a0 & a1 & a2 & a3 & a4 & a5 & -> & R0 & R1 & R2 & R3 & R4 & R5). unfold algorithm6. cbn [mk6 g_0 g_1 g_2].
  assert (V0 : rep3 F K rep (G3 a0 a2 a4) v0) by (split; [ | split]; assumption).
  assert (V1 : rep3 F K rep (G3 a1 a3 a5) v1) by (split; [ | split]; assumption).
  do 5 g3. pose proof (norm_nz v0 v1 NZ) as D.
  eapply stores_bind; [apply g_inv; eassumption | intros i Ri]. do 2 g3. apply stores_ok.
  set (n := fadd (fmul v0 v0) (fmul v1 v1)) in *. set (w0 := fmul (fsub (fmul v0 v0) (fmul v1 v1)) (finv n)) in *. set (w1 := fmul (fmul v0 v1) (finv n)) in *.
  replace (fpow (J v0 v1) (q3 - 1)) with (J w0 w1).
  - match goal with A : rep3 _ _ _ _ w0, B : rep3 _ _ _ _ w1 |- _ => destruct A as (A0 & A1 & A2); destruct B as (B0 & B1 & B2) end. apply mk6_rep; assumption.
  - apply pow_m1; [apply Z.pow_pos_nonneg; lia | auto | ]. rewrite conj_J, J_mul.
    assert (U : fmul (finv n) n = f1) by exact (Finv_l (fl_field F3 H3) n D). f_equal.
    + transitivity (fmul v0 (fmul (finv n) n)); [unfold w0, w1, n; ring | rewrite U; ring].
    + transitivity (fopp (fmul v1 (fmul (finv n) n))); [unfold w0, w1, n; ring | rewrite U; ring].
Qed.

(** algorithm7 on elements of norm 1 over GF(3^3m). *)
Lemma unit_coords : forall u0 u1 u2 u3 u4 u5 : K, let x := elt6 u0 u1 u2 u3 u4 u5 : F6 in fmul x (fpow x q3) = f1 ->
  ((u0 * u0 + u1 * u1) + ((u2 * u4 + u3 * u5) + (u4 * u2 + u5 * u3))) - f1 = f0 /\
  (u0 * u2 + u1 * u3) + (u2 * u0 + u3 * u1) + ((u2 * u4 + u3 * u5) + (u4 * u2 + u5 * u3)) + (u4 * u4 + u5 * u5) = f0 /\
  (u0 * u4 + u1 * u5) + (u2 * u2 + u3 * u3) + (u4 * u0 + u5 * u1) + (u4 * u4 + u5 * u5) = f0.
Proof.
  intros u0 u1 u2 u3 u4 u5 x E. unfold x in E. rewrite (conj36 K HK m HO Om N3), (elt6_mul K HK m HO Om), (elt6_1 K) in E. apply (elt6_inj K) in E.
  destruct E as (A & _ & B & _ & C & _). repeat split; [rewrite <- A | rewrite <- B | rewrite <- C]; ring.
Qed.
Lemma m_mod6 : (m mod 6 = 1 \/ m mod 6 = 5)%nat.
Proof.
  pose proof (Nat.mod_upper_bound m 6 ltac:(lia)) as B. pose proof (Nat.div_mod m 6 ltac:(lia)) as D. set (r := (m mod 6)%nat) in *. set (k := (m / 6)%nat) in *.
  destruct (proj1 (Nat.odd_spec m) Om) as [j J0].
  assert (X : (m mod 3 = r mod 3)%nat). { rewrite D. replace (6 * k + r)%nat with (r + (2 * k) * 3)%nat by lia. apply Nat.mod_add. lia. }
  clearbody r k. assert (r <> 0 /\ r <> 2 /\ r <> 4)%nat by lia. assert (r <> 3)%nat by (intro U; rewrite U in X; apply N3; exact X). lia.
Qed.
Lemma n_m : (fofz (Z.of_nat m) : K) = if (m mod 6 =? 1)%nat then f1 else - f1.
Proof.
  pose proof (Nat.div_mod m 6 ltac:(lia)) as D. rewrite (fofz_mod3 K HK C3).
  assert (X : (Z.of_nat m mod 3 = Z.of_nat (m mod 6) mod 3)%Z).
  { rewrite D at 1. replace (Z.of_nat (6 * (m / 6) + m mod 6)) with (Z.of_nat (m mod 6) + (2 * Z.of_nat (m / 6)) * 3)%Z by lia. apply Z.mod_add. lia. }
  rewrite X. destruct m_mod6 as [E | E]; rewrite E; cbn; ring.
Qed.
Ltac lin k0 k2 k4 D0 D2 D4 :=
  match type of D0 with ?e0 = _ => match type of D2 with ?e2 = _ => match type of D4 with ?e4 = _ =>
  match goal with |- ?v = _ => transitivity (v + (k0 * e0 + k2 * e2 + k4 * e4)); [rewrite D0, D2, D4; ring | ring] end end end end.
Lemma algorithm7_ok : forall u x, rep6 u x -> fmul x (fpow x q3) = f1 -> stores rep6 (algorithm7 F (Z.of_nat m) u) (fpow x (q + 1)).
Proof.
  intros u x R U. destruct (elt6_eta K x) as (u0 & u1 & u2 & u3 & u4 & u5 & ->). destruct (unit_coords _ _ _ _ _ _ U) as (D0 & D2 & D4).
  rewrite J_elt in R. destruct (rep6_inv _ _ _ _ _ _ _ R) as (a0 & a1 & a2 & a3 & a4 & a5 & -> & R0 & R1 & R2 & R3 & R4 & R5).
  change (rep a0 u0) in R0. change (rep a1 u1) in R1. change (rep a2 u2) in R2. change (rep a3 u3) in R3. change (rep a4 u4) in R4. change (rep a5 u5) in R5. clear R U.
  unfold algorithm7. cbn [mk6 g_0 g_1 g_2]. repeat step I IN.
  assert (Q : (0 < q)%Z) by (apply Z.pow_pos_nonneg; lia).
  replace (Z.of_nat m mod 6)%Z with (Z.of_nat (m mod 6)) by (rewrite Nat2Z.inj_mod; reflexivity).
  pose proof n_m as NM. destruct m_mod6 as [E | E]; rewrite E in *; cbn [Nat.eqb] in NM; cbn [Z.of_nat Z.eqb Pos.of_succ_nat Pos.succ Pos.eqb].
  - repeat step I IN. apply stores_ok. eapply rep_eq; [apply mk6_rep; eassumption | ].
    rewrite (fpowA F6 H6) by lia. change (fpow (elt6 u0 u1 u2 u3 u4 u5) 1) with (fmul (elt6 u0 u1 u2 u3 u4 u5 : F6) f1).
    rewrite (frob36 K HK m HO Om N3). cbv zeta. rewrite NM.
    transitivity (fmul (elt6 u0 u1 u2 u3 u4 u5 : F6) (elt6 (u0 + f1 * u2 + f1 * f1 * u4) (- (u1 + f1 * u3 + f1 * f1 * u5)) (u2 - f1 * u4) (- (u3 - f1 * u5)) u4 (- u5))); [ | ring].
    rewrite (elt6_mul K HK m HO Om).
    f_equal; [lin (f1 : K) (- f1) (f0 : K) D0 D2 D4 | ring | lin (f0 : K) (- f1) (f1 : K) D0 D2 D4 | ring | lin (f0 : K) (f1 : K) (f1 : K) D0 D2 D4 | ring].
  - repeat step I IN. apply stores_ok. eapply rep_eq; [apply mk6_rep; eassumption | ].
    rewrite (fpowA F6 H6) by lia. change (fpow (elt6 u0 u1 u2 u3 u4 u5) 1) with (fmul (elt6 u0 u1 u2 u3 u4 u5 : F6) f1).
    rewrite (frob36 K HK m HO Om N3). cbv zeta. rewrite NM.
    transitivity (fmul (elt6 u0 u1 u2 u3 u4 u5 : F6) (elt6 (u0 + - f1 * u2 + - f1 * - f1 * u4) (- (u1 + - f1 * u3 + - f1 * - f1 * u5)) (u2 - - f1 * u4) (- (u3 - - f1 * u5)) u4 (- u5))); [ | ring].
    rewrite (elt6_mul K HK m HO Om).
    f_equal; [lin (f1 : K) (f1 : K) (f0 : K) D0 D2 D4 | ring | lin (f0 : K) (f0 : K) (- f1) D0 D2 D4 | ring | lin (f0 : K) (f1 : K) (f1 : K) D0 D2 D4 | ring].
Qed.

Lemma order_e : (q3 * q3 = 3 ^ Z.of_nat (6 * m))%Z.
Proof. rewrite <- Z.pow_add_r by lia. f_equal. lia. Qed.
Lemma q3_pos : (1 <= q3)%Z. Proof. assert (0 < q3)%Z by (apply Z.pow_pos_nonneg; lia). lia. Qed.
Lemma q_pos : (1 <= q)%Z. Proof. assert (0 < q)%Z by (apply Z.pow_pos_nonneg; lia). lia. Qed.
Lemma six : forall x : F6, x <> f0 -> fpow x (3 ^ Z.of_nat (6 * m) - 1) = f1.
Proof. intros x NZ. apply (fermat_f F6 H6 _ (order36 K m HO N3)); auto. Qed.
Lemma unit_6 : forall x : F6, x <> f0 -> let v := fpow x (q3 - 1) in fmul v (fpow v q3) = f1.
Proof.
  intros x NZ v. unfold v. pose proof q3_pos. rewrite <- (fpowM F6 H6) by lia. rewrite <- (fpowA F6 H6) by nia.
  replace (q3 - 1 + (q3 - 1) * q3)%Z with (q3 * q3 - 1)%Z by ring. rewrite order_e. apply six; auto.
Qed.
Lemma fpowB : forall (a b : F6) k, fpow (fmul a b) k = fmul (fpow a k) (fpow b k).
Proof. exact (fpow_base F6 H6). Qed.
Lemma unit_pow : forall (v : F6) e, (0 <= e)%Z -> fmul v (fpow v q3) = f1 -> fmul (fpow v e) (fpow (fpow v e) q3) = f1.
Proof.
  intros v e E U. pose proof q3_pos. rewrite <- (fpowM F6 H6) by lia. rewrite (Z.mul_comm e q3), (fpowM F6 H6) by lia.
  rewrite <- fpowB, U. apply (fpow1 F6 H6).
Qed.

Lemma cubes_ok : forall n u (x : F6), rep6 u x -> stores rep6 (cubes F n u) (fpow x (3 ^ Z.of_nat n)).
Proof.
  induction n; intros u x R.
  - cbn [cubes]. apply stores_ok. eapply rep_eq; [eassumption | ]. change (fpow x (3 ^ Z.of_nat 0)) with (fmul x f1). ring.
  - cbn [cubes]. eapply stores_bind; [exact (i_cubic _ _ _ I6 _ _ R) | intros c Rc].
    rewrite Nat2Z.inj_succ, Z.pow_succ_r by lia. rewrite (fpowM F6 H6) by (try apply Z.pow_nonneg; lia).
    replace (fpow x 3) with (fmul x (fmul x x)); [apply IHn; exact Rc | ]. change (fpow x 3) with (fmul x (fmul x (fmul x f1))). ring.
Qed.
Local Notation tm := (3 ^ ((Z.of_nat m + 1) / 2))%Z.
Lemma tm_le : (1 <= tm <= q)%Z.
Proof.
  destruct (proj1 (Nat.odd_spec m) Om) as [j J0]. split.
  - assert (0 < tm)%Z by (apply Z.pow_pos_nonneg; [lia | apply Z.div_pos; lia]). lia.
  - apply Z.pow_le_mono_r; [lia | ]. apply Z.div_le_upper_bound; lia.
Qed.
Lemma algorithm8_ok : forall u x, rep6 u x -> x <> f0 ->
  stores rep6 (algorithm8 F (Z.of_nat m) u) (fpow x ((q3 - 1) * (q + 1) * (q + 1 - eta_mu m * tm))).
Proof.
  intros u x R NZ. pose proof q3_pos as P3. pose proof q_pos as P1. pose proof tm_le as PT. unfold algorithm8.
  eapply stores_bind; [apply algorithm6_ok; eassumption | intros v0 R0]. pose proof (unit_6 x NZ) as U0. cbv zeta in U0. set (y0 := fpow x (q3 - 1)) in *.
  eapply stores_bind; [apply algorithm7_ok; eassumption | intros v1 R1]. pose proof (unit_pow y0 (q + 1) ltac:(lia) U0) as U1. set (y1 := fpow y0 (q + 1)) in *.
  eapply stores_bind; [apply cubes_ok; eassumption | intros w Rw].
  replace (Z.of_nat (Z.to_nat (Z.quot (Z.of_nat m + 1) 2))) with ((Z.of_nat m + 1) / 2)%Z in Rw
    by (rewrite Z.quot_div_nonneg by lia; rewrite Z2Nat.id; [reflexivity | apply Z.div_pos; lia]).
  eapply stores_bind; [apply algorithm7_ok; eassumption | intros v2 R2].
  assert (V : fpow x ((q3 - 1) * (q + 1) * (q + 1 - eta_mu m * tm)) = fpow y1 (q + 1 - eta_mu m * tm)).
  { assert (0 <= q + 1 - eta_mu m * tm)%Z by (unfold eta_mu; destruct ((Z.of_nat m mod 12 =? 1)%Z || (Z.of_nat m mod 12 =? 11)%Z); lia).
    rewrite (fpowM F6 H6) by nia. rewrite (fpowM F6 H6) by lia. reflexivity. }
  rewrite V. clear V. unfold eta_mu. destruct ((Z.of_nat m mod 12 =? 1)%Z || (Z.of_nat m mod 12 =? 11)%Z) eqn:M.
  - assert (Rc : stores rep6 (n0 <- o_neg true (snd (g_0 w)) ;; n1 <- o_neg true (snd (g_1 w)) ;; n2 <- o_neg true (snd (g_2 w)) ;;
        Ok (mk6 F (fst (g_0 w)) n0 (fst (g_1 w)) n1 (fst (g_2 w)) n2)) (fpow (fpow y1 tm) q3)).
    { destruct (elt6_eta K (fpow y1 tm)) as (u0 & u1 & u2 & u3 & u4 & u5 & E). rewrite E in *. rewrite J_elt in Rw.
      destruct (rep6_inv _ _ _ _ _ _ _ Rw) as (a0 & a1 & a2 & a3 & a4 & a5 & -> & S0 & S1 & S2 & S3 & S4 & S5).
      change (rep a0 u0) in S0. change (rep a1 u1) in S1. change (rep a2 u2) in S2. change (rep a3 u3) in S3. change (rep a4 u4) in S4. change (rep a5 u5) in S5.
      unfold mk6. cbn [g_0 g_1 g_2 fst snd]. repeat step I IN. apply stores_ok. rewrite (conj36 K HK m HO Om N3). apply mk6_rep; assumption. }
    eapply stores_bind; [exact Rc | intros w' Rw'].
    destruct (i_mul _ _ _ I6 _ _ _ _ R2 Rw') as (c & A & B). exists c. split; [exact A | ]. eapply rep_eq; [exact B | ].
    pose proof (unit_pow y1 tm ltac:(lia) U1) as UT.
    transitivity (fmul (fmul (fpow y1 (q + 1 - 1 * tm)) (fpow y1 tm)) (fpow (fpow y1 tm) q3)).
    + rewrite <- (fpowA F6 H6) by lia. do 2 f_equal. ring.
    + transitivity (fmul (fpow y1 (q + 1 - 1 * tm)) (fmul (fpow y1 tm) (fpow (fpow y1 tm) q3))); [ring | rewrite UT; ring].
  - cbn [bind]. destruct (i_mul _ _ _ I6 _ _ _ _ R2 Rw) as (c & A & B). exists c. split; [exact A | ]. eapply rep_eq; [exact B | ].
    rewrite <- (fpowA F6 H6) by lia. f_equal. ring.
Qed.
End M.
