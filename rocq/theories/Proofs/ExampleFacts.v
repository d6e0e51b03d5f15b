(** Honest runs of the programs of example/, for every bilinear pairing. *)
From Coq Require Import ZArith Znumtheory List Bool Lia Ring Field.
From Verif.Base Require Import Outcome Gmp Algebra Slots.
From Verif.Spec Require Import Curve Tate PairingValue HashToCurve.
From Verif.Model Require Import GenericPow Curve CurveCodec GT Examples.
From Verif.Proofs Require Import PowFacts FieldFacts CurveGroup CurveFacts Bilinear BilinearZ GTFacts GmpFacts TateFacts CurvePublic.
Local Open Scope Z_scope.

Section Pt.
Variable K : fld.
Hypothesis HK : fld_laws K.
Variables a b : K.
Hypothesis HE : elliptic K a b.
Variable r : Z.
Hypothesis RP : 0 < r.
Local Notation G := (torsion K a b r).
Lemma t_sub : subgroup K a b G.
Proof.
  split.
  - intros P []; auto.
  - split; [exact Logic.I | apply pzmul_0].
  - intros P Q [O1 T1] [O2 T2]. split; [apply (onadd K HK a b HE); auto | ]. rewrite (zmul_dist K HK a b (proj1 HE) (proj2 HE)) by (auto; lia). rewrite T1, T2. reflexivity.
  - intros P [O T]. split; [apply (neg_on K HK a b); auto | ]. apply (order_neg K HK a b HE); auto.
Qed.
Lemma t_add : forall P Q, G P -> G Q -> G (padd K a P Q). Proof. apply (sg_add K a b G t_sub). Qed.
Lemma t_neg : forall P, G P -> G (pneg P). Proof. apply (sg_neg K a b G t_sub). Qed.
Lemma t_mul : forall n P, G P -> G (pzmul K a n P).
Proof.
  assert (N : forall n P, G P -> G (pmul K a n P)) by apply (mul_G1 K a b G t_sub).
  intros [ | p | p] P H; cbn [pzmul]; auto. apply (sg_0 K a b G t_sub). apply t_neg. auto.
Qed.
Lemma zn_ok : forall P n, on_curve K a b P -> 0 <= n -> pt_mul_zn K a P n = Ok (pzmul K a n P).
Proof. intros. apply (pow_value K HK a b (proj1 HE) (proj2 HE)); auto. Qed.
Lemma add_ok : forall P Q, mul_value K a P Q = Ok (padd K a P Q).
Proof. intros. apply (mul_value_ok K HK a (proj1 HE)). Qed.
End Pt.

Section Gt.
Variable T : fld.
Hypothesis HT : fld_laws T.
Add Field TFex0 : (fl_field T HT).
Lemma gp_ok : forall (x : T) n, 0 <= n -> gt_pow_zn T x n = Ok (fpow x n).
Proof. intros. apply (gt_operations T HT x f1 n); auto. apply (f_1_neq_0 T HT). Qed.
Lemma root_nz : forall (x : T) r, 0 < r -> fpow x r = f1 -> x <> f0.
Proof.
  intros x r Hr E ->. apply (f_1_neq_0 T HT). rewrite <- E. unfold fpow, zpow. destruct (Z.to_nat r) eqn:Z0; [lia | ].
  cbn [npow mmul mul_monoid]. ring.
Qed.
Lemma fpowP : forall (x y : T) n, fpow (fmul x y) n = fmul (fpow x n) (fpow y n). Proof. intros. apply (fpow_mul' T HT). Qed.
Lemma fpow_one : forall x : T, fpow x 1 = x. Proof. intros x. change (fmul x f1 = x). ring. Qed.
Lemma root_pow : forall (x : T) r n, 0 <= r -> 0 <= n -> fpow x r = f1 -> fpow (fpow x n) r = f1.
Proof. intros x r n Hr Hn E. rewrite <- (fpowM T HT), Z.mul_comm, (fpowM T HT), E by auto. apply (fpow1 T HT). Qed.
Lemma cmp_refl : forall x y : T, x = y -> mulg_cmp T x y = true.
Proof. intros x y ->. apply (fl_eqb T HT). reflexivity. Qed.
(* equal exponents modulo r *)
Lemma exp_eq : forall (x : T) r i j, 0 < r -> 0 <= i -> 0 <= j -> fpow x r = f1 -> i mod r = j mod r -> fpow x i = fpow x j.
Proof. intros x r i j Hr Hi Hj E M. rewrite (fpow_mod T HT x r i), (fpow_mod T HT x r j), M; auto. Qed.
End Gt.

Section Sym.
Variables K T : fld.
Hypothesis HK : fld_laws K.
Hypothesis HT : fld_laws T.
Add Field TFex : (fl_field T HT).
Variables a b : K.
Hypothesis HE : elliptic K a b.
Variable r : Z.
Hypothesis R1 : 1 < r.
Variable pair : point K -> point K -> res T.
Variable e : point K -> point K -> T.
Local Notation G := (torsion K a b r).
Local Notation pz := (pzmul K a).
Local Notation add := (padd K a).
(* the first arguments for which the pairing is defined *)
Variable def : point K -> Prop.
Hypothesis PV : forall P Q, G P -> G Q -> def P -> pair P Q = Ok (e P Q).
Hypothesis EA1 : forall P P' Q, G P -> G P' -> G Q -> e (add P P') Q = fmul (e P Q) (e P' Q).
Hypothesis EA2 : forall P Q Q', G P -> G Q -> G Q' -> e P (add Q Q') = fmul (e P Q) (e P Q').
Hypothesis EM : forall i j P Q, G P -> G Q -> e (pz i P) (pz j Q) = fpow (e P Q) ((i * j) mod r).
Hypothesis ER : forall P Q, G P -> G Q -> fpow (e P Q) r = f1.
Let RP : 0 < r. Proof. lia. Qed.
Let tadd := t_add K HK a b HE r RP.
Let tneg := t_neg K HK a b HE r RP.
Let tmul := t_mul K HK a b HE r RP.
Let ton : forall P, G P -> on_curve K a b P. Proof. intros P []; auto. Qed.
Lemma zn : forall P n, G P -> 0 <= n -> pt_mul_zn K a P n = Ok (pz n P).
Proof. intros. apply (zn_ok K HK a b HE); auto. Qed.
Lemma pz1 : forall P, pz 1 P = P. Proof. intros. cbn [pzmul Pos.to_nat Pos.iter_op pmul]. apply (add_0_r K a). Qed.
Lemma em1 : forall n P Q, G P -> G Q -> 0 <= n -> e (pz n P) Q = fpow (e P Q) n.
Proof.
  intros n P Q HP HQ Hn. rewrite <- (pz1 Q) at 1. rewrite EM by auto. rewrite Z.mul_1_r. symmetry. apply (fpow_mod T HT); auto.
Qed.
Lemma em2 : forall n P Q, G P -> G Q -> 0 <= n -> e P (pz n Q) = fpow (e P Q) n.
Proof.
  intros n P Q HP HQ Hn. rewrite <- (pz1 P) at 1. rewrite EM by auto. rewrite Z.mul_1_l. symmetry. apply (fpow_mod T HT); auto.
Qed.
Lemma eneg : forall P Q, G P -> G Q -> fmul (e P (pneg Q)) (e P Q) = f1.
Proof.
  intros P Q HP HQ. rewrite <- EA2 by auto. assert (E : add (pneg Q) Q = pz 0 Q).
  { cbn [pzmul]. rewrite (add_comm K HK). apply (add_neg_r K HK a (proj1 HE)). }
  rewrite E, em2 by (auto; lia). reflexivity.
Qed.
Ltac go := repeat (rewrite ?zn by (auto; lia); cbn [bind]); rewrite ?PV by auto; cbn [bind].
Local Notation pA := (add_ok K HK a b HE).
Local Notation fA := (fpowA T HT).
Local Notation fM := (fpowM T HT).

Section J.
Variables (P : point K) (x y z : Z).
Hypothesis HP : G P.
Hypotheses (X : 0 <= x) (Y : 0 <= y) (Z : 0 <= z).
Hypotheses (D1 : def (pz x P)) (D2 : def (pz y P)).
Theorem joux_ok : joux K T a pair P x y z = Ok (fpow (e P P) (x * y * z), fpow (e P P) (x * y * z), fpow (e P P) (x * y * z)).
Proof.
  unfold joux. rewrite ?zn by auto. cbn [bind]. rewrite ?PV by auto. cbn [bind]. rewrite !(gp_ok T HT) by auto. cbn [bind].
  rewrite !em1, !em2 by auto. rewrite <- !fM by (auto; nia). do 2 f_equal; [f_equal | ]; f_equal; ring.
Qed.
End J.

Variable to_mpz : T -> Z.
Section H.
Variables (P Qid P1 : point K) (s k hm : Z).
Hypotheses (HP : G P) (HQ : G Qid) (H1 : G P1) (S : 0 <= s) (Kk : 0 <= k).
Theorem hess_ok : let v := (hm * to_mpz (fpow (e P1 P) k)) mod r in let u := add (pz v (pz s Qid)) (pz k P1) in
  def P1 -> def Qid -> def u -> hess K T a r pair to_mpz P Qid P1 s k hm = Ok (v, u, v, true) /\ 0 <= v < r /\ G u.
Proof.
  intros v0 u0 D1 D2 D3. unfold hess. rewrite ?zn by auto. cbn [bind]. rewrite ?PV by auto. cbn [bind]. rewrite ?(gp_ok T HT) by auto. cbn [bind].
  set (w := fpow (e P1 P) k). set (v := zr_mul_mpz r hm (to_mpz w)). assert (V : 0 <= v < r) by (apply Z.mod_pos_bound; auto).
  change v0 with v in *. rewrite ?zn by (auto; lia). cbn [bind]. rewrite ?zn by auto. cbn [bind]. rewrite ?pA. cbn [bind].
  change (add (pz v (pz s Qid)) (pz k P1)) with u0. assert (GU : G u0) by (unfold u0; auto).
  rewrite ?PV by auto. cbn [bind]. rewrite ?PV by auto. cbn [bind]. rewrite ?(gp_ok T HT) by lia. cbn [bind].
  set (u := u0) in *.
  assert (E : mulg_mul T (e u P) (fpow (e Qid (pneg (pz s P))) v) = w).
  { unfold mulg_mul, u, u0. rewrite EA1 by auto. rewrite !em1 by (auto; lia). fold w. rewrite <- (em1 s Qid P), (em1 s Qid P) by auto.
    transitivity (fmul (fpow (fmul (e Qid (pneg (pz s P))) (e Qid (pz s P))) v) w).
    - rewrite (fpowP T HT). rewrite em2 by auto. ring.
    - rewrite eneg by auto. rewrite (fpow1 T HT). ring. }
  rewrite E. fold v. rewrite Z.eqb_refl. split; [reflexivity | ]. split; auto.
Qed.
End H.

Lemma inv_gcd : forall x y, (x * y) mod r = 1 -> Z.gcd x r = 1.
Proof.
  intros x y E. apply Zgcd_1_rel_prime. apply bezout_rel_prime. apply Bezout_intro with (u := y) (v := - (x * y / r)).
  pose proof (Z.div_mod (x * y) r). lia.
Qed.
Section P.
Variables (P Qid : point K) (s k h2 : Z) (h3 : point K -> Z).
Hypotheses (HP : G P) (HQ : G Qid) (S : 0 <= s) (Kk : 0 <= k) (HH : 0 <= h2) (H3 : forall R, 0 <= h3 R).
Theorem paterson_ok : Z.gcd k r = 1 -> def P -> def (pz s P) -> def (pz k P) -> exists R S, paterson K T a r pair P Qid s k h2 h3 = Ok (R, S, true) /\ G R /\ G S.
Proof.
  intros NK D1 D2 D3. unfold paterson. rewrite ?zn by auto. cbn [bind]. set (R := pz k P). set (t3 := h3 R). assert (T3 : 0 <= t3) by apply H3.
  rewrite ?zn by auto. cbn [bind]. rewrite ?pA. cbn [bind]. unfold zr_invert.
  destruct (mpz_invert k r) as [k1 | ] eqn:I; [ | destruct (mpz_invert_exists k r R1 NK) as (y & Ey); congruence].
  apply mpz_invert_some in I; [ | lia]. destruct I as (B1 & B2). cbn [bind].
  rewrite ?zn by (auto; lia). cbn [bind]. assert (GR : G R) by (unfold R; auto). assert (DR : def R) by exact D3.
  rewrite ?PV by auto. cbn [bind]. rewrite ?(gp_ok T HT) by auto. cbn [bind].
  eexists _, _. split; [ | split; [exact GR | ]].
  - f_equal. f_equal. apply (cmp_refl T HT). unfold mulg_mul, R. rewrite (em1 k), (em2 k1), (em1 s) by (auto; lia). rewrite EA2 by auto. rewrite !em2 by (auto; lia).
    rewrite <- (fM _ k1 k) by lia. rewrite (exp_eq T HT _ r (k1 * k) 1); try nia; auto.
    + rewrite <- !fM by auto. rewrite (fpow_one T HT). ring.
    + rewrite (fpowP T HT). rewrite !(root_pow T HT) by (repeat apply (root_pow T HT); auto; lia). ring.
    + rewrite Z.mul_comm, B2. symmetry. apply Z.mod_small. lia.
  - auto.
Qed.
Theorem paterson_zero : Z.gcd k r <> 1 -> paterson K T a r pair P Qid s k h2 h3 = UB.
Proof.
  intros NK. unfold paterson. rewrite ?zn by auto. cbn [bind]. rewrite ?zn by auto. cbn [bind]. rewrite ?pA. cbn [bind]. unfold zr_invert.
  destruct (mpz_invert k r) as [k1 | ] eqn:I; [ | reflexivity]. apply mpz_invert_some in I; [ | lia]. destruct I as (B1 & B2).
  exfalso. apply NK. eapply inv_gcd; eauto.
Qed.
End P.

Section Y.
Variables (P Qa Qb : point K) (s x y : Z).
Hypotheses (HP : G P) (HA : G Qa) (HB : G Qb) (S : 0 <= s) (X : 0 <= x) (Y : 0 <= y).
Theorem yuanli_ok : def (add (pz x (pz s P)) (pz s Qa)) -> def (add (pz x P) Qa) -> def (pz y (pz x P)) -> exists k, yuanli K T a pair P Qa Qb s x y = Ok (k, k, true) /\
  k = fmul (fpow (e P (add Qa Qb)) (x * y)) (fpow (e (add (pz x P) Qa) (add (pz y P) Qb)) s).
Proof.
  intros D1 D2 D3. unfold yuanli. rewrite ?zn by auto. cbn [bind]. rewrite ?pA. cbn [bind]. rewrite ?PV by auto. cbn [bind]. rewrite ?zn by auto. cbn [bind]. rewrite ?pA. cbn [bind].
  rewrite ?PV by auto. cbn [bind]. unfold gt_add, mulg_mul.
  set (k := fmul (fpow (e P (add Qa Qb)) (x * y)) (fpow (e (add (pz x P) Qa) (add (pz y P) Qb)) s)). exists k. split; [ | reflexivity].
  assert (E1 : fmul (e (pz y (pz x P)) (add Qa Qb)) (e (add (pz x (pz s P)) (pz s Qa)) (add (pz y P) Qb)) = k).
  { unfold k. f_equal; [rewrite !em1, <- fM by auto; reflexivity | ]. rewrite !EA1, !em1 by auto. rewrite (fpowP T HT), <- !fM by auto. f_equal. f_equal. ring. }
  assert (E2 : fmul (e (pz y (pz x P)) (add Qa Qb)) (e (add (pz x P) Qa) (add (pz y (pz s P)) (pz s Qb))) = k).
  { unfold k. f_equal; [rewrite !em1, <- fM by auto; reflexivity | ]. rewrite !EA2, !em2 by auto. rewrite (fpowP T HT), <- !fM by auto. f_equal. f_equal. ring. }
  rewrite E1, E2, (cmp_refl T HT) by auto. reflexivity.
Qed.
End Y.

Section ZK.
Variables (P Qid : point K) (s rr x y hm : Z).
Hypotheses (HP : G P) (HQ : G Qid) (S : 0 <= s) (R : 0 <= rr) (X : 0 <= x) (Y : 0 <= y).
Theorem zhangkim_ok : let t := add (pz y Qid) (add (pz rr P) (pz x P)) in let c := (hm * to_mpz (e t (pz s P))) mod r in
  let S := add (add (pz ((c + y) mod r) (pz s Qid)) (pz rr (pz s P))) (pz x (pz s P)) in
  def t -> def Qid -> def S -> zhangkim K T a r pair to_mpz P Qid s rr x y hm = Ok (S, c, c, true) /\ 0 <= c < r /\ G S.
Proof.
  intros t c0 S0 D1 D2 D3. unfold zhangkim. rewrite ?zn by auto. cbn [bind]. rewrite ?pA. cbn [bind]. rewrite ?pA. cbn [bind]. rewrite ?PV by auto. cbn [bind].
  fold t. set (t3 := e t _) in *. set (t6 := zr_mul_mpz r hm (to_mpz t3)). change c0 with t6 in *. change S0 with (add (add (pz (zr_add r t6 y) (pz s Qid)) (pz rr (pz s P))) (pz x (pz s P))) in *. set (c := zr_add r t6 y).
  assert (B6 : 0 <= t6 < r) by (apply Z.mod_pos_bound; auto). assert (BC : 0 <= c < r) by (apply Z.mod_pos_bound; auto).
  rewrite ?zn by (auto; lia). cbn [bind]. rewrite ?pA. cbn [bind]. rewrite ?zn by (auto; lia). cbn [bind]. rewrite ?pA. cbn [bind]. rewrite ?PV by auto. cbn [bind].
  assert (EC : zr_sub r c y = t6).
  { unfold zr_sub, c, zr_add. rewrite Zminus_mod_idemp_l. replace (t6 + y - y) with t6 by ring. apply Z.mod_small. auto. }
  rewrite EC. assert (BN : 0 <= zr_neg r t6 < r) by (apply Z.mod_pos_bound; auto).
  rewrite ?(gp_ok T HT) by lia. cbn [bind]. rewrite ?PV by auto. cbn [bind].
  match goal with |- context [e ?S0 P] => set (S1 := S0) in * end.
  assert (E : mulg_mul T (e S1 P) (fpow (e Qid (pz s P)) (zr_neg r t6)) = t3).
  { unfold mulg_mul, S1, t3, t. rewrite !em2 by auto. rewrite !EA1 by auto. rewrite !em1 by (auto; lia). rewrite !(fpowP T HT), <- !fM by (auto; lia).
    transitivity (fmul (fpow (e Qid P) (s * c + s * zr_neg r t6)) (fmul (fpow (e P P) (s * rr)) (fpow (e P P) (s * x)))).
    - rewrite fA by nia. ring.
    - rewrite (exp_eq T HT _ r _ (y * s)); try nia; auto.
      + rewrite !(Z.mul_comm s). ring.
      + unfold zr_neg, c, zr_add. rewrite <- Z.mul_add_distr_l. rewrite <- Zmult_mod_idemp_r. rewrite <- Zplus_mod. rewrite Zmult_mod_idemp_r. f_equal. ring. }
  rewrite E. fold t6. rewrite Z.eqb_refl. split; [reflexivity | ]. split; auto. unfold S1. auto 10.
Qed.
End ZK.

Section ZS.
Variables (P : point K) (x hm : Z).
Hypotheses (HP : G P) (X : 0 <= x) (HH : 0 <= hm).
Theorem zss_ok : Z.gcd (hm + x) r = 1 -> def (add (pz hm P) (pz x P)) -> def P -> exists S, zss K T a r pair P x hm = Ok (S, true) /\ G S.
Proof.
  intros N D1 D2. unfold zss. rewrite ?zn by auto. cbn [bind]. unfold zr_invert. set (t := zr_add r hm x). assert (BT : 0 <= t < r) by (apply Z.mod_pos_bound; auto).
  assert (NT : Z.gcd t r = 1) by (unfold t, zr_add; rewrite Z.gcd_mod, Z.gcd_comm by lia; auto).
  destruct (mpz_invert t r) as [k1 | ] eqn:I; [ | destruct (mpz_invert_exists t r R1 NT) as (u & Eu); congruence].
  apply mpz_invert_some in I; [ | lia]. destruct I as (B1 & B2). cbn [bind].
  rewrite ?zn by (auto; lia). cbn [bind]. rewrite ?pA. cbn [bind]. rewrite ?PV by auto. cbn [bind]. eexists. split; [ | apply tmul; exact HP].
  f_equal. f_equal. apply (cmp_refl T HT). rewrite em2 by (auto; lia). rewrite EA1, !em1 by auto. rewrite <- fA, <- fM by (auto; lia).
  rewrite (exp_eq T HT _ r _ 1); try nia; auto.
  - rewrite (fpow_one T HT). reflexivity.
  - rewrite <- B2 at 1. unfold t, zr_add. rewrite Zmult_mod_idemp_l. rewrite Z.mod_mod by lia. reflexivity.
Qed.
Theorem zss_zero : Z.gcd (hm + x) r <> 1 -> zss K T a r pair P x hm = UB.
Proof.
  intros N. unfold zss. rewrite ?zn by auto. cbn [bind]. unfold zr_invert. destruct (mpz_invert (zr_add r hm x) r) as [k1 | ] eqn:I; [ | reflexivity].
  apply mpz_invert_some in I; [ | lia]. destruct I as (B1 & B2). apply inv_gcd in B2. unfold zr_add in B2. rewrite Z.gcd_mod, Z.gcd_comm in B2 by lia. congruence.
Qed.
End ZS.
End Sym.
