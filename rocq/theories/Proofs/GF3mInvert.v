(** Bit-sliced GF(3^m): inversion. *)
From Coq Require Import ZArith List Bool Lia Arith Field Setoid Morphisms.
From Verif.Base Require Import Outcome Array Algebra.
From Verif.Spec Require Import FiniteField Polynomials Extension Ternary.
From Verif.Model Require Import GF3m.
From Verif.Proofs Require Import ArrayFacts FieldFacts PolyAlgebra ExtFacts GF3mBits GF3mPoly.
Import ListNotations.
Open Scope nat_scope.

Add Field KF3i : (fl_field K HK).
Add Ring PolyR3i : (poly_ring K HK) (setoid (eqp_equiv K) (poly_ext K HK)).
Notation "f +p g" := (addp K f g) (at level 50, left associativity).
Notation "f -p g" := (subp K f g) (at level 50, left associativity).
Notation "f *p g" := (mulp K f g) (at level 40, left associativity).
Definition X : list K := [f0; f1].
Definition xk (k : nat) : list K := repeat f0 k ++ [f1].
Lemma coef_xk : forall k f i, coef (xk k *p f) i = if i <? k then f0 else coef f (i - k).
Proof.
  unfold xk. induction k as [ | k IHk]; intros f i.
  - cbn [repeat app]. rewrite (mulp_1_l K HK f i). destruct (Nat.ltb_spec i 0); [lia | ]. rewrite Nat.sub_0_r. reflexivity.
  - cbn [repeat app]. rewrite (mulp_shift_l K HK _ f i), (coef_cons K). destruct i as [ | i]; [reflexivity | ]. rewrite IHk. destruct (Nat.ltb_spec i k), (Nat.ltb_spec (S i) (S k)); try lia; auto.
Qed.
Lemma xk_S : forall k, eqp (xk (S k)) (X *p xk k).
Proof. intro k. unfold xk. cbn [repeat app]. apply (shift_mulp K HK). Qed.
Lemma xk_add : forall a b, eqp (xk (a + b)) (xk a *p xk b).
Proof. induction a as [ | a IH]; intro b; [symmetry; apply (mulp_1_l K HK) | ]. cbn [Nat.add]. rewrite !xk_S, IH. ring. Qed.
Lemma xk_cancel : forall k f g, eqp (xk k *p f) (xk k *p g) -> eqp f g.
Proof. intros k f g H i. specialize (H (i + k)). rewrite !coef_xk in H. destruct (Nat.ltb_spec (i + k) k); [lia | ]. replace (i + k - k) with i in H by lia. auto. Qed.
Lemma sc : forall (c : K) f, eqp (scalp K c f) ([c] *p f). Proof. apply (scalp_mulp K HK). Qed.
(** A divisor of 1 is constant. *)
Lemma unit_constant : forall f g : list K, eqp (f *p g) [f1] -> constant g.
Proof.
  intros f g H. assert (Zf : trim f <> []). { rewrite (trim_nil_iff K HK). intro Z. rewrite Z in H. specialize (H 0). discriminate. }
  assert (Zg : trim g <> []). { rewrite (trim_nil_iff K HK). intro Z. rewrite Z in H. rewrite (mulp_nil_r K HK) in H. specialize (H 0). discriminate. }
  assert (N1 : normal ([f1] : list K)) by (intros _; cbn; discriminate).
  pose proof (mul_length K HK (trim f) (trim g) [f1] (trim_normal K HK f) (trim_normal K HK g) N1 Zf Zg) as L.
  assert (E : eqp [f1] (trim f *p trim g)) by (rewrite !(trim_eqp K HK), H; reflexivity). specialize (L E). change (1 + 1 = length (trim f) + length (trim g)) in L.
  pose proof (length_pos K _ Zf). intros i Hi. rewrite <- (coef_trim K HK). apply coef_over. lia.
Qed.
Lemma nz_coef : forall f : list K, ~ eqp f [] -> exists j, coef f j <> f0.
Proof.
  intros f N. assert (Z : trim f <> []) by (rewrite (trim_nil_iff K HK); auto). exists (length (trim f) - 1). rewrite <- (coef_trim K HK f). apply (normal_lead K); auto. apply (trim_normal K HK).
Qed.

Lemma elim_add : forall len (v : K) e px, wf len e -> wf len px ->
  exists e', (if (tval v =? 1)%Z then gf3m_add e px else if (tval v =? 2)%Z then gf3m_sub e px else Ok e) = Ok e' /\ wf len e' /\
    forall i, tc e' i = fadd (tc e i) (fmul v (tc px i)).
Proof.
  intros len v e px We Wp. destruct v; cbn [tval Z.eqb].
  - exists e. split; [auto | split; auto]. intro i. destruct (tc e i), (tc px i); reflexivity.
  - cbn [Pos.eqb]. destruct (add_spec len e px We Wp) as (c & E & W & H). exists c. split; [auto | split; auto]. intro i. rewrite H. destruct (tc e i), (tc px i); reflexivity.
  - cbn [Pos.eqb]. destruct (sub_spec len e px We Wp) as (c & E & W & H). exists c. split; [auto | split; auto]. intro i. rewrite H. destruct (tc e i), (tc px i); reflexivity.
Qed.
Lemma gf3_mult_spec : forall r s : K, gf3_mult (tval r) (tval s) = Ok (tval (fmul r s)).
Proof. intros [] []; reflexivity. Qed.
Lemma splice_wf : forall n e L, wf n e -> n <= L -> exists e1 e2, splice (repeat 0%Z L) 0 (d1 e) = Ok e1 /\ splice (repeat 0%Z L) 0 (d2 e) = Ok e2 /\
  wf L (E e1 e2) /\ forall i, tc (E e1 e2) i = tc e i.
Proof.
  intros n [a b] L (L1 & L2 & W1 & W2 & D) H. cbn in *. unfold splice. cbn [Nat.add firstn app]. rewrite repeat_length, L1, L2.
  destruct (Nat.leb_spec n L); [ | lia].
  assert (SK : skipn n (repeat 0%Z L) = repeat 0%Z (L - n)).
  { clear. revert L. induction n; intro L; [rewrite Nat.sub_0_r; reflexivity | ]. destruct L; [reflexivity | apply IHn]. }
  rewrite SK. assert (B : forall (l : list Z) k i, bit (l ++ repeat 0%Z k) i = bit l i).
  { clear. induction l as [ | w l IH]; intros k i; cbn [app]; [rewrite bit_repeat0, bit_nil; reflexivity | ]. rewrite !bit_cons, IH. reflexivity. }
  do 2 eexists. split; [reflexivity | ]. split; [reflexivity | ]. split.
  - repeat split; cbn; try (rewrite app_length, repeat_length; lia); try (apply Forall_app; split; [auto | apply repeat_wd]). intro i. rewrite !B. apply D.
  - intro i. unfold tc, tcoef. cbn. rewrite !B. reflexivity.
Qed.
Lemma one_spec : forall n, exists e, gf3m_one (n + 1) = Ok e /\ wf (n + 1) e /\ forall i, tc e i = if i =? 0 then f1 else f0.
Proof.
  intro n. replace (n + 1) with (S n) by lia. exists (E (1%Z :: repeat 0%Z n) (repeat 0%Z (S n))). split; [reflexivity | ].
  assert (B0 : forall i, bit (1%Z :: repeat 0%Z n) i = (i =? 0)).
  { intro i. rewrite bit_cons, bit_repeat0. destruct (Nat.ltb_spec i 64); [ | destruct (Nat.eqb_spec i 0); auto; lia].
    change 1%Z with (2 ^ 0)%Z. rewrite Z.pow2_bits_eqb by lia. destruct (Z.eqb_spec 0 (Z.of_nat i)), (Nat.eqb_spec i 0); auto; lia. }
  split.
  - unfold wf, sliced. cbn [d1 d2]. split; [cbn; rewrite repeat_length; auto | ]. split; [apply repeat_length | ]. split; [constructor; [split; [lia | reflexivity] | apply repeat_wd] | ].
    split; [apply repeat_wd | ]. intro i. rewrite bit_repeat0. apply andb_false_r.
  - intro i. unfold tc, tcoef. cbn [d1 d2]. rewrite B0, bit_repeat0. destruct (i =? 0); reflexivity.
Qed.

Section I.
Variable L : fld.
Hypothesis HL : fld_laws L.
Add Field LF3i : (fl_field L HL).
Lemma inv_unique : forall x y : L, fmul x y = f1 -> x = finv y.
Proof.
  intros x y H. assert (N : y <> f0). { intro Z. rewrite Z in H. apply (F_1_neq_0 (fl_field L HL)). rewrite <- H. ring. }
  transitivity (fmul (fmul x y) (finv y)); [field; auto | rewrite H; ring].
Qed.
End I.

Section F.
Variables (m t : nat).
Hypothesis Ht : 0 < t < m.
Hypothesis Hm : (Z.of_nat m < 2 ^ 30)%Z.
Notation tri := (trinomial m t).
Notation len := (m / 64 + 1).
Hypothesis Irr : irreducible tri.
Variable p : params.
Hypothesis Hp : good m t p.
Notation val := (val m t).
Definition lenS : nat := Z.to_nat (u32 (3 * Z.of_nat m + 63) / 64).
Lemma lenS_big : 3 * m <= 64 * lenS /\ len <= lenS.
Proof.
  unfold lenS. rewrite u32_small by lia. pose proof (Z.div_mod (3 * Z.of_nat m + 63) 64 ltac:(lia)). pose proof (Z.mod_pos_bound (3 * Z.of_nat m + 63) 64 ltac:(lia)).
  pose proof (Nat.div_mod m 64 ltac:(lia)). pose proof (Nat.mod_upper_bound m 64 ltac:(lia)). lia.
Qed.
(** x is invertible modulo the trinomial. *)
Lemma X_inv : exists w, cong tri (w *p X) [f1].
Proof.
  assert (T : exists w, eqp tri (T2 :: w)). { exists (map (coef tri) (seq 1 m)). intro i. rewrite (coef_cons K). destruct i as [ | i]; [apply coef_tri; auto | ].
    rewrite <- seq_shift, map_map, (coef_map_seq K). destruct (Nat.ltb_spec i m); auto. apply tri_over; auto; lia. }
  destruct T as (w & T). exists w. apply (cong_mulp K HK). exists [f1]. rewrite T, (cons_split K HK T2 w). fold X. intro i.
  rewrite !(coef_addp K HK). assert (Q : eqp ([f1] *p ([T2] +p X *p w)) ([T2] +p X *p w)) by ring. rewrite Q, (coef_addp K HK). assert (Q2 : eqp (w *p X) (X *p w)) by ring. rewrite Q2.
  destruct i as [ | [ | i]]; cbn [coef nth]; destruct (coef (X *p w) _); reflexivity.
Qed.
Lemma xk_cong_cancel : forall k f g, cong tri (xk k *p f) (xk k *p g) -> cong tri f g.
Proof.
  induction k as [ | k IH]; intros f g H.
  - assert (Q : forall h, eqp (xk 0 *p h) h) by (intro; apply (mulp_1_l K HK)). rewrite !Q in H. auto.
  - apply IH. destruct X_inv as (w & W). assert (Q : forall h, cong tri (xk k *p h) (w *p (xk (S k) *p h))).
    { intro h. rewrite xk_S. transitivity ([f1] *p (xk k *p h)); [apply (eqp_cong K HK); ring | ]. rewrite <- W. apply (eqp_cong K HK). ring. }
    rewrite (Q f), (Q g), H. reflexivity.
Qed.

Variable a : elt.
Hypothesis Wa : wf len a.
Hypothesis La : low m a.
Hypothesis Na : val a <> f0.

Definition Inv (i : nat) (st : inv_state) : Prop := exists k k' R0 S0 A B,
  (k + k' = i /\ k <= k' /\ i_d st = Z.of_nat (k' - k)) /\
  (wf lenS (iS st) /\ wf lenS (iR st) /\ wf len (iU st) /\ wf len (iV st)) /\
  (low (S m) (iS st) /\ low (S m) (iR st) /\ low m (iU st) /\ low m (iV st)) /\
  (eqp (P (iR st)) (xk k' *p R0) /\ eqp (P (iS st)) (xk k *p S0) /\ eqp (A *p R0 +p B *p S0) [f1] /\ ~ eqp R0 []) /\
  (cong tri (xk k *p (P a *p P (iU st))) (P (iR st)) /\ cong tri (xk k *p (P a *p P (iV st))) (P (iS st))).

Lemma k'_le : forall k' R R0, wf lenS R -> low (S m) R -> eqp (P R) (xk k' *p R0) -> ~ eqp R0 [] -> k' <= m.
Proof.
  intros k' R R0 W L E N. destruct (nz_coef R0 N) as (j & Hj). destruct (le_lt_dec k' m); auto. exfalso. apply Hj.
  specialize (E (j + k')). rewrite coef_xk, (coef_P lenS) in E by auto. destruct (Nat.ltb_spec (j + k') k'); [lia | ]. replace (j + k' - k') with j in E by lia. rewrite <- E. apply L. lia.
Qed.
Lemma up_low : forall e, wf lenS e -> low (S m) e -> tc e m = f0 -> wf lenS (shift_up e) /\ low (S m) (shift_up e) /\ eqp (P (shift_up e)) (X *p P e).
Proof.
  intros e W L Z. pose proof lenS_big. destruct (up_P lenS e W) as (W1 & E1); [apply L; lia | ]. split; auto. split.
  - intros i Hi. rewrite <- (coef_P lenS) by auto. rewrite E1, (coef_cons K). destruct i; [lia | ]. rewrite (coef_P lenS) by auto. destruct (Nat.eq_dec i m); [subst; auto | apply L; lia].
  - rewrite E1. apply (shift_mulp K HK).
Qed.
Lemma f2_X : forall e, wf len e -> low m e -> exists e', gf3m_f2 p e = Ok e' /\ wf len e' /\ low m e' /\ cong tri (P e') (X *p P e).
Proof.
  intros e W L. destruct (f2_spec m t Ht p Hp e W L) as (e' & E & W' & L' & C). exists e'. repeat (split; [auto | ]). rewrite C. apply (eqp_cong K HK). apply (shift_mulp K HK).
Qed.
Lemma sub_q : forall n (q : K) S R, wf n S -> wf n R -> exists S1, gf3m_sub S (gf3m_f1 (tval q) R) = Ok S1 /\ wf n S1 /\ (forall i, tc S1 i = fsub (tc S i) (fmul q (tc R i))) /\ eqp (P S1) (P S -p [q] *p P R).
Proof.
  intros n q S R WS WR. destruct (f1_spec n q R WR) as (W1 & T1). destruct (sub_spec n S _ WS W1) as (S1 & E & W & T). exists S1. split; [auto | split; [auto | ]].
  assert (TT : forall i, tc S1 i = fsub (tc S i) (fmul q (tc R i))) by (intro i; rewrite T, T1; reflexivity). split; auto.
  intro i. rewrite (coef_subp K HK), !(coef_P n) by auto. rewrite TT. f_equal. rewrite <- (sc q (P R) i), (coef_scalp K HK), (coef_P n) by auto. reflexivity.
Qed.
(** U / x *)
Lemma half_x : forall U, wf len U -> low m U -> exists U1, (x <- gf3m_get U 0 ;; (if (x =? 1)%Z then gf3m_add U (p_p p) else if (x =? 2)%Z then gf3m_sub U (p_p p) else Ok U)) = Ok U1 /\
  wf len (shift_down U1) /\ low m (shift_down U1) /\ cong tri (X *p P (shift_down U1)) (P U).
Proof.
  intros U W L. rewrite (get_0 len) by (auto; lia). cbn [bind]. destruct (elim_add len (tc U 0) U (p_p p) W (p_wf m t p Hp)) as (U1 & E & W1 & T). exists U1. split; [exact E | ].
  destruct (shift_down_spec len U1 W1) as (W2 & T2). split; auto. split.
  - intros i Hi. rewrite T2, T, (p_tc m t p Hp), L by lia. rewrite tri_over by (auto; lia). destruct (tc U 0); reflexivity.
  - apply (cong_mulp K HK). exists [tc U 0]. rewrite <- (sc (tc U 0) tri). intro i. unfold X. rewrite <- (shift_mulp K HK (P (shift_down U1)) i), (coef_cons K), (coef_addp K HK), (coef_scalp K HK), (coef_P len) by auto.
    rewrite <- (p_tc m t p Hp i). destruct i as [ | i]; [rewrite (p_tc m t p Hp 0), coef_tri by auto; destruct (tc U 0); reflexivity | ]. rewrite (coef_P len) by auto. rewrite T2, T. reflexivity.
Qed.

Lemma step_inv : forall i st, i < 2 * m -> Inv i st -> exists st', invert_step p st = Ok st' /\ Inv (S i) st'.
Proof.
  intros i [Ss R U V d] Hi (k & k' & R0 & S0 & A & B & (Hk & Hkk & Hd) & (WS & WR & WU & WV) & (LS & LR & LU & LV) & (ER & ES & BZ & NR) & (CU & CV)).
  cbn [iS iR iU iV i_d] in *. pose proof lenS_big as LB. pose proof (k'_le k' R R0 WR LR ER NR) as Hk'm.
  unfold invert_step. rewrite (p_m_eq m t p Hp). rewrite (get_spec lenS R) by (auto; lia). cbn [bind]. rewrite (get_spec lenS Ss) by (auto; lia). cbn [bind].
  destruct (Z.eqb_spec (tval (tc R m)) 0) as [Z | NZ].
  - (* R <- x R *)
    assert (Z0 : tc R m = f0) by (destruct (tc R m); auto; discriminate).
    destruct (f2_X U WU LU) as (U' & EU & WU' & LU' & CU'). rewrite EU. cbn [bind].
    destruct (up_low R WR LR Z0) as (WR' & LR' & ER'). eexists. split; [reflexivity | ].
    exists k, (S k'), R0, S0, A, B. cbn [iS iR iU iV i_d]. rewrite Hd. split; [rewrite u32_small by lia; lia | ]. split; [auto | ]. split; [auto | ]. split; [split; [ | auto] | split; [ | auto]].
    + rewrite ER', ER, xk_S. ring.
    + rewrite CU', ER', <- CU. apply (eqp_cong K HK). ring.
  - rewrite gf3_mult_spec. cbn [bind]. set (q := fmul (tc R m) (tc Ss m)).
    destruct (sub_q lenS q Ss R WS WR) as (S1 & E1 & W1 & T1 & P1). rewrite E1. cbn [bind].
    assert (L1 : low (S m) S1) by (intros j Hj; rewrite T1, LS, LR by lia; unfold q; destruct (tc R m), (tc Ss m); reflexivity).
    assert (Z1 : tc S1 m = f0) by (rewrite T1; unfold q; destruct (tc R m), (tc Ss m); try reflexivity; exfalso; apply NZ; reflexivity).
    destruct (up_low S1 W1 L1 Z1) as (W2 & L2 & E2).
    destruct (sub_q len q V U WV WU) as (V1 & E3 & W3 & T3 & P3). rewrite E3. cbn [bind].
    assert (L3 : low m V1) by (intros j Hj; rewrite T3, LV, LU by lia; destruct q; reflexivity).
    assert (CV1 : cong tri (xk k *p (P a *p P V1)) (P Ss -p [q] *p P R)).
    { rewrite P3. rewrite <- CU, <- CV. apply (eqp_cong K HK). ring. }
    destruct (Z.eqb_spec d 0) as [D0 | D0].
    + (* exchange *)
      assert (KK : k' = k) by lia. subst k'. destruct (f2_X V1 W3 L3) as (V' & EV & WV' & LV' & CV'). rewrite EV. cbn [bind]. eexists. split; [reflexivity | ].
      exists k, (S k), (S0 -p [q] *p R0), R0, B, (A +p [q] *p B). cbn [iS iR iU iV i_d]. subst d.
      split; [rewrite u32_small by lia; lia | ]. split; [auto | ]. split; [auto | ]. split; [ | split; [ | auto]].
      * split; [ | split; [ | split]].
        -- rewrite E2, P1, ER, ES, xk_S. ring.
        -- auto.
        -- rewrite <- BZ. ring.
        -- intro Z. assert (ZS : eqp S0 ([q] *p R0)) by (transitivity ((S0 -p [q] *p R0) +p [q] *p R0); [ring | rewrite Z; ring]).
           assert (U1 : eqp ((A +p B *p [q]) *p R0) [f1]) by (rewrite <- BZ, ZS; ring). apply unit_constant in U1.
           assert (C := ER m). rewrite coef_xk, (coef_P lenS) in C by auto. destruct (Nat.ltb_spec m k); [lia | ].
           destruct (Nat.eq_dec m k); [lia | ]. rewrite U1 in C by lia. rewrite C in NZ. apply NZ. reflexivity.
      * rewrite CV', E2, P1, <- CV1. apply (eqp_cong K HK). ring.
    + (* U <- U / x *)
      destruct (half_x U WU LU) as (U1 & EU & WU' & LU' & CU'). destruct (gf3m_get U 0) as [x | | | ] eqn:G; try discriminate. cbn [bind] in EU |- *. rewrite EU. cbn [bind].
      eexists. split; [reflexivity | ]. exists (S k), k', R0, (S0 -p [q] *p (xk (k' - k) *p R0)), (A +p B *p ([q] *p xk (k' - k))), B. cbn [iS iR iU iV i_d].
      assert (KK : k < k') by (destruct (Nat.eq_dec k k'); [subst; rewrite Nat.sub_diag in D0; contradiction | lia]).
      split; [lia | ]. split; [auto | ]. split; [auto | ]. split; [ | split].
      * split; [auto | split; [ | split; [ | auto]]].
        -- assert (XK : eqp (xk k') (xk k *p xk (k' - k))) by (rewrite <- xk_add; replace (k + (k' - k)) with k' by lia; reflexivity).
           rewrite E2, P1, ER, ES, xk_S, XK. ring.
        -- rewrite <- BZ. ring.
      * rewrite <- CU, <- CU', xk_S. apply (eqp_cong K HK). ring.
      * rewrite E2, P1, <- CV1, xk_S. apply (eqp_cong K HK). ring.
Qed.
Lemma loop_inv : forall n i st, i + n = 2 * m -> Inv i st -> exists st', invert_loop n p st = Ok st' /\ Inv (2 * m) st'.
Proof.
  induction n as [ | n IH]; intros i st H I; cbn [invert_loop]; [exists st; split; auto; replace (2 * m) with i by lia; auto | ].
  destruct (step_inv i st) as (st1 & E & I1); auto; [lia | ]. rewrite E. cbn [bind]. apply (IH (S i)); auto. lia.
Qed.
Theorem invert_spec : exists c, gf3m_invert p a = Ok c /\ wf len c /\ low m c /\ val c = finv (val a).
Proof.
  pose proof lenS_big as LB. pose proof (len_big m) as LM. unfold gf3m_invert. rewrite (p_m_eq m t p Hp). fold lenS. cbn zeta.
  destruct (splice_wf len (p_p p) lenS (p_wf m t p Hp)) as (s1 & s2 & -> & -> & WS & TS); [lia | ]. cbn [bind].
  destruct (splice_wf len a lenS Wa) as (r1 & r2 & -> & -> & WR & TR); [lia | ]. cbn [bind].
  replace (p_len p) with len by (symmetry; apply Hp). destruct (one_spec (m / 64)) as (U & -> & WU & TU). cbn [bind].
  assert (N2 : Z.to_nat (u32 (Z.of_nat m * 2)) = 2 * m) by (rewrite u32_small by lia; lia). rewrite N2.
  assert (PS : eqp (P (E s1 s2)) tri) by (intro i; rewrite (coef_P lenS), TS by auto; apply (p_tc m t p Hp)).
  assert (PR : eqp (P (E r1 r2)) (P a)) by (intro i; rewrite (coef_P lenS), (coef_P len), TR by auto; reflexivity).
  assert (PU : eqp (P U) [f1]) by (intro i; rewrite (coef_P len), TU by auto; destruct i as [ | [ | i]]; reflexivity).
  assert (VA := val_P m t Ht a Wa La).
  destruct (loop_inv (2 * m) 0 (GF3m.Inv (E s1 s2) (E r1 r2) U (zero len) 0)) as (st & E & I); [lia | | ].
  { pose proof (E_inv K HK m tri (tri_monic m t Ht) ltac:(lia) Irr (val a) Na) as EI. apply (cong_mulp K HK) in EI. destruct EI as (h & EI).
    exists 0, 0, (P a), tri, (vl K m (finv (val a))), (oppp K h). cbn [iS iR iU iV i_d].
    split; [lia | ]. split; [split; [auto | split; [auto | split; [auto | apply wf_zero]]] | ]. split; [ | split].
    - split; [ | split; [ | split]]; intros i Hi.
      + rewrite TS, (p_tc m t p Hp). apply tri_over; auto. + rewrite TR. apply La. lia.
      + rewrite TU. destruct i; [lia | reflexivity]. + apply tc_zero.
    - split; [rewrite PR; symmetry; apply (mulp_1_l K HK) | ]. split; [rewrite PS; symmetry; apply (mulp_1_l K HK) | ]. split.
      + rewrite <- VA. transitivity (addp K (vl K m (finv (val a)) *p vl K m (val a)) (oppp K (h *p tri))); [ring | ]. rewrite EI. ring.
      + intro Z. apply Na. apply (vec_0 K HK m tri (tri_monic m t Ht)). intro j. exact (eq_trans (VA j) (Z j)).
    - rewrite PU, PR, zero_P, PS. split.
      + apply (eqp_cong K HK). transitivity ([f1] *p (P a *p [f1])); [reflexivity | ring].
      + symmetry. apply (cong_mulp K HK). exists [f1]. change (xk 0) with ([f1] : list K). ring. }
  rewrite E. cbn [bind]. destruct I as (k & k' & R0 & S0 & A & B & (Hk & Hkk & Hd) & (WS' & WR' & WU' & WV') & (LS' & LR' & LU' & LV') & (ER & ES & BZ & NR) & (CU & CV)).
  pose proof (k'_le k' _ R0 WR' LR' ER NR). assert (k = m) by lia. assert (k' = m) by lia. subst k k'.
  rewrite (get_spec lenS) by (auto; lia). cbn [bind]. set (c := tc (iR st) m).
  assert (R0c : eqp R0 [c]).
  { intro i. specialize (ER (i + m)). rewrite coef_xk, (coef_P lenS) in ER by auto. destruct (Nat.ltb_spec (i + m) m); [lia | ]. replace (i + m - m) with i in ER by lia. rewrite <- ER.
    destruct i as [ | i]; [reflexivity | ]. rewrite LR' by lia. destruct i; reflexivity. }
  assert (Nc : c <> f0) by (intro Z; apply NR; rewrite R0c, Z; intros [ | [ | i]]; reflexivity).
  assert (AU : cong tri (P a *p P (iU st)) [c]).
  { apply (xk_cong_cancel m). rewrite CU, ER, R0c. reflexivity. }
  assert (G : exists e, (if (tval c =? 2)%Z then gf3m_neg true (iU st) else Ok (iU st)) = Ok e /\ wf len e /\ forall i, tc e i = fmul c (tc (iU st) i)).
  { destruct c; [exfalso; apply Nc; reflexivity | exists (iU st); split; [reflexivity | split; [auto | ]]; intro i; destruct (tc _ i); reflexivity | ].
    destruct (neg_spec true len (iU st) WU') as (e & Ee & We & Te). exists e. split; [exact Ee | split; auto]. intro i. rewrite Te. destruct (tc (iU st) i); reflexivity. }
  destruct G as (e & Ee & We & Te). exists e. split; [exact Ee | split; [auto | ]].
  assert (Le : low m e) by (intros i Hi; rewrite Te, LU' by auto; destruct c; reflexivity). split; [auto | ].
  assert (Pe : eqp (P e) ([c] *p P (iU st))) by (intro i; rewrite <- (sc c (P (iU st)) i), (coef_scalp K HK), !(coef_P len) by auto; apply Te).
  pose proof (Ext_laws K HK m tri (tri_monic m t Ht) ltac:(lia) Irr) as HL.
  assert (ML : fmul (val e) (val a) = f1).
  { apply (vec_cong K HK m tri (tri_monic m t Ht)). rewrite (E_mul K HK m tri (tri_monic m t Ht) ltac:(lia)), VA, (val_P m t Ht e We Le), Pe, (E_1 K m tri ltac:(lia)).
    transitivity ([c] *p (P a *p P (iU st))); [apply (eqp_cong K HK); ring | ]. rewrite AU. apply (eqp_cong K HK). destruct c; [exfalso; apply Nc; reflexivity | | ]; intros [ | [ | i]]; reflexivity. }
  apply (inv_unique _ HL _ _ ML).
Qed.
End F.
