(** Bit-sliced GF(3^m): every operation of the field, from its
    initialisation. *)
From Coq Require Import ZArith List Bool Lia Arith Field Zpow_facts.
From Verif.Base Require Import Outcome Array Algebra.
From Verif.Spec Require Import FiniteField Polynomials Extension Ternary.
From Verif.Spec Require Export GF3mElement.
From Verif.Model Require Import GenericPow GF3m.
From Verif.Proofs Require Import ArrayFacts FieldFacts PowFacts RootFacts BilinearZ PolyAlgebra ExtFacts GF3mBits GF3mPoly GF3mInvert PolyRoots.
Import ListNotations.
Open Scope nat_scope.

Section M.
Variables (m t : nat).
Hypothesis D : dims m t.
Notation Ht := (proj1 D). Notation Hm := (proj2 D).
Lemma m_init : exists p, field_init_gf3m (Z.of_nat m) (Z.of_nat t) = Ok p.
Proof. destruct (init_spec m t Ht Hm) as (p & E & _). exists p. auto. Qed.
Lemma init_good : forall p, field_init_gf3m (Z.of_nat m) (Z.of_nat t) = Ok p -> good m t p.
Proof. intros p E. destruct (init_spec m t Ht Hm) as (p' & E' & G). rewrite E in E'. inversion E'. auto. Qed.
Lemma coefs_gives : forall r (x : GF3m m t) c, r = Ok c -> wf (m / 64 + 1) c -> low m c -> (forall i, i < m -> tc c i = vcoef x i) -> gives m t r x.
Proof.
  intros r x c E W L H. exists c. split; [auto | split; [split; auto | ]]. apply (vec_ext K m). intros i Hi. unfold value, sliced_value. rewrite (vcoef_mk K m). destruct (Nat.ltb_spec i m); [apply H; auto | lia].
Qed.
Lemma vc : forall e i, i < m -> vcoef (value m t e) i = tc e i.
Proof. intros e i H. unfold value, sliced_value. rewrite (vcoef_mk K m). destruct (Nat.ltb_spec i m); [reflexivity | lia]. Qed.
Lemma m_add : forall a b, valid m a -> valid m b -> gives m t (gf3m_add a b) (fadd (value m t a) (value m t b)).
Proof.
  intros a b (Wa & La) (Wb & Lb). destruct (add_spec _ a b Wa Wb) as (c & E & W & T). apply (coefs_gives _ _ c); auto.
  - intros i Hi. rewrite T. unfold tc. rewrite La, Lb by auto. reflexivity.
  - intros i Hi. rewrite T. cbn [fadd GF3m Ext]. rewrite (vcoef_mk K m). destruct (Nat.ltb_spec i m); [ | lia]. rewrite !vc by auto. reflexivity.
Qed.
Lemma m_sub : forall a b, valid m a -> valid m b -> gives m t (gf3m_sub a b) (fsub (value m t a) (value m t b)).
Proof.
  intros a b (Wa & La) (Wb & Lb). destruct (sub_spec _ a b Wa Wb) as (c & E & W & T). apply (coefs_gives _ _ c); auto.
  - intros i Hi. rewrite T. unfold tc. rewrite La, Lb by auto. reflexivity.
  - intros i Hi. rewrite T. cbn [fsub GF3m Ext]. rewrite (vcoef_mk K m). destruct (Nat.ltb_spec i m); [ | lia]. rewrite !vc by auto. reflexivity.
Qed.
Lemma m_neg : forall inplace a, valid m a -> gives m t (gf3m_neg inplace a) (fopp (value m t a)).
Proof.
  intros ip a (Wa & La). destruct (neg_spec ip _ a Wa) as (c & E & W & T). apply (coefs_gives _ _ c); auto.
  - intros i Hi. rewrite T. unfold tc. rewrite La by auto. reflexivity.
  - intros i Hi. rewrite T. cbn [fopp GF3m Ext]. rewrite (vcoef_mk K m). destruct (Nat.ltb_spec i m); [ | lia]. rewrite !vc by auto. reflexivity.
Qed.
Lemma m_zero : valid m (zero (m / 64 + 1)) /\ value m t (zero (m / 64 + 1)) = f0.
Proof.
  split; [split; [apply wf_zero | intros i Hi; apply tc_zero] | ]. apply (vec_ext K m). intros i Hi. rewrite vc by auto. rewrite tc_zero. cbn [f0 GF3m Ext]. rewrite (vcoef_mk K m). destruct (Nat.ltb_spec i m); [reflexivity | lia].
Qed.
Lemma m_one : gives m t (gf3m_one (m / 64 + 1)) f1.
Proof.
  destruct (one_spec (m / 64)) as (e & E & W & T). apply (coefs_gives _ _ e); auto.
  - intros i Hi. rewrite T. pose proof Ht. destruct (Nat.eqb_spec i 0); [lia | reflexivity].
  - intros i Hi. rewrite T. cbn [f1 GF3m Ext]. rewrite (vcoef_mk K m). destruct (Nat.ltb_spec i m); [reflexivity | lia].
Qed.
Lemma valid_inj : forall a b, valid m a -> valid m b -> value m t a = value m t b -> a = b.
Proof.
  intros a b (Wa & La) (Wb & Lb) E. apply (tc_ext (m / 64 + 1)); auto. intro i. destruct (le_lt_dec m i).
  - unfold tc. rewrite La, Lb by auto. reflexivity.
  - rewrite <- !vc by auto. rewrite E. reflexivity.
Qed.
Lemma cmp_words_spec : forall a b, length a = length b -> exists r, cmp_words a b = Ok r /\ (r = 0%Z <-> a = b) /\ (r = 0%Z \/ r = 1%Z).
Proof.
  induction a as [ | x a IH]; intros [ | y b] L; cbn in L; try discriminate; cbn [cmp_words].
  - exists 0%Z. split; auto. split; [tauto | auto].
  - destruct (Z.eqb_spec x y) as [-> | N].
    + destruct (IH b) as (r & E & H & B); [lia | ]. exists r. split; auto. split; [ | auto]. rewrite H. split; [congruence | intro Q; inversion Q; auto].
    + exists 1%Z. split; auto. split; [split; [discriminate | intro Q; inversion Q; contradiction] | auto].
Qed.
Lemma app_split : forall (a b c d : list Z), length a = length b -> a ++ c = b ++ d -> a = b /\ c = d.
Proof. induction a as [ | x a IH]; intros [ | y b] c d L E; cbn in L; try discriminate; [auto | ]. cbn in E. inversion E. destruct (IH b c d) as [-> ->]; auto. Qed.
Lemma m_cmp : forall a b, valid m a -> valid m b -> exists r, gf3m_cmp a b = Ok r /\ (r = 0%Z \/ r = 1%Z) /\ (r = 0%Z <-> value m t a = value m t b).
Proof.
  intros a b Va Vb. pose proof Va as ((L1 & L2 & _) & _). pose proof Vb as ((L3 & L4 & _) & _).
  destruct (cmp_words_spec (d1 a ++ d2 a) (d1 b ++ d2 b)) as (r & E & H & B); [rewrite !app_length; congruence | ]. exists r. split; [auto | split; [auto | ]]. rewrite H. split.
  - intro Q. f_equal. destruct a as [a1 a2], b as [b1 b2]. cbn in *. destruct (app_split a1 b1 a2 b2) as [-> ->]; auto. congruence.
  - intro Q. rewrite (valid_inj a b Va Vb Q). reflexivity.
Qed.
Lemma forallb0 : forall l, forallb (Z.eqb 0) l = true <-> l = repeat 0%Z (length l).
Proof.
  induction l as [ | x l IH]; [cbn; tauto | ]. cbn [forallb length repeat]. rewrite andb_true_iff, IH, Z.eqb_eq. split; [intros [<- E]; f_equal; exact E | intro E; injection E as E1 E2; split; auto].
Qed.
Lemma m_is0 : forall a, valid m a -> (gf3m_is0 a = true <-> value m t a = f0).
Proof.
  intros a Va. destruct m_zero as (V0 & E0). rewrite <- E0. unfold gf3m_is0. rewrite forallb_app, andb_true_iff, !forallb0. pose proof Va as ((L1 & L2 & _) & _). rewrite L1, L2. split.
  - intros [E1 E2]. f_equal. destruct a as [a1 a2]. cbn in *. unfold zero. congruence.
  - intro Q. apply (valid_inj _ _ Va V0) in Q. rewrite Q. split; reflexivity.
Qed.
Lemma m_is1 : forall a, valid m a -> exists b, gf3m_is1 a = Ok b /\ (b = true <-> value m t a = f1).
Proof.
  intros a Va. destruct m_one as (o & E & Vo & Eo). rewrite <- Eo. pose proof Va as ((L1 & L2 & _) & _).
  assert (O : o = GF3m.E (1%Z :: repeat 0%Z (m / 64)) (repeat 0%Z (m / 64 + 1))). { rewrite Nat.add_1_r in E |- *. unfold gf3m_one in E. cbn [repeat put Nat.ltb Nat.leb length bind] in E. inversion E. reflexivity. }
  unfold gf3m_is1. destruct a as [[ | w a1] a2]; cbn [d1 d2] in *; [rewrite Nat.add_1_r in L1; discriminate | ]. eexists. split; [reflexivity | ].
  destruct (Z.eqb_spec w 1) as [-> | N].
  - rewrite forallb_app, andb_true_iff, !forallb0. assert (L1' : length a1 = m / 64) by (rewrite Nat.add_1_r in L1; inversion L1; auto). rewrite L1', L2. split.
    + intros [E1 E2]. f_equal. rewrite O. congruence.
    + intro Q. apply (valid_inj _ _ Va Vo) in Q. rewrite O in Q. inversion Q. auto.
  - split; [discriminate | ]. intro Q. apply (valid_inj _ _ Va Vo) in Q. rewrite O in Q. inversion Q. contradiction.
Qed.

Section P.
Variable p : params.
Hypothesis Ip : field_init_gf3m (Z.of_nat m) (Z.of_nat t) = Ok p.
Lemma m_mult : forall a b, valid m a -> valid m b -> gives m t (gf3m_mult p a b) (fmul (value m t a) (value m t b)).
Proof. intros a b (Wa & La) (Wb & Lb). destruct (mult_spec m t Ht p (init_good p Ip) a b Wa La Wb Lb) as (c & E & W & L & V). exists c. split; [auto | split; [split; auto | auto]]. Qed.
Lemma m_cubic : forall a, valid m a -> gives m t (gf3m_cubic p a) (fmul (value m t a) (fmul (value m t a) (value m t a))).
Proof.
  intros a (Wa & La). assert (H2 : 2 <= m) by (pose proof Ht; lia). destruct (cubic_spec m t Ht Hm p (init_good p Ip) H2 a Wa La) as (c & E & W & L & V). exists c. split; [auto | split; [split; auto | auto]].
Qed.
Lemma m_reduct : forall n d e, sliced n (d1 e) (d2 e) -> d < 64 * n -> (Z.of_nat d < 2 ^ 32)%Z -> m <= d -> reduced (S d) (d1 e) (d2 e) ->
  exists e', gf3m_reduct p e n (Z.of_nat d) = Ok e' /\ sliced n (d1 e') (d2 e') /\ reduced m (d1 e') (d2 e') /\
    cong (trinomial m t) (map (tcoef (d1 e') (d2 e')) (seq 0 m) : list GF3) (map (tcoef (d1 e) (d2 e)) (seq 0 (S d))).
Proof.
  intros n d e W H1 H2 H3 L. destruct (reduct_spec m t Ht p (init_good p Ip) n d e W H1 H2 H3 L) as (e' & E & W' & L' & C). exists e'. split; [auto | split; [auto | split; [auto | ]]].
  assert (Q : forall k f, wf n f -> low k f -> eqp (map (tcoef (d1 f) (d2 f)) (seq 0 k) : list GF3) (P f)).
  { intros k f Wf Lf i. rewrite (coef_map_seq K), (coef_P n) by auto. destruct (Nat.ltb_spec i k); auto. symmetry. apply Lf. auto. }
  rewrite (Q m e'), (Q (S d) e) by auto. exact C.
Qed.
Lemma m_mul_si : forall a z, valid m a -> gives m t (gf3m_mul_si p a z) f0.
Proof.
  intros a z Va. unfold gf3m_mul_si, gf3m_set_si. destruct (init_good p Ip) as (-> & _). destruct m_zero as (V0 & E0). destruct (m_mult a (zero (m / 64 + 1)) Va V0) as (c & E & Vc & Ec). exists c. split; [auto | split; [auto | ]].
  rewrite Ec, E0. pose proof (Ext_ring K HK m (trinomial m t) (tri_monic m t Ht) ltac:(pose proof Ht; lia)) as R. rewrite (Rmul_comm R). apply (ARmul_0_l (Rth_ARth (Eqsth _) (Eq_ext _ _ _) R)).
Qed.
Hypothesis Irr : irreducible (trinomial m t).
Lemma m_invert : forall a, valid m a -> value m t a <> f0 -> gives m t (gf3m_invert p a) (finv (value m t a)).
Proof. intros a (Wa & La) N. destruct (invert_spec m t Ht Hm Irr p (init_good p Ip) a Wa La N) as (c & E & W & L & V). exists c. split; [auto | split; [split; auto | auto]]. Qed.
Lemma m_field : fld_laws (GF3m m t) /\ has_order (GF3m m t) (3 ^ Z.of_nat m).
Proof.
  split; [apply (Ext_laws K HK m (trinomial m t) (tri_monic m t Ht) ltac:(pose proof Ht; lia) Irr) | ].
  apply (Ext_order K). exists [T0; T1; T2]. split; [ | split; [intros []; cbn; auto | reflexivity]]. repeat constructor; cbn; intuition discriminate.
Qed.
Lemma m_div : forall a b, valid m a -> valid m b -> value m t b <> f0 -> gives m t (gf3m_div p a b) (fdiv (value m t a) (value m t b)).
Proof.
  intros a b Va Vb N. unfold gf3m_div. destruct (m_invert b Vb N) as (c & -> & Vc & Ec). cbn [bind]. destruct (m_mult c a Vc Va) as (d & -> & Vd & Ed). exists d. split; [auto | split; [auto | ]].
  rewrite Ed, Ec. rewrite (Fdiv_def (fl_field _ (proj1 m_field))). apply (Rmul_comm (F_R (fl_field _ (proj1 m_field)))).
Qed.
End P.
End M.

(** Square roots, for odd m. *)
Section Sq.
Variable F : fld.
Hypothesis HF : fld_laws F.
Add Field FF3s : (fl_field F HF).
Open Scope Z_scope.
Lemma sqrt_spec : forall q (a : F), has_order F q -> q mod 4 = 3 -> is_square a -> exists y, gf3m_sqrt F q a = Ok y /\ fmul y y = a.
Proof.
  intros q a Hq Q (z & Hz). pose proof (order_gt_1 F HF q Hq). pose proof (Z.div_mod q 4 ltac:(lia)) as DM. unfold gf3m_sqrt.
  assert (E : Z.quot (q + 1) (2 ^ 2) = q / 4 + 1). { rewrite Z.quot_div_nonneg by lia. change (2 ^ 2) with 4. symmetry. apply Z.div_unique with 0; lia. }
  assert (0 <= q / 4) by (apply Z.div_pos; lia).
  rewrite E, (generic_pow_spec (mul_monoid F) (mul_monoid_laws F HF)) by lia. eexists. split; [reflexivity | ]. change (zpow (a : mul_monoid F) (q / 4 + 1)) with (fpow a (q / 4 + 1)).
  destruct (f_eq_dec F HF a f0) as [-> | N].
  - unfold fpow, zpow. rewrite (npow_0_pos F HF) by lia. ring.
  - rewrite <- (fpowA F HF) by lia. replace (q / 4 + 1 + (q / 4 + 1)) with ((q - 1) / 2 + 1).
    + rewrite (fpowA F HF) by (try lia; apply Z.div_pos; lia). assert (O : Z.odd q = true) by (rewrite <- Z.negb_even; rewrite Zeven_mod; rewrite DM, Q; replace (4 * (q / 4) + 3) with (1 + (2 * (q / 4) + 1) * 2) by ring; rewrite Z_mod_plus_full; reflexivity).
      rewrite (proj2 (euler_f F HF q Hq O a N)) by (exists z; auto). change (fpow a 1) with (fmul a f1). ring.
    + apply (Z.mul_reg_l _ _ 2); [lia | ]. assert (2 * ((q - 1) / 2) = q - 1). { replace (q - 1) with ((2 * (q / 4) + 1) * 2) by lia. rewrite Z.div_mul by lia. lia. } lia.
Qed.
End Sq.
Lemma pow3_odd : forall m, Nat.odd m = true -> (3 ^ Z.of_nat m mod 4 = 3)%Z.
Proof.
  intros m H. apply Nat.odd_spec in H. destruct H as (k & ->). replace (Z.of_nat (2 * k + 1)) with (2 * Z.of_nat k + 1)%Z by lia.
  rewrite Z.pow_add_r, Z.pow_mul_r by lia. change (3 ^ 2)%Z with 9%Z. change (3 ^ 1)%Z with 3%Z. rewrite Z.mul_mod, (Zpower_mod 9) by lia. change (9 mod 4)%Z with 1%Z. rewrite Z.pow_1_l by lia. reflexivity.
Qed.
Lemma m_sqrt : forall m t, dims m t -> irreducible (trinomial m t) -> Nat.odd m = true -> forall x : GF3m m t, is_square x ->
  exists y, gf3m_sqrt (GF3m m t) (3 ^ Z.of_nat m) x = Ok y /\ fmul y y = x.
Proof. intros m t D I O x S. destruct (m_field m t D I) as (HL & HO). apply (sqrt_spec _ HL); auto. apply pow3_odd. auto. Qed.

(** Byte strings. *)
Open Scope Z_scope.
Lemma word_bytes_length : forall w, length (word_bytes w) = 8%nat. Proof. reflexivity. Qed.
Lemma word_bytes_value : forall w, wd w -> fold_right (fun b acc => acc * 256 + b) 0 (word_bytes w) = w.
Proof.
  intros w W. unfold word_bytes. cbn [map seq fold_right]. rewrite !Z.shiftr_div_pow2 by lia.
  assert (S : forall k, 0 <= k -> w / 2 ^ k = (w / 2 ^ (k + 8)) * 256 + (w / 2 ^ k) mod 256).
  { intros k Hk. rewrite Z.pow_add_r, <- Z.div_div by lia. change (2 ^ 8) with 256. pose proof (Z.div_mod (w / 2 ^ k) 256). lia. }
  assert (T : w / 2 ^ 64 = 0) by (apply Z.div_small; exact W).
  pose proof (S 0) as S0. pose proof (S 8) as S1. pose proof (S 16) as S2. pose proof (S 24) as S3. pose proof (S 32) as S4. pose proof (S 40) as S5. pose proof (S 48) as S6. pose proof (S 56) as S7.
  cbn [Z.add Pos.add Pos.succ Pos.add_carry] in *. change (8 * Z.of_nat 0) with 0. change (8 * Z.of_nat 1) with 8. change (8 * Z.of_nat 2) with 16. change (8 * Z.of_nat 3) with 24.
  change (8 * Z.of_nat 4) with 32. change (8 * Z.of_nat 5) with 40. change (8 * Z.of_nat 6) with 48. change (8 * Z.of_nat 7) with 56.
  rewrite Z.pow_0_r, Z.div_1_r in *. lia.
Qed.
Lemma read_back : forall x y r, wd x -> wd y -> read_word (interleave (word_bytes x) (word_bytes y) ++ r) 8 0 0 = Ok (x, y).
Proof.
  intros x y r Hx Hy. pose proof (word_bytes_value x Hx) as Vx. pose proof (word_bytes_value y Hy) as Vy.
  assert (B : forall w, Forall (fun b => 0 <= b < 256) (word_bytes w)) by (intro w; unfold word_bytes; apply Forall_forall; intros b Hb; apply in_map_iff in Hb; destruct Hb as (j & <- & _); apply Z.mod_pos_bound; lia).
  assert (Lx := word_bytes_length x). assert (Ly := word_bytes_length y). pose proof (B x) as Bx. pose proof (B y) as By.
  destruct (word_bytes x) as [ | a0 [ | a1 [ | a2 [ | a3 [ | a4 [ | a5 [ | a6 [ | a7 [ | ]]]]]]]]]; try discriminate.
  destruct (word_bytes y) as [ | b0 [ | b1 [ | b2 [ | b3 [ | b4 [ | b5 [ | b6 [ | b7 [ | ]]]]]]]]]; try discriminate.
  cbn [fold_right] in Vx, Vy. cbn [interleave app read_word Nat.mul Nat.add get nth_error bind].
  repeat match goal with H : Forall _ (_ :: _) |- _ => inversion_clear H end. unfold wd in *. cbv beta in *.
  assert (S : forall u, 0 <= u < 2 ^ 64 -> u mod 2 ^ 64 = u) by (intros; apply Z.mod_small; auto). change (2 ^ 64) with 18446744073709551616 in *.
  f_equal. f_equal; repeat match goal with |- context [?u mod 18446744073709551616] => match u with context [_ mod _] => fail 1 | _ => rewrite (S u) by lia end end; lia.
Qed.
Lemma to_bytes_words_spec : forall a b, Forall wd a -> Forall wd b -> length a = length b ->
  exists s, to_bytes_words a b = Ok s /\ length s = (16 * length a)%nat /\ Forall (fun x => 0 <= x < 256) s /\ forall r, from_bytes_words (length a) (s ++ r) = Ok (a, b).
Proof.
  induction a as [ | x a IH]; intros [ | y b] Wa Wb L; cbn in L; try discriminate; cbn [to_bytes_words].
  - exists []. repeat split; auto.
  - inversion Wa; inversion Wb; subst. destruct (IH b) as (s & E & Ls & Bs & R); auto. rewrite E. cbn [bind]. eexists. split; [reflexivity | ].
    assert (Li : length (interleave (word_bytes x) (word_bytes y)) = 16%nat) by reflexivity. split; [ | split].
    + rewrite app_length, Li, Ls. cbn [length]. lia.
    + apply Forall_app. split; auto. unfold word_bytes. cbn [map seq interleave]. repeat constructor; apply Z.mod_pos_bound; lia.
    + intro r. cbn [length from_bytes_words]. rewrite <- app_assoc, read_back by auto. cbn [bind].
      replace (skipn 16 (interleave (word_bytes x) (word_bytes y) ++ s ++ r)) with (s ++ r) by reflexivity. rewrite R. reflexivity.
Qed.
Lemma m_bytes : forall m t p e, dims m t -> field_init_gf3m (Z.of_nat m) (Z.of_nat t) = Ok p -> valid m e ->
  exists s, gf3m_to_bytes e = Ok s /\ Z.of_nat (length s) = gf3m_length_in_bytes p /\ Forall (fun x => 0 <= x < 256) s /\ forall r, gf3m_from_bytes p (s ++ r) = Ok e.
Proof.
  intros m t p [a b] D I ((L1 & L2 & W1 & W2 & _) & _). cbn [d1 d2] in *. destruct (to_bytes_words_spec a b W1 W2) as (s & E & L & B & R); [congruence | ].
  destruct (init_good m t D p I) as (Lp & _). exists s. split; [exact E | ]. split; [unfold gf3m_length_in_bytes; rewrite Lp, L, L1; lia | ]. split; [auto | ]. intro r. unfold gf3m_from_bytes. rewrite Lp, <- L1, R. reflexivity.
Qed.
