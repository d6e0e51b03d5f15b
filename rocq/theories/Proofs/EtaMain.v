(** The towers and the eta_T pairing over the stored GF(3^m). *)
From Coq Require Import ZArith List Bool Lia Arith Ring Field.
From Verif.Base Require Import Outcome Algebra Slots.
From Verif.Spec Require Import FiniteField Polynomials Quadratic Extension Ternary TernaryTower TernaryValues EtaT.
From Verif.Model Require Import GF3m GF3Tower EtaT3.
From Verif.Proofs Require Import FieldFacts PolyAlgebra PolyRoots ExtFacts GF3mBits GF3mPoly GF3mMain GF3mRandom TowerAlgebra TowerFields TowerFacts EtaFinal EtaLoop.
Import ListNotations.
Open Scope nat_scope.

Section M.
Variables (m t : nat) (p : params).
Hypothesis D : dims m t.
Hypothesis E : field_init_gf3m (Z.of_nat m) (Z.of_nat t) = Ok p.
Hypothesis Irr : irreducible (trinomial m t).
Hypothesis Om : Nat.odd m = true.
Hypothesis N3 : m mod 3 <> 0.
Local Notation K := (GF3m m t). Local Notation F := (gf3m_ops p).
Local Notation h1 := (holds m t). Local Notation h2 := (holds2 m t p). Local Notation h3 := (holds3 m t p). Local Notation h6 := (holds6 m t p).
Let HK : fld_laws K := proj1 (m_field m t D Irr).
Let HO : has_order K (3 ^ Z.of_nat m) := proj2 (m_field m t D Irr).
Lemma p_len_ok : p_len p = m / 64 + 1. Proof. exact (proj1 (init_good m t D p E)). Qed.
Lemma base : implements F K h1.
Proof.
  constructor; cbn [gf3m_ops o_set0 o_set1 o_add o_sub o_mul o_cubic o_cmp car].
  - rewrite p_len_ok. eexists. split; [reflexivity | exact (m_zero m t)].
  - rewrite p_len_ok. exact (m_one m t D).
  - intros a b x y (A & <-) (B & <-). exact (m_add m t a b A B).
  - intros a b x y (A & <-) (B & <-). exact (m_sub m t a b A B).
  - intros a b x y (A & <-) (B & <-). exact (m_mult m t D p E a b A B).
  - intros a x (A & <-). exact (m_cubic m t D p E a A).
  - intros a b x y (A & <-) (B & <-). destruct (m_cmp m t a b A B) as (r & R & _ & Q). exists r. split; assumption.
Qed.
Lemma base_neg : implements_neg F K h1. Proof. intros i a x (A & <-). exact (m_neg m t i a A). Qed.
Lemma base_inv : implements_inv F K h1. Proof. intros a x (A & <-) NZ. exact (m_invert m t D p E Irr a A NZ). Qed.
Let C3 : fadd (fadd f1 f1) f1 = (f0 : K) := order_char3 K m HK HO.
Lemma level2 : implements (gf32m_ops F) (GF32m K) h2. Proof. exact (impl2 F K h1 HK C3 base base_neg). Qed.
Lemma level2_neg : implements_neg (gf32m_ops F) (GF32m K) h2. Proof. exact (neg2 F K h1 base_neg). Qed.
Lemma level3 : implements (gf33m_ops F) (GF33m K) h3. Proof. exact (impl3 F K h1 HK C3 base). Qed.
Lemma level3_inv : implements_inv (gf33m_ops F) (GF33m K) h3.
Proof. exact (inv3 F K h1 HK C3 base (z3_irreducible K HK C3 m HO N3) base_inv). Qed.
Lemma level6 : implements (gf36m_ops F) (GF36m K) h6.
Proof. exact (impl3 (gf32m_ops F) (GF32m K) h2 (laws32 K HK m HO Om) (char32 K HK m HO Om) level2). Qed.
Lemma fields : (fld_laws (GF32m K) /\ has_order (GF32m K) (3 ^ Z.of_nat (2 * m))) /\ (fld_laws (GF33m K) /\ has_order (GF33m K) (3 ^ Z.of_nat (3 * m))) /\
  (fld_laws (GF36m K) /\ has_order (GF36m K) (3 ^ Z.of_nat (6 * m))).
Proof.
  split; [split | split; split].
  - exact (laws32 K HK m HO Om).
  - exact (order32 K m HO).
  - exact (laws33m K HK m HO N3).
  - exact (order33 K m HO N3).
  - exact (laws36 K HK m HO Om N3).
  - exact (order36 K m HO N3).
Qed.
Lemma ops2 : forall a b x y, h2 a x -> h2 b y ->
  returns h2 (gf32m_set0 F) f0 /\ returns h2 (gf32m_set1 F) f1 /\
  returns h2 (gf32m_add F a b) (fadd x y) /\ returns h2 (gf32m_sub F a b) (fsub x y) /\ returns h2 (gf32m_mult F a b) (fmul x y) /\
  (forall inplace, returns h2 (gf32m_neg F inplace a) (fopp x)) /\ returns h2 (gf32m_cubic F a) (fmul x (fmul x x)) /\
  exists r, gf32m_cmp F a b = Ok r /\ (r = 0%Z <-> x = y).
Proof.
  intros a b x y A B. pose proof level2 as L. split; [exact (i_0 _ _ _ L) | split; [exact (i_1 _ _ _ L) | split; [exact (i_add _ _ _ L a b x y A B) | ]]].
  split; [exact (i_sub _ _ _ L a b x y A B) | split; [exact (i_mul _ _ _ L a b x y A B) | split; [ | split; [exact (i_cubic _ _ _ L a x A) | exact (i_cmp _ _ _ L a b x y A B)]]]].
  intro i. exact (level2_neg i a x A).
Qed.
Lemma ops3 : forall a b x y, h3 a x -> h3 b y ->
  returns h3 (gf33m_set0 F) f0 /\ returns h3 (gf33m_set1 F) f1 /\
  returns h3 (gf33m_add F a b) (fadd x y) /\ returns h3 (gf33m_sub F a b) (fsub x y) /\ returns h3 (gf33m_mult F a b) (fmul x y) /\
  returns h3 (gf33m_cubic F a) (fmul x (fmul x x)) /\ (x <> f0 -> returns h3 (gf33m_invert F a) (finv x)) /\
  exists r, gf33m_cmp F a b = Ok r /\ (r = 0%Z <-> x = y).
Proof.
  intros a b x y A B. pose proof level3 as L. split; [exact (i_0 _ _ _ L) | split; [exact (i_1 _ _ _ L) | split; [exact (i_add _ _ _ L a b x y A B) | ]]].
  split; [exact (i_sub _ _ _ L a b x y A B) | split; [exact (i_mul _ _ _ L a b x y A B) | split; [exact (i_cubic _ _ _ L a x A) | split; [exact (level3_inv a x A) | exact (i_cmp _ _ _ L a b x y A B)]]]].
Qed.
Lemma ops6 : forall a b x y, h6 a x -> h6 b y -> let F2 := gf32m_ops F in
  returns h6 (gf33m_set0 F2) f0 /\ returns h6 (gf33m_set1 F2) f1 /\
  returns h6 (gf33m_add F2 a b) (fadd x y) /\ returns h6 (gf33m_sub F2 a b) (fsub x y) /\ returns h6 (gf33m_mult F2 a b) (fmul x y) /\
  returns h6 (gf33m_cubic F2 a) (fmul x (fmul x x)) /\ exists r, gf33m_cmp F2 a b = Ok r /\ (r = 0%Z <-> x = y).
Proof.
  intros a b x y A B. pose proof level6 as L. split; [exact (i_0 _ _ _ L) | split; [exact (i_1 _ _ _ L) | split; [exact (i_add _ _ _ L a b x y A B) | ]]].
  split; [exact (i_sub _ _ _ L a b x y A B) | split; [exact (i_mul _ _ _ L a b x y A B) | split; [exact (i_cubic _ _ _ L a x A) | exact (i_cmp _ _ _ L a b x y A B)]]].
Qed.
Lemma alg6 : forall u x, h6 u x -> x <> f0 -> returns h6 (algorithm6 F u) (fpow x (3 ^ Z.of_nat (3 * m) - 1)).
Proof. exact (algorithm6_ok F K h1 HK m HO Om N3 base base_inv). Qed.
Lemma alg7 : forall u x, h6 u x -> fmul x (fpow x (3 ^ Z.of_nat (3 * m))) = f1 -> returns h6 (algorithm7 F (Z.of_nat m) u) (fpow x (3 ^ Z.of_nat m + 1)).
Proof. exact (algorithm7_ok F K h1 HK m HO Om N3 base base_neg). Qed.
Lemma alg8 : forall u x, h6 u x -> x <> f0 -> returns h6 (algorithm8 F (Z.of_nat m) u) (fpow x (eta_M m)).
Proof. exact (algorithm8_ok F K h1 HK m HO Om N3 base base_neg base_inv). Qed.
Lemma inv_ub : forall u x, h6 u x -> @o_invert (gf36m_ops F) u = UB.
Proof.
  intros [a0 a1 a2] x (A & B & C). cbn [g_0 g_1 g_2] in *. change (gf33m_invert (gf32m_ops F) (G3 a0 a1 a2) = UB). unfold gf33m_invert.
  pose proof level2 as L.
  assert (ST : forall (r : res (gf2 F)) k y, stores h2 r y -> (forall c, h2 c y -> k c = UB) -> bind (B := gf3 (gf32m_ops F)) r k = UB).
  { intros r k y (c & -> & H) G. cbn [bind]. auto. }
  repeat (eapply ST; [first [eapply (i_mul _ _ _ L); eassumption | eapply (i_add _ _ _ L); eassumption | eapply (i_sub _ _ _ L); eassumption] | intros ? ?; cbv beta]).
  reflexivity.
Qed.
Lemma eta_ok : forall a b c d (xp yp xq yq : K), h1 a xp -> h1 b yp -> h1 c xq -> h1 d yq -> on_ternary_curve K xp yp ->
  returns h6 (eta_T_pairing F (Z.of_nat m) (Some (a, b)) (Some (c, d))) (eta_T K m xp yp xq yq) /\ fpow (eta_T K m xp yp xq yq) (eta_N m) = f1.
Proof.
  intros a b c d xp yp xq yq A B C D' Cu. pose proof (curve_y_nz K HK m HO N3 xp yp Cu) as NZ. split.
  - exact (pairing_ok F K h1 HK m HO Om N3 base base_neg base_inv xp yp xq yq a b c d A B C D' NZ).
  - unfold eta_T. apply (eta_T_root K HK m HO Om N3). apply (ml_nz K HK m HO Om N3). exact NZ.
Qed.
Lemma eta_inf : forall P, returns h6 (eta_T_pairing F (Z.of_nat m) None P) f1 /\ returns h6 (eta_T_pairing F (Z.of_nat m) P None) f1.
Proof. intro P. assert (G := i_1 _ _ _ level6). split; [exact G | ]. destruct P as [[a b] | ]; exact G. Qed.
End M.

(** X^5 + X^4 + 2 is irreducible over GF(3): all factorisations are tried. *)
Definition trits : list trit := [T0; T1; T2].
Lemma in_trits : forall a, In a trits. Proof. intros []; cbn; auto. Qed.
Fixpoint lists (n : nat) : list (list trit) := match n with O => [[]] | S n' => flat_map (fun a => map (cons a) (lists n')) trits end.
Lemma in_lists : forall (l : list trit), In l (lists (length l)).
Proof. induction l as [ | a l IH]; [left; reflexivity | ]. cbn [length lists]. apply in_flat_map. exists a. split; [apply in_trits | apply in_map, IH]. Qed.
Definition trit_eqb (a b : trit) : bool := (tval a =? tval b)%Z.
Lemma trit_eqb_refl : forall a, trit_eqb a a = true. Proof. intros []; reflexivity. Qed.
Definition same (n : nat) (f g : list GF3) : bool := forallb (fun i => trit_eqb (coef f i) (coef g i)) (seq 0 n).
Lemma same_eqp : forall n f g, eqp f g -> same n f g = true.
Proof. intros n f g H. apply forallb_forall. intros i _. rewrite (H i). apply trit_eqb_refl. Qed.
Definition no_factor (a b : nat) (m : list GF3) : bool :=
  forallb (fun f => forallb (fun g => negb (same (length m) m (mulp GF3 f g))) (lists b)) (lists a).
Lemma no_factor_5 : forall f g : list trit, 1 < length f -> 1 < length g -> length f + length g = 7 -> eqp (trinomial 5 4) (mulp GF3 f g) -> False.
Proof.
  intros f g A B L Et.
  assert (NF : no_factor 2 5 (trinomial 5 4) = true /\ no_factor 3 4 (trinomial 5 4) = true /\ no_factor 4 3 (trinomial 5 4) = true /\ no_factor 5 2 (trinomial 5 4) = true)
    by (repeat split; vm_compute; reflexivity).
  assert (G : no_factor (length f) (length g) (trinomial 5 4) = true).
  { destruct NF as (N1 & N2 & N4 & N5). assert (length f = 2 /\ length g = 5 \/ length f = 3 /\ length g = 4 \/ length f = 4 /\ length g = 3 \/ length f = 5 /\ length g = 2) as X by lia.
    destruct X as [(-> & ->) | [(-> & ->) | [(-> & ->) | (-> & ->)]]]; assumption. }
  unfold no_factor in G. rewrite forallb_forall in G. specialize (G f (in_lists f)). rewrite forallb_forall in G. specialize (G g (in_lists g)).
  rewrite (same_eqp _ _ _ Et) in G. discriminate G.
Qed.
Lemma tri5_irr : irreducible (trinomial 5 4).
Proof.
  assert (N : normal (trinomial 5 4)) by (intros _; discriminate). split.
  - intro C. specialize (C 5 ltac:(lia)). discriminate C.
  - intros f g Ec. assert (Ep : eqp (trinomial 5 4) (mulp GF3 f g)) by (intro i; rewrite Ec, (coef_mulp GF3 GF3_laws); auto).
    assert (Et : eqp (trinomial 5 4) (mulp GF3 (trim f) (trim g))).
    { intro i. rewrite Ep, !(coef_mulp GF3 GF3_laws). unfold conv. apply sum_ext. intros. rewrite !(coef_trim GF3 GF3_laws). auto. }
    destruct (le_lt_dec (length (trim f)) 1) as [A | A].
    { left. intros i Hi. rewrite <- (coef_trim GF3 GF3_laws). apply coef_over. lia. }
    destruct (le_lt_dec (length (trim g)) 1) as [B | B].
    { right. intros i Hi. rewrite <- (coef_trim GF3 GF3_laws). apply coef_over. lia. }
    assert (Zf : trim f <> []) by (intro X; rewrite X in A; cbn in A; lia). assert (Zg : trim g <> []) by (intro X; rewrite X in B; cbn in B; lia).
    pose proof (mul_length GF3 GF3_laws (trim f) (trim g) (trinomial 5 4) (trim_normal GF3 GF3_laws f) (trim_normal GF3 GF3_laws g) N Zf Zg Et) as Lm.
    change (length (trinomial 5 4)) with 6 in Lm. exfalso. apply (no_factor_5 (trim f) (trim g)); [exact A | exact B | | exact Et]. exact (eq_sym Lm).
Qed.
(** The pairing of (0, 1) with (1, 1) over GF(3^5). *)
Definition zero5 : elt := E [0%Z] [0%Z]. Definition one5 : elt := E [1%Z] [0%Z]. Definition two5 : elt := E [0%Z] [1%Z].
Definition coords (p : params) (r : res (gf6 (gf3m_ops p))) : list elt :=
  match r with Ok u => [fst (g_0 u); snd (g_0 u); fst (g_1 u); snd (g_1 u); fst (g_2 u); snd (g_2 u)] | _ => [] end.
Lemma coords_inv : forall p r a b c d e f, coords p r = [a; b; c; d; e; f] -> r = Ok (mk6 (gf3m_ops p) a b c d e f).
Proof. intros p [[[x0 x1] [x2 x3] [x4 x5]] | | | ] a b c d e f H; cbn in H; inversion H; subst; reflexivity. Qed.
Definition p5 : params := Params 1 5 4 (E [48%Z] [1%Z]).
Lemma init5 : field_init_gf3m 5 4 = Ok p5. Proof. vm_compute. reflexivity. Qed.
Lemma eta5_coords : coords p5 (eta_T_pairing (gf3m_ops p5) 5 (Some (zero5, one5)) (Some (one5, one5))) = [two5; two5; two5; zero5; two5; one5].
Proof. vm_compute. reflexivity. Qed.
Lemma eta5 : exists p, field_init_gf3m 5 4 = Ok p /\
  eta_T_pairing (gf3m_ops p) 5 (Some (zero5, one5)) (Some (one5, one5)) = Ok (mk6 (gf3m_ops p) two5 two5 two5 zero5 two5 one5).
Proof. exists p5. split; [exact init5 | ]. apply coords_inv. exact eta5_coords. Qed.
Lemma dims5 : dims 5 4. Proof. split; [lia | reflexivity]. Qed.
Lemma holds5 : holds 5 4 zero5 f0 /\ holds 5 4 one5 f1.
Proof. split; [exact (m_zero 5 4) | destruct (m_one 5 4 dims5) as (c & Ec & H); vm_compute in Ec; inversion Ec; subst c; exact H]. Qed.
Section C.
Variable K : fld.
Hypothesis HK : fld_laws K.
Add Field KFc : (fl_field K HK).
Lemma curve_01 : on_ternary_curve K f0 f1 /\ on_ternary_curve K f1 f1. Proof. unfold on_ternary_curve. split; ring. Qed.
End C.
Lemma curve5 : on_ternary_curve (GF3m 5 4) f0 f1 /\ on_ternary_curve (GF3m 5 4) f1 f1.
Proof. exact (curve_01 (GF3m 5 4) (proj1 (m_field 5 4 dims5 tri5_irr))). Qed.
