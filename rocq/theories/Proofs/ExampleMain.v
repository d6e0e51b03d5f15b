(** The programs of example/ over the pairings of types A, E, D and F. *)
From Coq Require Import ZArith Znumtheory List Bool Lia Ring Field.
From Verif.Base Require Import Outcome Gmp Algebra Slots.
From Verif.Spec Require Import FiniteField Quadratic Extension Curve Tate Twist PairingValue PairingValueD PairingValueE PairingValueF HashToCurve.
From Verif.Model Require Import GenericPow Curve CurveCodec GT Pairing PairingA PairingD PairingE PairingF Examples.
From Verif.Proofs Require Import GmpFacts FieldFacts QuadFacts CurveGroup CurveFacts Embed ExtFacts ExtFrobenius Twisted SexticExt PairingDFacts PairingAFacts PairingAApi DFinal PairingDApi PairingEApi PairingFApi PairingFMain
  ExampleFacts ExampleBls.
Local Open Scope Z_scope.

Lemma gcd_zero : forall r x, 1 < r -> x mod r = 0 -> Z.gcd x r <> 1.
Proof. intros r x R E G. rewrite Z.gcd_comm, <- Z.gcd_mod, E, Z.gcd_0_l in G by lia. lia. Qed.

Section A.
Variable K : fld.
Variables q r h e2 e1 s1 s0 : Z.
Hypothesis TA : type_a K q r h e2 e1 s1 s0.
Variable j : K.
Variable m : a_method.
Local Notation v := (fopp f1 : K).
Local Notation L := (Quad K v).
Local Notation G := (torsion K f1 f0 r).
Local Notation val := (type_a_value K q r).
Local Notation pr := (pairing_apply (a_pairing K (Ok j) (a_info_of h e2 e1 s1) m)).
Let HK := ta_field _ _ _ _ _ _ _ _ TA.
Let HL : fld_laws L := Quad_laws K HK v (PairingAFacts.vns K HK q (ta_q _ _ _ _ _ _ _ _ TA) (ta_mod _ _ _ _ _ _ _ _ TA) (ta_order _ _ _ _ _ _ _ _ TA)).
Let HE := PairingAFacts.ellK K HK q (ta_q _ _ _ _ _ _ _ _ TA) (ta_order _ _ _ _ _ _ _ _ TA) r h (ta_big _ _ _ _ _ _ _ _ TA) (ta_h _ _ _ _ _ _ _ _ TA).
Let Pr := ta_r _ _ _ _ _ _ _ _ TA.
Let RP : 0 < r. Proof. pose proof (prime_ge_2 r Pr). lia. Qed.
Let R1 : 1 < r. Proof. pose proof (prime_ge_2 r Pr). lia. Qed.
Let PV : forall P Q, G P -> G Q -> pr P Q = Ok (val P Q).
Proof. intros P Q HP [HQ _]. apply (apply_value K q r h e2 e1 s1 s0 TA); auto. Qed.
Let PV' : forall P Q, G P -> G Q -> True -> pr P Q = Ok (val P Q). Proof. auto. Qed.
Let A1 : forall P P' Q, G P -> G P' -> G Q -> val (padd K f1 P P') Q = fmul (val P Q) (val P' Q).
Proof. intros P P' Q HP HP' [HQ _]. apply (PairingAApi.value_add1 K q r h e2 e1 s1 s0 TA); auto. Qed.
Let A2 : forall P Q Q', G P -> G Q -> G Q' -> val P (padd K f1 Q Q') = fmul (val P Q) (val P Q').
Proof. intros P Q Q' HP [HQ _] [HQ' _]. apply (PairingAApi.value_add2 K q r h e2 e1 s1 s0 TA); auto. Qed.
Let AM : forall i k P Q, G P -> G Q -> val (pzmul K f1 i P) (pzmul K f1 k Q) = fpow (val P Q) ((i * k) mod r).
Proof. intros i k P Q HP [HQ _]. apply (PairingAApi.value_bilinear K q r h e2 e1 s1 s0 TA); auto. Qed.
Let AR : forall P Q, G P -> G Q -> fpow (val P Q) r = f1.
Proof. intros P Q HP [HQ _]. apply (PairingAApi.value_r K q r h e2 e1 s1 s0 TA); auto. Qed.
Theorem a_bls : forall blen enc dec sign is_sqr sqrt, is_code K blen enc dec -> is_sign K sign -> good_roots K is_sqr sqrt ->
  forall st0 g x hh rs, G hh -> on_curve K f1 f0 g -> G rs -> 0 <= x -> pzmul K f1 x hh <> None ->
  bls K K L f1 f0 f1 blen enc dec sign sqrt pr st0 g x hh rs = Ok (true, true, feqb (val rs g) (fpow (val hh g) x)).
Proof.
  intros blen enc dec sign is_sqr sqrt C S R st0 g x hh rs Hh Hg Hs Hx N.
  apply (bls_ok K K L HK HK HL f1 f0 f1 f0 HE HE r RP (on_curve K f1 f0)) with (is_sqr := is_sqr); auto.
  - intros n Q O. apply (pzmul_on K HK f1 f0 (proj1 HE)). auto.
  - intros P Q HP HQ. apply (apply_value K q r h e2 e1 s1 s0 TA); auto.
  - intros i k P Q HP HQ. apply (PairingAApi.value_bilinear K q r h e2 e1 s1 s0 TA); auto.
  - intros P Q HP HQ. apply (PairingAApi.value_r K q r h e2 e1 s1 s0 TA); auto.
Qed.
Variable to_mpz : L -> Z.
Theorem a_joux : forall P x y z, G P -> 0 <= x -> 0 <= y -> 0 <= z ->
  joux K L f1 pr P x y z = let k := fpow (val P P) (x * y * z) in Ok (k, k, k).
Proof. intros. exact (joux_ok K L HK HL f1 f0 HE r R1 pr val (fun _ => True) PV' AM AR P x y z H H0 H1 H2 Logic.I Logic.I). Qed.
Theorem a_hess : forall P Qid P1 s k hm, G P -> G Qid -> G P1 -> 0 <= s -> 0 <= k ->
  exists v u, hess K L f1 r pr to_mpz P Qid P1 s k hm = Ok (v, u, v, true) /\ 0 <= v < r /\ G u.
Proof. intros. eexists _, _. apply (hess_ok K L HK HL f1 f0 HE r R1 pr val (fun _ => True) PV' A1 A2 AM AR to_mpz); auto. Qed.
Theorem a_paterson : forall P Qid s k h2 h3, G P -> G Qid -> 0 <= s -> 0 <= k -> 0 <= h2 -> (forall R, 0 <= h3 R) ->
  (k mod r <> 0 -> exists R S, paterson K L f1 r pr P Qid s k h2 h3 = Ok (R, S, true) /\ G R /\ G S) /\
  (k mod r = 0 -> paterson K L f1 r pr P Qid s k h2 h3 = UB).
Proof.
  intros. split; intro N; [apply (paterson_ok K L HK HL f1 f0 HE r R1 pr val (fun _ => True) PV' A2 AM AR); auto; apply prime_gcd | apply (paterson_zero K L HK f1 f0 HE r R1 pr)]; auto.
  apply gcd_zero; auto.
Qed.
Theorem a_yuanli : forall P Qa Qb s x y, G P -> G Qa -> G Qb -> 0 <= s -> 0 <= x -> 0 <= y ->
  exists k, yuanli K L f1 pr P Qa Qb s x y = Ok (k, k, true) /\
  k = fmul (fpow (val P (padd K f1 Qa Qb)) (x * y)) (fpow (val (padd K f1 (pzmul K f1 x P) Qa) (padd K f1 (pzmul K f1 y P) Qb)) s).
Proof. intros. apply (yuanli_ok K L HK HL f1 f0 HE r R1 pr val (fun _ => True) PV' A1 A2 AM AR); auto. Qed.
Theorem a_zhangkim : forall P Qid s rr x y hm, G P -> G Qid -> 0 <= s -> 0 <= rr -> 0 <= x -> 0 <= y ->
  exists S c, zhangkim K L f1 r pr to_mpz P Qid s rr x y hm = Ok (S, c, c, true) /\ 0 <= c < r /\ G S.
Proof. intros. eexists _, _. apply (zhangkim_ok K L HK HL f1 f0 HE r R1 pr val (fun _ => True) PV' A1 AM AR to_mpz); auto. Qed.
Theorem a_zss : forall P x hm, G P -> 0 <= x -> 0 <= hm ->
  ((hm + x) mod r <> 0 -> exists S, zss K L f1 r pr P x hm = Ok (S, true) /\ G S) /\ ((hm + x) mod r = 0 -> zss K L f1 r pr P x hm = UB).
Proof.
  intros. split; intro N; [apply (zss_ok K L HK HL f1 f0 HE r R1 pr val (fun _ => True) PV' A1 AM AR); auto; apply prime_gcd | apply (zss_zero K L HK f1 f0 HE r R1 pr)]; auto.
  apply gcd_zero; auto.
Qed.
End A.

Section E.
Variable K : fld.
Variables a b : K.
Variables q r e2 e1 s1 s0 : Z.
Hypothesis T : type_e K a b q r e2 e1 s1 s0.
Variable R : point K.
Hypothesis HR : e_shift K a b r R.
Hypothesis HS : forall k, 0 < k < 5 -> pzmul K a (k * r) R <> None.
Variable m : a_method.
Local Notation G := (torsion K a b r).
Local Notation val := (e_value K a q r R).
Local Notation pr := (pairing_apply (e_pairing_rec K a {| ee2 := e2; ee1 := e1; es1 := s1; es0 := s0 |} q r R m)).
Let HK := te_field _ _ _ _ _ _ _ _ _ T.
Let HE := te_curve _ _ _ _ _ _ _ _ _ T.
Let Pr := te_r _ _ _ _ _ _ _ _ _ T.
Let RP : 0 < r. Proof. pose proof (prime_ge_2 r Pr). lia. Qed.
Let R1 : 1 < r. Proof. pose proof (prime_ge_2 r Pr). lia. Qed.
Let PV : forall P Q, G P -> G Q -> pr P Q = Ok (val P Q).
Proof. intros. apply (e_apply K a b q r e2 e1 s1 s0 T R HR); auto. Qed.
Let PV' : forall P Q, G P -> G Q -> True -> pr P Q = Ok (val P Q). Proof. auto. Qed.
Let A1 : forall P P' Q, G P -> G P' -> G Q -> val (padd K a P P') Q = fmul (val P Q) (val P' Q).
Proof. intros. apply (e_add1 K a b q r e2 e1 s1 s0 T R HR); auto. Qed.
Let A2 : forall P Q Q', G P -> G Q -> G Q' -> val P (padd K a Q Q') = fmul (val P Q) (val P Q').
Proof. intros. apply (e_add2 K a b q r e2 e1 s1 s0 T R HR HS); auto. Qed.
Let AM : forall i k P Q, G P -> G Q -> val (pzmul K a i P) (pzmul K a k Q) = fpow (val P Q) ((i * k) mod r).
Proof. intros. apply (e_bilinear K a b q r e2 e1 s1 s0 T R HR HS); auto. Qed.
Let AR : forall P Q, G P -> G Q -> fpow (val P Q) r = f1.
Proof. intros. apply (e_value_r K a b q r e2 e1 s1 s0 T R HR); auto. Qed.
Theorem e_bls : forall blen enc dec sign is_sqr sqrt, is_code K blen enc dec -> is_sign K sign -> good_roots K is_sqr sqrt ->
  forall st0 g x hh rs, G hh -> G g -> G rs -> 0 <= x -> pzmul K a x hh <> None ->
  bls K K K a b a blen enc dec sign sqrt pr st0 g x hh rs = Ok (true, true, feqb (val rs g) (fpow (val hh g) x)).
Proof.
  intros blen enc dec sign is_sqr sqrt C S RT st0 g x hh rs Hh Hg Hs Hx N.
  apply (bls_ok K K K HK HK HK a b a b HE HE r RP G) with (is_sqr := is_sqr); auto.
  - intros Q []; auto.
  - intros n Q HQ. apply (t_mul K HK a b HE r RP). auto.
Qed.
Variable to_mpz : K -> Z.
Theorem e_joux : forall P x y z, G P -> 0 <= x -> 0 <= y -> 0 <= z ->
  joux K K a pr P x y z = let k := fpow (val P P) (x * y * z) in Ok (k, k, k).
Proof. intros. exact (joux_ok K K HK HK a b HE r R1 pr val (fun _ => True) PV' AM AR P x y z H H0 H1 H2 Logic.I Logic.I). Qed.
Theorem e_hess : forall P Qid P1 s k hm, G P -> G Qid -> G P1 -> 0 <= s -> 0 <= k ->
  exists v u, hess K K a r pr to_mpz P Qid P1 s k hm = Ok (v, u, v, true) /\ 0 <= v < r /\ G u.
Proof. intros. eexists _, _. apply (hess_ok K K HK HK a b HE r R1 pr val (fun _ => True) PV' A1 A2 AM AR to_mpz); auto. Qed.
Theorem e_paterson : forall P Qid s k h2 h3, G P -> G Qid -> 0 <= s -> 0 <= k -> 0 <= h2 -> (forall R, 0 <= h3 R) ->
  (k mod r <> 0 -> exists R S, paterson K K a r pr P Qid s k h2 h3 = Ok (R, S, true) /\ G R /\ G S) /\
  (k mod r = 0 -> paterson K K a r pr P Qid s k h2 h3 = UB).
Proof.
  intros. split; intro N; [apply (paterson_ok K K HK HK a b HE r R1 pr val (fun _ => True) PV' A2 AM AR); auto; apply prime_gcd | apply (paterson_zero K K HK a b HE r R1 pr)]; auto.
  apply gcd_zero; auto.
Qed.
Theorem e_yuanli : forall P Qa Qb s x y, G P -> G Qa -> G Qb -> 0 <= s -> 0 <= x -> 0 <= y ->
  exists k, yuanli K K a pr P Qa Qb s x y = Ok (k, k, true) /\
  k = fmul (fpow (val P (padd K a Qa Qb)) (x * y)) (fpow (val (padd K a (pzmul K a x P) Qa) (padd K a (pzmul K a y P) Qb)) s).
Proof. intros. apply (yuanli_ok K K HK HK a b HE r R1 pr val (fun _ => True) PV' A1 A2 AM AR); auto. Qed.
Theorem e_zhangkim : forall P Qid s rr x y hm, G P -> G Qid -> 0 <= s -> 0 <= rr -> 0 <= x -> 0 <= y ->
  exists S c, zhangkim K K a r pr to_mpz P Qid s rr x y hm = Ok (S, c, c, true) /\ 0 <= c < r /\ G S.
Proof. intros. eexists _, _. apply (zhangkim_ok K K HK HK a b HE r R1 pr val (fun _ => True) PV' A1 AM AR to_mpz); auto. Qed.
Theorem e_zss : forall P x hm, G P -> 0 <= x -> 0 <= hm ->
  ((hm + x) mod r <> 0 -> exists S, zss K K a r pr P x hm = Ok (S, true) /\ G S) /\ ((hm + x) mod r = 0 -> zss K K a r pr P x hm = UB).
Proof.
  intros. split; intro N; [apply (zss_ok K K HK HK a b HE r R1 pr val (fun _ => True) PV' A1 AM AR); auto; apply prime_gcd | apply (zss_zero K K HK a b HE r R1 pr)]; auto.
  apply gcd_zero; auto.
Qed.
End E.

(** twisted curves are elliptic *)
Section Tw.
Variable M : fld.
Hypothesis HM : fld_laws M.
Add Field MFtw : (fl_field M HM).
Variables a b v : M.
Lemma mul00 : fmul f0 f0 = (f0 : M). Proof. ring. Qed.
Lemma twist_ell : elliptic M a b -> v <> f0 -> elliptic M (fmul (fmul a v) v) (fmul (fmul (fmul b v) v) v).
Proof.
  intros (C & D) N. split; auto. intro E. apply D. assert (N2 : fmul (fmul v v) v <> f0) by (repeat apply (f_mul_nz M HM); auto).
  apply (f_cancel M HM (fmul (fmul (fmul v v) v) (fmul (fmul v v) v))); [apply (f_mul_nz M HM); auto | ].
  transitivity (f0 : M); [rewrite <- E; ring | ring].
Qed.
Lemma scale_ell : elliptic M f0 b -> v <> f0 -> elliptic M f0 (fmul v b).
Proof.
  intros (C & D) N. split; auto. intro E. apply D.
  apply (f_cancel M HM (fmul v v)); [apply (f_mul_nz M HM); auto | ]. transitivity (f0 : M); [ | ring].
  etransitivity; [ | exact E]. ring.
Qed.
End Tw.

Section D.
Variable K : fld.
Variables (n : nat) (m : list K) (c a b : K) (q r : Z).
Hypothesis TD : type_d K n m c a b q r.
Let T := proj1 TD.
Local Notation M := (Ext K n m).
Local Notation v := (const K n m c).
Local Notation L := (Quad M v).
Local Notation G := (torsion K a b r).
Local Notation val := (dg_value K n m c a q r).
Local Notation a2 := (fmul (fmul (const K n m a) v) v : M).
Local Notation b2 := (fmul (fmul (fmul (const K n m b) v) v) v : M).
Let HK := dg_field _ _ _ _ _ _ _ _ T.
Let HM : fld_laws M := Ext_laws K HK n m (dg_monic _ _ _ _ _ _ _ _ T) (n_pos n (dg_n _ _ _ _ _ _ _ _ T)) (dg_irred _ _ _ _ _ _ _ _ T).
Let Hh : embedding K M (const K n m) := cvec_embedding K HK n m (dg_monic _ _ _ _ _ _ _ _ T) (dg_n _ _ _ _ _ _ _ _ T).
Let Hv' := Hv K n m c a b q r T.
Let HL : fld_laws L := Quad_laws M HM v Hv'.
Let HE := dg_ell _ _ _ _ _ _ _ _ T.
Let RP : 0 < r. Proof. pose proof (dg_r2 _ _ _ _ _ _ _ _ T). lia. Qed.
Lemma d_ell : elliptic M a2 b2.
Proof.
  apply (twist_ell M HM).
  - apply (e_elliptic K M HK HM _ Hh a (proj1 HE)). exact HE.
  - apply (e_nz K M HK HM _ Hh). intros ->. apply (dg_c _ _ _ _ _ _ _ _ T). exists f0. apply (mul00 K HK).
Qed.
Theorem d_bls : forall blen enc dec sign is_sqr sqrt, is_code K blen enc dec -> is_sign K sign -> good_roots K is_sqr sqrt ->
  forall st0 g x hh rs, G hh -> on_twist K n m c a b g -> G rs -> 0 <= x -> pzmul K a x hh <> None ->
  bls K M L a b a2 blen enc dec sign sqrt (pairing_apply (d_pairing K n m v a r (2 * Z.of_nat n) q MillerAffine)) st0 g x hh rs =
    Ok (true, true, feqb (val rs g) (fpow (val hh g) x)).
Proof.
  intros blen enc dec sign is_sqr sqrt C S R st0 g x hh rs Hh' Hg Hs Hx N.
  apply (bls_ok K M L HK HM HL a b a2 b2 HE d_ell r RP (on_twist K n m c a b)) with (is_sqr := is_sqr); auto.
  - intros k Q O. apply (pzmul_on M HM a2 b2 (proj1 d_ell)). auto.
  - intros P Q HP HQ. apply (d_apply K n m c a b q r TD); auto.
  - intros i k P Q HP HQ. apply (dg_bilinear K n m c a b q r T); auto.
  - intros P Q HP HQ. apply (dg_value_r K n m c a b q r T); auto.
Qed.
End D.

Section G.
Variable K : fld.
Variables (m : list K) (c a b : K) (q r : Z).
Hypothesis TG : type_g K m c a b q r.
Let T := proj1 TG.
Local Notation n := 5%nat.
Local Notation M := (Ext K n m).
Local Notation v := (const K n m c).
Local Notation L := (Quad M v).
Local Notation G := (torsion K a b r).
Local Notation val := (dg_value K n m c a q r).
Local Notation a2 := (fmul (fmul (const K n m a) v) v : M).
Local Notation b2 := (fmul (fmul (fmul (const K n m b) v) v) v : M).
Let HK := dg_field _ _ _ _ _ _ _ _ T.
Let HM : fld_laws M := Ext_laws K HK n m (dg_monic _ _ _ _ _ _ _ _ T) (n_pos n (dg_n _ _ _ _ _ _ _ _ T)) (dg_irred _ _ _ _ _ _ _ _ T).
Let HL : fld_laws L := Quad_laws M HM v (Hv K n m c a b q r T).
Let HE := dg_ell _ _ _ _ _ _ _ _ T.
Let HE2 : elliptic M a2 b2.
Proof. apply (d_ell K n m c a b q r). split; [exact T | discriminate]. Qed.
Let RP : 0 < r. Proof. pose proof (dg_r2 _ _ _ _ _ _ _ _ T). lia. Qed.
Let EM : forall i k P Q, G P -> on_twist K n m c a b Q -> val (pzmul K a i P) (pzmul M a2 k Q) = fpow (val P Q) ((i * k) mod r).
Proof. intros i k P Q HP HQ. apply (dg_bilinear K n m c a b q r T); auto. Qed.
Let ER : forall P Q, G P -> on_twist K n m c a b Q -> fpow (val P Q) r = f1.
Proof. intros P Q HP HQ. apply (dg_value_r K n m c a b q r T); auto. Qed.
Theorem g_bls : forall blen enc dec sign is_sqr sqrt, is_code K blen enc dec -> is_sign K sign -> good_roots K is_sqr sqrt ->
  forall st0 g x hh rs, G hh -> on_twist K n m c a b g -> G rs -> 0 <= x -> fpow (val hh g) x <> f1 -> rs = None \/ val rs g <> f1 ->
  bls K M L a b a2 blen enc dec sign sqrt (pairing_apply (g_pairing K n m v a r q MillerAffine)) st0 g x hh rs =
    Ok (true, true, feqb (val rs g) (fpow (val hh g) x)).
Proof.
  intros blen enc dec sign is_sqr sqrt C S R st0 g x hh rs Hh' Hg Hs Hx N NR.
  assert (B1 : val (pzmul K a x hh) g = fpow (val hh g) x) by (apply (bm1 K M L HL a b a2 r RP (on_twist K n m c a b)); auto).
  assert (B0 : val (pzmul K a 0 hh) g = fpow (val hh g) 0) by (apply (bm1 K M L HL a b a2 r RP (on_twist K n m c a b)); auto; lia).
  assert (B2 : val hh (pzmul M a2 x g) = fpow (val hh g) x) by (apply (bm2 K M L HL a b a2 r RP (on_twist K n m c a b)); auto).
  assert (Gx : G (pzmul K a x hh)) by (apply (t_mul K HK a b HE r RP); auto).
  apply (bls_def K M L HK HM HL a b a2 b2 HE HE2 r RP (on_twist K n m c a b)) with (is_sqr := is_sqr) (def := fun P Q => P = None \/ Q = None \/ val P Q <> f1); auto.
  - intros k Q O. apply (pzmul_on M HM a2 b2 (proj1 HE2)). auto.
  - intros P Q HP HQ. apply (g_apply K m c a b q r TG); auto.
  - intro E. apply N. rewrite <- B1, E. exact B0.
  - right. right. rewrite B1. auto.
  - right. right. intro E. pose proof (bneg K M L HL a b a2 r RP (on_twist K n m c a b) val EM ER (pzmul K a x hh) g Gx Hg) as B.
    rewrite E in B. apply N. rewrite <- B1. rewrite <- B. pose proof (fl_field L HL) as FF. destruct FF. symmetry. apply F_R.(Ring_theory.Rmul_1_l).
  - right. right. rewrite B2. auto.
  - destruct NR; auto.
Qed.
End G.

Section F.
Variable K : fld.
Variables (beta : K) (alpha : F2 K beta) (b : K) (q r : Z).
Hypothesis T : type_f K beta alpha b q r.
Variable d : f_data K beta.
Hypothesis HD : f_init K beta alpha q r = Ok d.
Local Notation M := (F2 K beta).
Local Notation L := (F12 K beta alpha).
Local Notation G := (torsion K f0 b r).
Local Notation val := (f_value K beta alpha q r).
Local Notation b2 := (fmul (fopp alpha) (low K beta b) : M).
Let HK := tf_field _ _ _ _ _ _ T.
Let HM : fld_laws M := Quad_laws K HK beta (tf_beta _ _ _ _ _ _ T).
Let HL : fld_laws L := sx_laws M HM alpha (tf_irred _ _ _ _ _ _ T).
Let HE := tf_curve _ _ _ _ _ _ T.
Let RP : 0 < r. Proof. pose proof (tf_r2 _ _ _ _ _ _ T). lia. Qed.
Lemma f_ell : elliptic M f0 b2.
Proof.
  apply (scale_ell M HM).
  - pose proof (e_elliptic K M HK HM _ (low_embedding K HK beta) f0 (proj1 HE) b HE) as E. rewrite (em_0 _ _ _ (low_embedding K HK beta)) in E. exact E.
  - apply (SexticTower.N_nz M HM). exact (sx_ns M HM alpha (tf_irred _ _ _ _ _ _ T)).
Qed.
Theorem f_bls : forall blen enc dec sign is_sqr sqrt, is_code K blen enc dec -> is_sign K sign -> good_roots K is_sqr sqrt ->
  forall st0 g x hh rs, G hh -> on_f_twist K beta alpha b g -> G rs -> 0 <= x -> pzmul K f0 x hh <> None ->
  bls K M L f0 b f0 blen enc dec sign sqrt (pairing_apply (f_pairing_rec K beta alpha d r)) st0 g x hh rs =
    Ok (true, true, feqb (val rs g) (fpow (val hh g) x)).
Proof.
  intros blen enc dec sign is_sqr sqrt C S R st0 g x hh rs Hh' Hg Hs Hx N.
  apply (bls_ok K M L HK HM HL f0 b f0 b2 HE f_ell r RP (on_f_twist K beta alpha b)) with (is_sqr := is_sqr); auto.
  - intros k Q O. apply (pzmul_on M HM f0 b2 (proj1 f_ell)). auto.
  - intros P Q HP HQ. apply (m_apply K beta alpha b q r T d HD); auto.
  - intros i k P Q HP HQ. apply (f_bilinear K beta alpha b q r T); auto.
  - intros P Q HP HQ. apply (f_value_r K beta alpha b q r T); auto.
Qed.
End F.
