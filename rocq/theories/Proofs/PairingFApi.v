(** Type F: initialisation, the pairing interface, order and bilinearity. *)
From Coq Require Import ZArith List Bool Lia Arith Ring Field Znumtheory.
From Verif.Base Require Import Outcome Array Algebra Slots Gmp.
From Verif.Spec Require Import FiniteField Quadratic Polynomials Extension Curve Tate Twist PairingValue PairingValueD PairingValueF.
From Verif.Model Require Import GenericPow Curve Pairing PairingA Miller PairingF GT.
From Verif.Proofs Require Import PowFacts FieldFacts SlotFacts QuadFacts ExtFacts PolymodFacts CurveGroup CurveFacts TateFacts Bilinear BilinearZ
  Embed Frobenius Twisted Conj ExtFrobenius SexticFacts SexticExt SexticTower PairingAApi TwistedValue PairingIface.
From Verif.Model Require Import Pairing.
Import ListNotations.

(* the loop, written with the model's own functions *)
Section B.
Variable K : fld.
Variable beta : K.
Variable alpha : F2 K beta.
Variable N : F2 K beta.
Lemma f_bits_eq : forall r P Qx Qy m v Z,
  f_bits K beta alpha N r m P Qx Qy v Z = gbits K (F12 K beta alpha) f0 r P (f_tangent K) (f_line K) (fun v abc => f_miller_evalfn K beta alpha N v abc Qx Qy) m v Z.
Proof.
  intros r P Qx Qy. induction m; intros v Z; [reflexivity | ]. cbn [f_bits gbits].
  destruct (coords K Z) as [[Zx Zy] | | | ]; cbn [bind]; auto. destruct (double_value K f0 Z) as [Z1 | | | ]; cbn [bind]; auto.
  destruct (mpz_tstbit r (Z.of_nat (S m))); [ | cbn [bind]; apply IHm].
  destruct (coords K Z1) as [[Zx1 Zy1] | | | ]; cbn [bind]; auto. destruct (coords K P) as [[Px Py] | | | ]; cbn [bind]; auto.
  destruct (mul_value K f0 Z1 P) as [Z2 | | | ]; cbn [bind]; auto.
Qed.
End B.
Lemma mul1r : forall (L : fld), fld_laws L -> forall x : L, fmul x f1 = x.
Proof. intros L HL x. pose proof (F_R (fl_field L HL)) as RT. rewrite (Ring_theory.Rmul_comm RT). apply (Ring_theory.Rmul_1_l RT). Qed.
Lemma gbits_ext : forall (K L : fld) a r P t l (ev ev' : L -> coeffs K -> L), (forall v abc, ev v abc = ev' v abc) ->
  forall m v Z, gbits K L a r P t l ev m v Z = gbits K L a r P t l ev' m v Z.
Proof.
  intros K L a r P t l ev ev' H. induction m; intros v Z; cbn [gbits]; destruct (coords K Z) as [[Zx Zy] | | | ]; cbn [bind]; auto.
  - rewrite H. reflexivity.
  - destruct (double_value K a Z) as [Z1 | | | ]; cbn [bind]; auto. rewrite H.
    destruct (mpz_tstbit r (Z.of_nat (S m))); [ | cbn [bind]; apply IHm].
    destruct (coords K Z1) as [[Zx1 Zy1] | | | ]; cbn [bind]; auto. destruct (coords K P) as [[Px Py] | | | ]; cbn [bind]; auto. rewrite H.
    destruct (mul_value K a Z1 P) as [Z2 | | | ]; cbn [bind]; auto.
Qed.
Lemma mkvec_ext6 : forall (M : fld) (f g : nat -> M), f 0%nat = g 0%nat -> f 1%nat = g 1%nat -> f 2%nat = g 2%nat -> f 3%nat = g 3%nat -> f 4%nat = g 4%nat -> f 5%nat = g 5%nat -> mkvec 6 f = mkvec 6 g.
Proof.
  intros. apply vec_ext. intros i Hi. rewrite !vcoef_mk. destruct (Nat.ltb_spec i 6); [ | lia].
  destruct i as [ | [ | [ | [ | [ | [ | i]]]]]]; auto. lia.
Qed.

Section F.
Variable K : fld.
Variable beta : K.
Variable alpha : F2 K beta.
Variable b : K.
Variables q r : Z.
Hypothesis T : type_f K beta alpha b q r.
Let HK := tf_field _ _ _ _ _ _ T.
Let HE := tf_curve _ _ _ _ _ _ T.
Let Hb := tf_beta _ _ _ _ _ _ T.
Let Hi := tf_irred _ _ _ _ _ _ T.
Let Pr := tf_r _ _ _ _ _ _ T.
Let R2 := tf_r2 _ _ _ _ _ _ T.
Local Notation M := (F2 K beta).
Local Notation L := (F12 K beta alpha).
Let HM : fld_laws M := Quad_laws K HK beta Hb.
Let HL : fld_laws L := sx_laws M HM alpha Hi.
Add Field KFfp : (fl_field K HK).
Local Notation lo := (low K beta).
Let Hlo : embedding K M lo := low_embedding K HK beta.
Local Notation cv := (cvec M 6 (sextic K beta alpha)).
Let Hcv : embedding M L cv := sx_cv M HM alpha.
Local Notation w := (sx_w M alpha : L).
Local Notation N := (fopp alpha : M).
Let Hw := sx_w6 M HM alpha Hi.
Let NS : ~ is_square N := sx_ns M HM alpha Hi.
Let mk_eq := sx_mk M HM alpha Hi.
Let mk_co := sx_mk_co M alpha.
Let co_w := sx_co_w M HM alpha.
Definition Q := Z.to_nat q.
Lemma Qq : Z.of_nat Q = q. Proof. pose proof (tf_q3 _ _ _ _ _ _ T). apply Z2Nat.id. lia. Qed.
Lemma PQ : prime (Z.of_nat Q). Proof. rewrite Qq. apply T. Qed.
Lemma Q3 : (3 < Q)%nat. Proof. pose proof (tf_q3 _ _ _ _ _ _ T). unfold Q. lia. Qed.
Lemma OM : has_order M (Z.of_nat (Q * Q)).
Proof. rewrite Nat2Z.inj_mul, Qq. apply (Quad_order K beta q). apply T. Qed.
Lemma OL : has_order L (Z.of_nat (Q ^ 12)).
Proof.
  replace (Z.of_nat (Q ^ 12)) with (Z.of_nat (Q * Q) ^ Z.of_nat 6)%Z; [apply Ext_order; apply OM | ].
  rewrite <- Nat2Z.inj_pow. f_equal. replace (Q * Q)%nat with (Q ^ 2)%nat by (cbn [Nat.pow]; lia). rewrite <- Nat.pow_mul_r. reflexivity.
Qed.
Lemma RO : Z.odd r = true.
Proof.
  destruct (Z.odd r) eqn:E; auto. exfalso. rewrite <- Z.negb_even in E. apply negb_false_iff in E. apply Z.even_spec in E. destruct E as [c E].
  destruct (prime_divisors _ Pr 2) as [D | [D | [D | D]]]; try lia. exists c. lia.
Qed.
Lemma RD : (r | Z.of_nat Q ^ 4 - Z.of_nat Q ^ 2 + 1)%Z. Proof. rewrite Qq. apply T. Qed.
Local Notation val := (f_value K beta alpha q r).
Local Notation G := (torsion K f0 b r).
Local Notation on2 := (on_f_twist K beta alpha b).
Local Notation gval := (SexticTower.val K M L lo cv w Q r).
Lemma val_eq : forall P R, val P R = gval P R.
Proof. intros. unfold f_value, SexticTower.val, SexticTower.e12. rewrite Qq. reflexivity. Qed.
Let gp := gpairing_ok K M L HK HM HL lo Hlo cv Hcv w N Hw NS (mkvec 6) vcoef mk_eq mk_co Q PQ Q3 OM OL b HE r R2 RO RD.

(** initialisation *)
Lemma qpow1 : forall x : L, generic_pow_mpz (mul_monoid L) x q = Ok (pw L x Q).
Proof. intros. pose proof (tf_q3 _ _ _ _ _ _ T). rewrite (generic_pow_spec _ (mul_monoid_laws L HL)) by lia. reflexivity. Qed.
Lemma qpowers : forall k x, f_qpowers K beta alpha k q x = Ok (pw L x (Q ^ k)).
Proof.
  induction k; intros x; cbn [f_qpowers].
  - f_equal. symmetry. apply (mul1r L HL).
  - match goal with |- context [bind ?y _] => replace y with (Ok (pw L x Q)) by (symmetry; apply qpow1) end.
    cbn [bind]. rewrite IHk. f_equal. unfold pw. rewrite <- (npow_mul (mul_monoid L) (mul_monoid_laws L HL)). reflexivity.
Qed.
Local Notation rho := (SexticTower.rho M N Q).
Local Notation FF := (SexticTower.F L Q).
Definition dF : f_data K beta :=
  {| negalpha := N; negalphainv := finv N; tateexp := tq Q r; xpowq2 := pw M rho 1; xpowq6 := pw M rho 3; xpowq8 := pw M rho 4 |}.
Lemma NN : N <> f0. Proof. apply (SexticTower.N_nz M HM N NS). Qed.
Lemma tq_code : (((q * q - 1) * q * q + 1) / r = tq Q r)%Z.
Proof. unfold tq. rewrite Qq. f_equal. ring. Qed.
Theorem f_init_ok : f_init K beta alpha q r = Ok dF.
Proof.
  unfold f_init. match goal with |- context [finvert ?y] => replace (finvert y) with (Ok (finv N : M)) by (symmetry; apply (finvert_ok M HM); apply NN) end. cbn [bind].
  cbv zeta. match goal with |- context [bind (f_qpowers _ _ _ 2 q ?y) _] => change y with w end.
  rewrite qpowers. cbn [bind]. rewrite qpowers. cbn [bind]. rewrite qpowers. cbn [bind].
  assert (PP : forall x i j, pw L (pw L x (Q ^ i)) (Q ^ j) = pw L x (Q ^ (i + j))).
  { intros x i j. unfold pw. rewrite <- (npow_mul (mul_monoid L) (mul_monoid_laws L HL)). f_equal. symmetry. apply Nat.pow_add_r. }
  rewrite !PP. f_equal. unfold dF.
  assert (C := co_F M L HM HL cv Hcv w N Hw vcoef co_w Q PQ Q3 OM).
  assert (C1 := C 1%nat). assert (C3 := C 3%nat). assert (C4 := C 4%nat). unfold SexticTower.F in C1, C3, C4.
  change (2 * 1)%nat with 2%nat in C1. change (2 * 3)%nat with (2 + 4)%nat in C3. change (2 * 4)%nat with (2 + 4 + 2)%nat in C4.
  rewrite tq_code. rewrite <- C1, <- C3, <- C4. reflexivity.
Qed.
(** sparse multiplication, Frobenius and the final exponentiation *)
Lemma scale2_lo : forall (e : M) (c : K), scale2 K beta e c = fmul e (lo c).
Proof. intros [x y] c. unfold scale2, low. cbn. unfold qmul. cbn [fst snd]. f_equal; ring. Qed.
Lemma evalfn_gev : forall v abc (Qx Qy : M), f_miller_evalfn K beta alpha N v abc Qx Qy = gev K M L lo N (mkvec 6) vcoef v abc Qx Qy.
Proof.
  intros v [[ca cb] cc] Qx Qy. unfold f_miller_evalfn, gev. apply mkvec_ext6; unfold do_term; cbn [Nat.eqb]; cbv zeta; rewrite !scale2_lo; reflexivity.
Qed.
Theorem f_evalfn_ok : forall v ca cb cc (Qx Qy : M),
  f_miller_evalfn K beta alpha N v (ca, cb, cc) Qx Qy =
  fmul v (fadd (fadd (fmul (from1 K beta alpha ca) (fmul (from2 K beta alpha Qx) (fmul (fmul w w) (fmul w w))))
    (fmul (from1 K beta alpha cb) (fmul (from2 K beta alpha Qy) (fmul (fmul w w) w)))) (from1 K beta alpha cc)).
Proof.
  intros. rewrite evalfn_gev. exact (sparse_ok M L HL cv Hcv w N Hw (mkvec 6) vcoef mk_eq mk_co v (lo ca) (lo cb) (lo cc) Qx Qy).
Qed.
Lemma qpower_F : forall k x, f_qpower K beta alpha x (pw M rho k) = FF k x.
Proof.
  intros k x. rewrite <- (F_qpower M L HM HL cv Hcv w N Hw (mkvec 6) vcoef mk_eq mk_co Q PQ Q3 OM OL k x). apply mkvec_ext6; reflexivity.
Qed.
Local Notation e := ((q ^ 12 - 1) / r)%Z.
Lemma e_e12 : e = e12 Q r. Proof. unfold e12. rewrite Qq. reflexivity. Qed.
Theorem f_tateexp_ok : forall x : L, x <> f0 -> f_tateexp K beta alpha dF x = Ok (fpow x e).
Proof.
  intros x X. destruct (tateexp_ok L HL Q Q3 r R2 RD x X) as (X1 & E). unfold f_tateexp. cbv zeta. cbn [xpowq2 xpowq6 xpowq8 tateexp dF].
  rewrite !qpower_F. match goal with |- context [finvert ?y] => replace (finvert y) with (Ok (finv (fmul (FF 1 x) x) : L)) by (symmetry; apply (finvert_ok L HL); exact X1) end.
  cbn [bind]. rewrite e_e12, <- E.
  pose proof (tq_pos Q Q3 r R2 RD). rewrite (generic_pow_spec _ (mul_monoid_laws L HL)) by lia. reflexivity.
Qed.
Theorem f_map : forall P R, G P -> P <> None -> on2 R -> R <> None -> f_pairing K beta alpha dF r P R = Ok (val P R).
Proof.
  intros P [[Qx Qy] | ] HP NP HR NR; [ | congruence]. unfold f_pairing. cbn [coords bind]. cbv zeta. cbn [negalpha negalphainv dF].
  assert (RG : regular K f0 r P).
  { apply (exact_regular K f0 r R2 RO). apply (prime_exact K HK f0 b HE r R2); auto. }
  destruct (gp P Qx Qy HP RG HR) as (f & EF & NF & V).
  unfold f_miller. rewrite f_bits_eq.
  assert (EE : forall m v Z, gbits K L f0 r P (f_tangent K) (f_line K) (fun v abc => f_miller_evalfn K beta alpha N v abc (fmul Qx (finv N)) (fmul Qy (finv N))) m v Z =
    gbits K L f0 r P (f_tangent K) (f_line K) (fun v abc => gev K M L lo N (mkvec 6) vcoef v abc (fmul Qx (finv N)) (fmul Qy (finv N))) m v Z).
  { apply gbits_ext. intros. apply evalfn_gev. }
  match goal with |- bind ?y _ = _ => replace y with (Ok f) by (symmetry; etransitivity; [apply EE | exact EF]) end. cbn [bind].
  rewrite f_tateexp_ok by exact NF. f_equal. rewrite e_e12, val_eq. exact V.
Qed.
Lemma v0l : forall R, val None R = f1. Proof. intros. rewrite val_eq. apply (val_0l K M L HL). Qed.
Lemma v0r : forall P, val P None = f1. Proof. intros. rewrite val_eq. apply (val_0r K M L HL). Qed.
Local Notation PF := (f_pairing_rec K beta alpha dF r).
Lemma vi1 : forall (P : g1 PF) (R : g2 PF), is0_1 PF P = true -> val P R = f1.
Proof. intros [p | ] R H; [discriminate | apply v0l]. Qed.
Lemma vi2 : forall (P : g1 PF) (R : g2 PF), is0_2 PF R = true -> val P R = f1.
Proof. intros P [p | ] H; [discriminate | apply v0r]. Qed.
Lemma ninf : forall (X : fld) (P : point X), is_inf X P = false -> P <> None. Proof. intros X [p | ] H; congruence || discriminate. Qed.
Lemma infn : forall (X : fld) (P : point X), P <> None -> is_inf X P = false. Proof. intros X [p | ] H; congruence || reflexivity. Qed.
Theorem f_apply : forall P R, G P -> on2 R -> pairing_apply PF P R = Ok (val P R).
Proof. intros P R HP HR. apply (iface_apply PF val vi1 vi2). intros I1 I2. apply f_map; auto; apply ninf; auto. Qed.
Theorem f_pp : forall P, G P -> exists pp, pairing_pp_init PF P = Ok pp /\ forall R, on2 R -> pairing_pp_apply PF R pp = Ok (val P R).
Proof.
  intros P HP. apply (iface_pp PF val vi1 vi2 P on2). intros I1. exists P. split; [reflexivity | ]. intros R HR I2. apply f_map; auto; apply ninf; auto.
Qed.
Theorem f_prod : forall in1 in2, length in1 = length in2 -> in1 <> [] -> Forall G in1 -> Forall on2 in2 ->
  Forall (fun P => P <> None) in1 -> Forall (fun R => R <> None) in2 ->
  element_prod_pairing PF in1 in2 (length in1) = Ok (gprod (map (fun pq => val (fst pq) (snd pq)) (combine in1 in2))).
Proof.
  intros in1 in2 ELn NE F1 F2 N1 N2. etransitivity; [apply (iface_prod PF in1 in2); auto | ].
  - eapply Forall_impl; [ | exact N1]. intros P H. apply infn; auto.
  - eapply Forall_impl; [ | exact N2]. intros P H. apply infn; auto.
  - apply (generic_prod_ok HL (f_pairing K beta alpha dF r) val); auto.
    apply Forall_forall. intros [P R] I. cbn [fst snd]. assert (I1 := in_combine_l _ _ _ _ I). assert (I2 := in_combine_r _ _ _ _ I).
    rewrite Forall_forall in *. apply f_map; auto.
Qed.
Theorem f_prod_1 : forall in1 in2 i P R, length in1 = length in2 -> nth_error in1 i = Some P -> nth_error in2 i = Some R -> P = None \/ R = None ->
  element_prod_pairing PF in1 in2 (length in1) = Ok f1.
Proof.
  intros in1 in2 i P R ELn I1 I2 H. apply (iface_prod_1 PF in1 in2 i P R); auto. destruct H as [-> | ->]; [left | right]; reflexivity.
Qed.
Theorem f_coddh : forall P B R X, G P -> G B -> on2 R -> on2 X -> exists z,
  generic_is_almost_coddh PF P B R X = Ok z /\ (z = true <-> val P X = val B R \/ fmul (val P X) (val B R) = f1).
Proof. intros. apply (iface_coddh PF HL val); apply f_apply; auto. Qed.
Theorem f_value_r : forall P R, G P -> on2 R -> fpow (val P R) r = f1.
Proof. intros. rewrite val_eq. apply (val_r K M L HK HM HL lo Hlo cv Hcv w N Hw NS Q PQ Q3 OM OL b HE r R2 RO RD); auto. Qed.
Theorem f_bilinear : forall i j P R, G P -> on2 R -> val (pzmul K f0 i P) (pzmul M f0 j R) = fpow (val P R) ((i * j) mod r).
Proof. intros. rewrite !val_eq. apply (val_bilinear K M L HK HM HL lo Hlo cv Hcv w N Hw NS Q PQ Q3 OM OL b HE r R2 RO RD); auto. Qed.
Theorem f_add1 : forall P P' R, G P -> G P' -> on2 R -> val (padd K f0 P P') R = fmul (val P R) (val P' R).
Proof. intros. rewrite !val_eq. apply (val_add1 K M L HK HM HL lo Hlo cv Hcv w N Hw NS Q PQ Q3 OM OL b HE r R2 RO RD); auto. Qed.
Theorem f_add2 : forall P R R', G P -> on2 R -> on2 R' -> val P (padd M f0 R R') = fmul (val P R) (val P R').
Proof. intros. rewrite !val_eq. apply (val_add2 K M L HK HM HL lo Hlo cv Hcv w N Hw NS Q PQ Q3 OM OL b HE r R2 RO RD); auto. Qed.
Theorem f_additive : forall P P' R R', G P -> G P' -> on2 R -> on2 R' ->
  val (padd K f0 P P') R = fmul (val P R) (val P' R) /\ val P (padd M f0 R R') = fmul (val P R) (val P R').
Proof. intros. split; [apply f_add1 | apply f_add2]; auto. Qed.
Theorem f_gt : forall x : L, x <> f0 -> exists u, f_tateexp K beta alpha dF x = Ok u /\ fpow u r = f1.
Proof.
  intros x X. exists (fpow x e). split; [apply f_tateexp_ok; auto | ]. rewrite e_e12. pose proof (e12_nonneg Q Q3 r R2 RD) as E0. rewrite <- (fpowM L HL) by lia. rewrite Z.mul_comm.
  apply (fermat12 L HL Q Q3 OL r R2 RD). auto.
Qed.
End F.
