(** The Shipsey-Stange method of type G computes the same pairing as the other
    methods. *)
From Coq Require Import ZArith List Bool Lia Ring Field Znumtheory.
From Verif.Base Require Import Outcome Array Algebra Slots Gmp.
From Verif.Spec Require Import Curve Tate Quadratic Twist FiniteField Polynomials Extension PairingValue PairingValueD.
From Verif.Model Require Import GenericPow Curve Lucas Pairing PairingA Miller PairingD EllNet.
From Verif.Proofs Require Import PowFacts FieldFacts QuadFacts CurveGroup CurveFacts TateFacts Bilinear BilinearZ Embed Frobenius Twisted
  MillerFacts TwistedValue ExtFacts PolymodFacts ExtFrobenius DFinal PairingDFacts PairingDApi NetFacts NetLoop NetTwist.
From Verif.Model Require Import Pairing.

(** The values the code starts from, in a quadratic extension. *)
Section Start.
Variables (M : fld) (v : M).
Hypothesis HM : fld_laws M.
Hypothesis Hv : ~ is_square v.
Local Notation L := (Quad M v).
Let HL : fld_laws L := Quad_laws M HM v Hv.
Add Field LFngs : (fl_field L HL).
Variables ux uy xq yq : L.
Local Notation "0" := f0. Local Notation "1" := f1.
Local Notation "x + y" := (fadd x y). Local Notation "x - y" := (fsub x y). Local Notation "x * y" := (fmul x y). Local Notation "- x" := (fopp x).
Local Notation "x / y" := (fdiv x y).
Lemma dd_form : (xq + (ux + ux)) * ((- xq + ux) * (- xq + ux)) - (uy + yq) * (uy + yq) = dd L ux uy xq yq.
Proof. unfold dd, f2. ring. Qed.
Lemma d2_form : forall A, (ux - xq) <> 0 -> A = finv (- xq + ux) ->
  (xq + (ux + ux)) - ((- uy + yq) * A) * ((- uy + yq) * A) = f2 L * ux + xq - ((uy - yq) / (ux - xq)) * ((uy - yq) / (ux - xq)).
Proof. intros A N ->. unfold f2. field. repeat split; first [exact N | intro E; apply N; rewrite <- E; ring]. Qed.
Lemma mulA_form : forall A u, (ux - xq) <> 0 -> A = finv (- xq + ux) -> (u * A) * (ux - xq) = u.
Proof. intros A u N ->. field. intro E. apply N. rewrite <- E. ring. Qed.
Lemma A_form : (ux - xq) <> 0 -> - xq + ux <> 0.
Proof. intros N E. apply N. rewrite <- E. ring. Qed.
Lemma inv_form : forall e : L, e <> 0 -> finv e * e = 1. Proof. intros e N. field. auto. Qed.
End Start.

Section Main.
Variable K : fld.
Variables (n : nat) (m : list K).
Variables c a b : K.
Variables q r : Z.
Hypothesis T : type_dg K n m c a b q r.
Hypothesis R5 : (5 <= r)%Z.
Local Notation M := (Ext K n m).
Local Notation h := (const K n m).
Local Notation v := (const K n m c).
Local Notation L := (Quad M v).
Local Notation NZ := (Z.of_nat n).
Local Notation e := ((q ^ (2 * NZ) - 1) / r)%Z.
Local Notation val := (dg_value K n m c a q r).
Local Notation G1 := (torsion K a b r).
Local Notation onM := (on_twist K n m c a b).
Let HK := dg_field _ _ _ _ _ _ _ _ T.
Let Hn := dg_n _ _ _ _ _ _ _ _ T.
Let Hm := dg_monic _ _ _ _ _ _ _ _ T.
Let Hi := dg_irred _ _ _ _ _ _ _ _ T.
Let HE := dg_ell _ _ _ _ _ _ _ _ T.
Let Pr := dg_r _ _ _ _ _ _ _ _ T.
Let R3 := dg_r2 _ _ _ _ _ _ _ _ T.
Let HM : fld_laws M := Ext_laws K HK n m Hm (n_pos n Hn) Hi.
Let Hh : embedding K M h := cvec_embedding K HK n m Hm Hn.
Let Hv' := Hv K n m c a b q r T.
Let HL : fld_laws L := Quad_laws M HM v Hv'.
Let RO' := RO K n m c a b q r T.
Add Field KFng : (fl_field K HK).
Add Field MFng : (fl_field M HM).
Local Notation up := (Twisted.up K M h v).
Let UE : embedding K L up := up_embedding K M HM h Hh v.
Ltac rg := match goal with |- ?a = ?b => change (@eq (fcar M) a b) end; ring.
Lemma scal_form : forall k (u : L), g_scal K n m v k u = fmul (up k) u.
Proof.
  intros k [u1 u2]. unfold g_scal, Twisted.up, low. cbn [fst snd fmul Quad]. unfold qmul. cbn [fst snd].
  assert (CM : forall w : M, const_mul K n m k w = fmul (h k) w).
  { intros w. change (const K n m) with (cvec K n m). rewrite (cvec_mul K HK n m Hm (n_pos n Hn)). unfold const_mul. apply vec_ext. intros i Hi'. rewrite !vcoef_mk.
    destruct (Nat.ltb_spec i n); [ring | lia]. }
  rewrite !CM. apply (f_equal2 (@pair M M)); rg.
Qed.
Lemma add0_form : forall (w : M) k, add_at0 K n m w k = fadd w (h k).
Proof.
  intros w k. unfold add_at0. apply vec_ext. intros i Hi'. change (const K n m) with (cvec K n m). rewrite vcoef_mk, (vc_add K HK n m), (vc_cv K n m Hn).
  destruct (Nat.ltb_spec i n); [ | lia]. destruct (Nat.eqb i 0); ring.
Qed.
Variable tp : L -> res L.
Variable ok : L -> Prop.
Hypothesis HT : forall x : L, x <> f0 -> ok (fpow x e) -> tp x = Ok (fpow x e).

Section PQ.
Variables x y : K.
Variable Q : M * M.
Local Notation P := (Some (x, y)).
Hypothesis GP : G1 P.
Hypothesis OQ : onM (Some Q).
Local Notation X := (fst (unt K n m c Q)).
Local Notation Y := (snd (unt K n m c Q)).
Local Notation xq := ((X, f0) : L).
Local Notation yq := ((f0, Y) : L).
Lemma GRg : G2 K M h v a b (Some (xq, yq)).
Proof. destruct Q as [X0 Y0]. exact (twist_G2 K M HM h v Hv' a b (Some (X0, Y0)) OQ). Qed.
Local Notation N := (Z.to_nat r).
Lemma rNg : Z.of_nat N = r. Proof. lia. Qed.
Lemma EXg : exact_order K a r P. Proof. apply (prime_exact K HK a b HE r R3 P); auto. discriminate. Qed.
Let OP : on_curve K a b P := proj1 GP.
Let R5' := R5n r R5.
Let ORD := ord_nat K a r R5 x y EXg.
Let TOR := tor_nat K a r R5 x y EXg.
Let NR := never_R K M HK HM h Hh v Hv' a b HE r R5 RO' x y OP EXg X Y GRg.
Let OR := on_R K M h v a b X Y GRg.
Let OPL := OP' K L up UE a b x y OP.
Let ORDL := ORD' K L HK HL up UE a b HE x y N ORD.
Let TORL := TOR' K L HK HL up UE a b HE x y N TOR.
Let EL := Twisted.HEL K M HK HM h Hh v Hv' a b HE.
Lemma XNg : fsub (up x) xq <> f0.
Proof. exact (xq_nz L HL (up a) (up b) EL _ _ OPL N R5' ORDL TORL xq yq OR NR). Qed.
Lemma DNg : dd L (up x) (up y) xq yq <> f0.
Proof. exact (dd_nz L HL (up a) (up b) EL _ _ OPL N R5' ORDL TORL xq yq OR NR). Qed.
Lemma yg : double K y <> f0.
Proof. intros E. apply (yy_nz K HK a b HE x y N R5' ORD). rewrite <- E. unfold double, f2. ring. Qed.
Lemma hdouble : h (double K x) = fadd (h x) (h x). Proof. unfold double. apply (e_add K M h Hh). Qed.

Lemma f0_form : ((add_at0 K n m (fst xq) (double K x), snd xq) : L) = fadd xq (fadd (up x) (up x)).
Proof. unfold Twisted.up, low. cbn [fst snd fadd Quad]. apply (f_equal2 (@pair M M)); [rewrite add0_form, hdouble; reflexivity | rg]. Qed.
Lemma fA_form : ((add_at0 K n m (fst (fopp xq)) x, snd (fopp xq)) : L) = fadd (fopp xq) (up x).
Proof. unfold Twisted.up, low. cbn [fst snd fadd fopp Quad]. apply (f_equal2 (@pair M M)); [apply add0_form | rg]. Qed.
Lemma fy_form : forall z : K, ((mkvec n (fun i => if Nat.eqb i 0 then z else f0), Y) : L) = fadd (up z) yq.
Proof. intros z. unfold Twisted.up, low. cbn [fst snd fadd Quad]. apply (f_equal2 (@pair M M)); [change (mkvec n (fun i => if Nat.eqb i 0 then z else f0)) with (h z); rg | rg]. Qed.
Theorem g_ellnet_ok : ok (val P (Some Q)) -> g_pairing_ellnet K n m v a b r tp P (Some Q) = Ok (val P (Some Q)).
Proof.
  intros OV. unfold g_pairing_ellnet. cbn [coords bind]. rewrite (untwist_ok K n m c a b q r T). cbn [bind].
  rewrite (surjective_pairing (unt K n m c Q)). cbv zeta. change (Fqk K n m v) with L. change (Fqd K n m) with M.
  pose proof XNg as XN. pose proof DNg as DN.
  match goal with |- context [finvert (fsub (fmul ?d (fmul ?A _)) (fmul ?D _))] =>
    assert (F0 : @eq L d (fadd xq (fadd (up x) (up x)))) by exact f0_form;
    assert (FA : @eq L A (fadd (fopp xq) (up x))) by exact fA_form;
    assert (FD : @eq L D (fadd (up y) yq)) by exact (fy_form y) end.
  match goal with |- context [fmul (fmul ?E _) (fmul ?E _)] => assert (FE : @eq L E (fadd (fopp (up y)) yq)) by
    (etransitivity; [exact (fy_form (fopp y)) | rewrite (e_opp K L HK HL up UE); reflexivity]) end.
  rewrite F0, FA, FD, FE. rewrite (dd_form M v HM Hv' (up x) (up y) xq yq). rewrite (finvert_ok L HL) by exact DN. cbn [bind].
  rewrite (finvert_ok L HL) by (apply (A_form M v HM Hv'); exact XN). cbn [bind]. rewrite (finvert_ok K HK) by exact yg. cbn [bind].
  assert (XA : exists A, A = finv (fadd (fopp xq) (up x))) by eauto. destruct XA as (A & EA). rewrite <- EA.
  rewrite (d2_form M v HM Hv' (up x) (up y) xq yq A XN EA).
  assert (HC : fmul (finv (double K y)) (fmul (f2 K) y) = f1).
  { replace (fmul (f2 K) y) with (double K y) by (unfold double, f2; ring). pose proof yg. field. auto. }
  pose proof (net_loop_last K L HK HL up UE a b HE x y OP N R5' ORD TOR (finv (double K y)) HC xq yq OR NR (g_scal K n m v) scal_form
    (fun u => fmul u A) (fun u => mulA_form M v HM Hv' (up x) xq A u XN EA) (finv (dd L (up x) (up y) xq yq)) (inv_form M v HM Hv' _ DN) (first_c K a b x y) _
    (first_c_inv K HK a b HE x y OP N R5' ORD) eq_refl) as H.
  rewrite rNg in H.
  match type of H with (let '(_, _) := ?z in _) => destruct z as [c' d'] end. destruct H as (_ & H).
  apply (fin_ok K n m c a b q r T tp ok HT); [ | | exact OV].
  - apply (gd_in K n m c a b q r T); auto. discriminate.
  - rewrite H. exact (net_sim K M HK HM h Hh v Hv' a b HE r R5 RO' x y OP EXg X Y GRg).
Qed.
End PQ.
End Main.
