(** Type F pairings for whatever f_init_pairing stores; a small instance, q = 7, r = 13. *)
From Coq Require Import ZArith Znumtheory List Bool Lia.
From Verif.Base Require Import Outcome Algebra Gmp.
From Verif.Spec Require Import FiniteField Quadratic Polynomials Extension Curve PairingValue PairingValueD PairingValueF.
From Verif.Model Require Import Pairing PairingA PairingF.
From Verif.Proofs Require Import FieldFacts QuadFacts ZpField RootWitness MntMain CurveGroup CurveFacts TateFacts Embed Twisted Bilinear BilinearZ SexticExt PolySextic PairingDWitness PairingFApi.
From Verif.Model Require Import Pairing.
Import ListNotations.
Open Scope Z_scope.

Section M.
Variable K : fld.
Variable beta : K.
Variable alpha : F2 K beta.
Variables (b : K) (q r : Z).
Hypothesis T : type_f K beta alpha b q r.
Local Notation val := (f_value K beta alpha q r).
Local Notation G := (torsion K f0 b r).
Local Notation on2 := (on_f_twist K beta alpha b).
Local Notation F d := (f_pairing_rec K beta alpha d r).
Lemma init_ex : exists d, f_init K beta alpha q r = Ok d. Proof. eexists. apply (f_init_ok K beta alpha b q r T). Qed.
Variable d : f_data K beta.
Hypothesis D : f_init K beta alpha q r = Ok d.
Lemma dd : d = dF K beta alpha q r.
Proof. pose proof (f_init_ok K beta alpha b q r T) as E. rewrite D in E. injection E. auto. Qed.
Lemma m_apply : forall P Q, G P -> on2 Q -> pairing_apply (F d) P Q = Ok (val P Q).
Proof. rewrite dd. exact (f_apply K beta alpha b q r T). Qed.
Lemma m_pp : forall P, G P -> exists pp, pairing_pp_init (F d) P = Ok pp /\ forall Q, on2 Q -> pairing_pp_apply (F d) Q pp = Ok (val P Q).
Proof. rewrite dd. exact (f_pp K beta alpha b q r T). Qed.
Lemma m_prod : forall in1 in2, length in1 = length in2 -> in1 <> [] -> Forall G in1 -> Forall on2 in2 ->
  Forall (fun P => P <> None) in1 -> Forall (fun Q => Q <> None) in2 ->
  element_prod_pairing (F d) in1 in2 (length in1) = Ok (gprod (map (fun pq => val (fst pq) (snd pq)) (combine in1 in2))).
Proof. rewrite dd. exact (f_prod K beta alpha b q r T). Qed.
Lemma m_tateexp : forall x : F12 K beta alpha, x <> f0 -> f_tateexp K beta alpha d x = Ok (fpow x ((q ^ 12 - 1) / r)).
Proof. rewrite dd. exact (f_tateexp_ok K beta alpha b q r T). Qed.
Lemma m_gt : forall x : F12 K beta alpha, x <> f0 -> exists u, f_tateexp K beta alpha d x = Ok u /\ fpow u r = f1.
Proof. rewrite dd. exact (f_gt K beta alpha b q r T). Qed.
Lemma m_evalfn : forall v ca cb cc (Qx Qy : F2 K beta),
  f_miller_evalfn K beta alpha (negalpha K beta d) v (ca, cb, cc) Qx Qy =
  let w := root K beta alpha in
  fmul v (fadd (fadd (fmul (from1 K beta alpha ca) (fmul (from2 K beta alpha Qx) (fmul (fmul w w) (fmul w w))))
                     (fmul (from1 K beta alpha cb) (fmul (from2 K beta alpha Qy) (fmul (fmul w w) w)))) (from1 K beta alpha cc)).
Proof. rewrite dd. exact (f_evalfn_ok K beta alpha b q r T). Qed.
Lemma m_coddh : forall P B Q X, G P -> G B -> on2 Q -> on2 X -> exists z,
  generic_is_almost_coddh (F d) P B Q X = Ok z /\ (z = true <-> val P X = val B Q \/ fmul (val P X) (val B Q) = f1).
Proof. rewrite dd. exact (f_coddh K beta alpha b q r T). Qed.
Lemma m_prod_1 : forall in1 in2 i P Q, length in1 = length in2 -> nth_error in1 i = Some P -> nth_error in2 i = Some Q -> P = None \/ Q = None ->
  element_prod_pairing (F d) in1 in2 (length in1) = Ok f1.
Proof. rewrite dd. exact (f_prod_1 K beta alpha q r). Qed.
Lemma m_identity : (forall Q, val None Q = f1) /\ (forall P, val P None = f1).
Proof. split; [exact (v0l K beta alpha b q r T) | exact (v0r K beta alpha b q r T)]. Qed.
Let HK := tf_field _ _ _ _ _ _ T.
Let HE := tf_curve _ _ _ _ _ _ T.
Let HM : fld_laws (F2 K beta) := Quad_laws K HK beta (tf_beta _ _ _ _ _ _ T).
Lemma r0 : 0 < r. Proof. pose proof (tf_r2 _ _ _ _ _ _ T). lia. Qed.
Lemma tsub : subgroup K f0 b G.
Proof.
  pose proof r0. split.
  - intros P []; auto.
  - split; [exact Logic.I | apply pzmul_0].
  - intros P Q [O1 T1] [O2 T2]. split; [apply (onadd K HK f0 b HE); auto | ]. rewrite (zmul_dist K HK f0 b (proj1 HE) (proj2 HE)) by (auto; lia). rewrite T1, T2. reflexivity.
  - intros P [O T']. split; [apply (neg_on K HK f0 b); auto | ]. apply (order_neg K HK f0 b HE); auto.
Qed.
Lemma tmul : forall i P, G P -> G (pzmul K f0 i P).
Proof.
  assert (N : forall n P, G P -> G (pmul K f0 n P)) by apply (mul_G1 K f0 b G tsub).
  intros [ | p | p] P H; cbn [pzmul]; auto. apply (sg_0 K f0 b G tsub). apply (sg_neg K f0 b G tsub). auto.
Qed.
Lemma f2M : f2 (F2 K beta) <> f0.
Proof. rewrite <- (e_f2 K (F2 K beta) _ (low_embedding K HK beta)). apply (e_nz K (F2 K beta) HK HM _ (low_embedding K HK beta)). apply HE. Qed.
Lemma on2mul : forall i Q, on2 Q -> on2 (pzmul (F2 K beta) f0 i Q).
Proof. intros i Q. apply (pzmul_on (F2 K beta) HM f0 _ f2M). Qed.
Lemma m_accepts : forall P Q x s, G P -> on2 Q -> s = 1 \/ s = -1 ->
  generic_is_almost_coddh (F d) P (pzmul K f0 x P) Q (pzmul (F2 K beta) f0 (s * x) Q) = Ok true.
Proof.
  intros P Q x s HP HQ Hs. destruct (m_coddh P (pzmul K f0 x P) Q (pzmul (F2 K beta) f0 (s * x) Q)) as (z & E & H); auto using tmul, on2mul. rewrite E. f_equal. apply H.
  assert (O1 : forall L (X : point L), pzmul L f0 1 X = X) by (intros L X; cbn [pzmul Pos.to_nat Pos.iter_op pmul]; apply (add_0_r L f0)).
  assert (V1 : val P (pzmul (F2 K beta) f0 (s * x) Q) = fpow (val P Q) ((s * x) mod r)).
  { rewrite <- (O1 K P) at 1. rewrite (f_bilinear K beta alpha b q r T) by auto. f_equal. f_equal. ring. }
  assert (V2 : val (pzmul K f0 x P) Q = fpow (val P Q) (x mod r)).
  { rewrite <- (O1 (F2 K beta) Q) at 1. rewrite (f_bilinear K beta alpha b q r T) by auto. f_equal. f_equal. ring. }
  rewrite V1, V2. destruct Hs as [-> | ->]; [left; rewrite Z.mul_1_l; reflexivity | right].
  assert (HL : fld_laws (F12 K beta alpha)) by (apply (sx_laws (F2 K beta) HM alpha); apply (tf_irred _ _ _ _ _ _ T)).
  assert (B1 := Z.mod_pos_bound (-1 * x) r r0). assert (B2 := Z.mod_pos_bound x r r0). rewrite <- (fpowA _ HL) by lia.
  rewrite (fpow_mod _ HL _ r) by (try lia; try apply r0; apply (f_value_r K beta alpha b q r T); auto). rewrite <- Zplus_mod. replace (-1 * x + x) with 0 by ring. reflexivity.
Qed.
End M.

Notation M49 := (F2 F7 (e7 3)).
Definition a49 : M49 := (e7 1, e7 2).
Lemma b7 : ~ is_square (e7 3). Proof. apply (non_square 7 lt7 P7). vm_compute. reflexivity. Qed.
Definition L49 : fld_laws M49 := Quad_laws F7 (Zp_laws 7 lt7 P7) (e7 3) b7.
Lemma all49 : forall f : M49 -> bool, forallb (fun x => forallb (fun y => f (x, y)) (zp_elems 7 lt7)) (zp_elems 7 lt7) = true -> forall z, f z = true.
Proof. intros f H [x y]. rewrite forallb_forall in H. specialize (H x (zp_elems_in 7 lt7 x)). cbv beta in H. rewrite forallb_forall in H. exact (H y (zp_elems_in 7 lt7 y)). Qed.
Lemma no49 : forall (g : M49 -> M49) c, forallb (fun x => forallb (fun y => negb (feqb (g (x, y)) c)) (zp_elems 7 lt7)) (zp_elems 7 lt7) = true -> forall z, g z <> c.
Proof. intros g c H z E. pose proof (all49 (fun z => negb (feqb (g z) c)) H z) as A. cbv beta in A. rewrite E, (feqb_refl M49 L49) in A. discriminate A. Qed.
Lemma irr49 : irreducible (sextic F7 (e7 3) a49).
Proof.
  apply (sextic_irreducible M49 L49).
  - intros (x & E). revert E. apply (no49 (fun z => fmul z z)). vm_compute. reflexivity.
  - apply (no49 (fun z => fmul (fmul z z) z)). vm_compute. reflexivity.
Qed.
Lemma type_f_7 : type_f F7 (e7 3) a49 (e7 3) 7 13.
Proof.
  split; try reflexivity.
  - exact P7. - exact (Zp_laws 7 lt7 P7). - apply (Zp_instance 7 lt7 P7). - exact b7. - exact irr49. - ell. - apply isprime_spec. vm_compute. reflexivity.
  - exists 181. reflexivity.
Qed.
Definition PF7 : point F7 := Some (e7 1, e7 2).
Definition QF7 : point M49 := Some ((e7 0, e7 3), (e7 1, e7 6)).
Lemma tf7 : torsion F7 f0 (e7 3) 13 PF7. Proof. split; [apply zval_inj; vm_compute; reflexivity | vm_compute; reflexivity]. Qed.
Lemma of7 : on_f_twist F7 (e7 3) a49 (e7 3) QF7. Proof. apply (fl_eqb _ L49). vm_compute. reflexivity. Qed.
Definition showf (x : res (F12 F7 (e7 3) a49)) : option (list (Z * Z)) :=
  match x with Ok a => Some (map (fun z : M49 => (zval 7 (fst z), zval 7 (snd z))) (proj1_sig a)) | _ => None end.
Definition run7 := (d <- f_init F7 (e7 3) a49 7 13 ;; pairing_apply (f_pairing_rec F7 (e7 3) a49 d 13) PF7 QF7).
Definition val7f := f_value F7 (e7 3) a49 7 13 PF7 QF7.
Lemma run7_show : showf run7 = Some [(4, 2); (6, 3); (6, 0); (0, 1); (4, 1); (1, 0)]. Proof. vm_compute. reflexivity. Qed.
Lemma run7_val : run7 = Ok val7f.
Proof. unfold run7. destruct (init_ex F7 (e7 3) a49 (e7 3) 7 13 type_f_7) as [d D]. rewrite D. cbn [bind]. exact (m_apply F7 (e7 3) a49 (e7 3) 7 13 type_f_7 d D PF7 QF7 tf7 of7). Qed.
Lemma val7f_show : showf (Ok val7f) = Some [(4, 2); (6, 3); (6, 0); (0, 1); (4, 1); (1, 0)].
Proof. etransitivity; [ | exact run7_show]. symmetry. exact (f_equal showf run7_val). Qed.
Lemma val7f_not_1 : val7f <> f1.
Proof. intro E. pose proof val7f_show as A. rewrite E in A. assert (B : showf (Ok f1) = Some [(1, 0); (0, 0); (0, 0); (0, 0); (0, 0); (0, 0)]) by (vm_compute; reflexivity). rewrite B in A. discriminate A. Qed.
