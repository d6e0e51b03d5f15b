(** The value of the pairings with a quadratic twist, and the pairing interface
    for any implementation that computes it. *)
From Coq Require Import ZArith List Bool Lia Ring Field Znumtheory.
From Verif.Base Require Import Outcome Array Algebra Slots Gmp.
From Verif.Spec Require Import Curve Tate Quadratic Twist FiniteField PairingValue.
From Verif.Model Require Import Pairing PairingA.
From Verif.Proofs Require Import PowFacts FieldFacts QuadFacts CurveGroup CurveFacts LineAlgebra TateFacts Bilinear BilinearZ Embed Frobenius
  Twisted LucasFacts ArrayFacts PairingAApi MillerFacts.
From Verif.Model Require Import Pairing.
Import ListNotations.

(** points with no small multiples *)
Section R.
Variable K : fld.
Hypothesis HK : fld_laws K.
Variables a b : K.
Hypothesis HE : elliptic K a b.
Variable r : Z.
Hypothesis R3 : (2 < r)%Z.
Hypothesis RO : Z.odd r = true.
Lemma exact_regular : forall P, exact_order K a r P -> regular K a r P.
Proof.
  intros P (_ & H) m Hm k Hk. assert (B : (2 * k < r)%Z).
  { assert (E : (2 ^ m = 2 * 2 ^ (m - 1))%Z) by (rewrite <- Z.pow_succ_r by lia; f_equal; lia).
    assert (0 < 2 ^ (m - 1))%Z by (apply Z.pow_pos_nonneg; lia). unfold k in *.
    assert (2 ^ m * (r / 2 ^ m) <= r)%Z by (apply Z.mul_div_le; lia).
    assert (2 * (r / 2 ^ m) <= r)%Z by nia. assert (2 * (r / 2 ^ m) <> r)%Z; [ | lia].
    intro F. rewrite <- F in RO. rewrite Z.odd_mul in RO. discriminate. }
  split; [apply H; lia | split; [apply H; lia | intros OD K1; apply H; clearbody k; assert (k <> 2)%Z by (intros ->; discriminate); lia]].
Qed.
Lemma prime_exact : forall P, prime r -> torsion K a b r P -> P <> None -> exact_order K a r P.
Proof.
  intros P Pr (O & T) N. split; auto. intros k Hk. apply (coprime_finite K HK a b HE r ltac:(lia) P O T); auto; try lia.
  apply Zgcd_1_rel_prime. apply rel_prime_sym. apply prime_rel_prime; auto. intros D. apply Z.divide_pos_le in D; lia.
Qed.
End R.

(** the product of a list of pairings, one after the other *)
Section G.
Context {A B : Type} {T : fld}.
Hypothesis HT : fld_laws T.
Add Field TFtv : (fl_field T HT).
Variable map0 : A -> B -> res T.
Variable val : A -> B -> T.
Lemma generic_prod_loop_ok : forall l pre1 pre2 out, length pre1 = length pre2 ->
  Forall (fun pq => map0 (fst pq) (snd pq) = Ok (val (fst pq) (snd pq))) l ->
  generic_prod_loop map0 out (pre1 ++ map fst l) (pre2 ++ map snd l) (length pre1) (length l) =
  Ok (fmul out (gprod (map (fun pq => val (fst pq) (snd pq)) l))).
Proof.
  induction l as [ | [x y] l IH]; intros pre1 pre2 out EL F; cbn [map length generic_prod_loop].
  - f_equal. cbn [gprod fold_right map]. ring.
  - rewrite get_app by auto. cbn [bind]. rewrite get_app by auto. cbn [bind]. pose proof (Forall_inv F) as H. apply Forall_inv_tail in F. cbn [fst snd] in *. rewrite H. cbn [bind].
    specialize (IH (pre1 ++ [x]) (pre2 ++ [y]) (fmul out (val x y))). rewrite <- !app_assoc in IH. cbn [app] in IH. rewrite app_length in IH. cbn [length] in IH.
    replace (S (length pre1)) with (length pre1 + 1)%nat by lia. rewrite IH; auto; [ | rewrite app_length; cbn [length]; lia].
    f_equal. unfold gprod. cbn [map fold_right fst snd]. ring.
Qed.
Lemma combine_fst : forall (l1 : list A) (l2 : list B), length l1 = length l2 -> map fst (combine l1 l2) = l1.
Proof. induction l1; intros [ | c l2] E; cbn in *; auto; try discriminate. f_equal. apply IHl1. lia. Qed.
Lemma combine_snd : forall (l1 : list A) (l2 : list B), length l1 = length l2 -> map snd (combine l1 l2) = l2.
Proof. induction l1; intros [ | c l2] E; cbn in *; auto; try discriminate. f_equal. apply IHl1. lia. Qed.
Lemma generic_prod_ok : forall in1 in2, length in1 = length in2 -> in1 <> [] ->
  Forall (fun pq => map0 (fst pq) (snd pq) = Ok (val (fst pq) (snd pq))) (combine in1 in2) ->
  generic_prod_pairings map0 in1 in2 (length in1) = Ok (gprod (map (fun pq => val (fst pq) (snd pq)) (combine in1 in2))).
Proof.
  intros [ | x in1] [ | y in2] EL N F; try congruence; try discriminate. unfold generic_prod_pairings, get. cbn [nth_error bind combine] in *.
  pose proof (Forall_inv F) as H. apply Forall_inv_tail in F. cbn [fst snd] in H. rewrite H. cbn [bind length]. cbn [length] in EL.
  assert (G := generic_prod_loop_ok (combine in1 in2) [x] [y] (val x y) eq_refl F). rewrite combine_fst, combine_snd in G by lia. cbn [app length] in G.
  rewrite combine_length in G. replace (Nat.min (length in1) (length in2)) with (S (length in1) - 1)%nat in G by lia. rewrite G. reflexivity.
Qed.
End G.

Section V.
Variables K M : fld.
Hypothesis HK : fld_laws K.
Hypothesis HM : fld_laws M.
Variable h : K -> M.
Hypothesis Hh : embedding K M h.
Variable v : M.
Hypothesis Hv : ~ is_square v.
Variables a b : K.
Hypothesis HE : elliptic K a b.
Variable r : Z.
Hypothesis R3 : (2 < r)%Z.
Hypothesis RO : Z.odd r = true.
Variables p m : Z.
Hypothesis Pp : prime p.
Hypothesis P2 : (2 < p)%Z.
Hypothesis Hm : (0 <= m)%Z.
Hypothesis HO : has_order M (p ^ m).
Variables e k : Z.
Hypothesis RK : (r * k = p ^ m + 1)%Z.
Hypothesis EE : (e = (p ^ m - 1) * k)%Z.
Let RP : (0 < r)%Z. Proof. lia. Qed.
Local Notation L := (Quad M v).
Let HL : fld_laws L := Quad_laws M HM v Hv.
Add Field LFtv : (fl_field L HL).
Local Notation a' := (fmul (fmul (h a) v) v).
Local Notation b' := (fmul (fmul (fmul (h b) v) v) v).
Local Notation onK := (on_curve K a b).
Local Notation G1 := (torsion K a b r).
Local Notation onM := (on_curve M a' b').
Local Notation val := (twisted_value h v a r e).
Local Notation up1 := (up K M h v).
Lemma pm_pos : (0 < p ^ m)%Z. Proof. apply Z.pow_pos_nonneg; lia. Qed.
Lemma k_pos : (0 < k)%Z. Proof. pose proof pm_pos. nia. Qed.
Lemma e_nonneg : (0 <= e)%Z. Proof. pose proof pm_pos. pose proof k_pos. nia. Qed.
Lemma fermat_e : forall x : L, x <> f0 -> fpow x (r * e) = f1.
Proof.
  intros x N. replace (r * e)%Z with (p ^ m * p ^ m - 1)%Z by (rewrite EE; nia). apply (fermatL M HM p m P2 Hm HO v Hv). auto.
Qed.
Lemma fin_sim : forall f g, sim M v f g -> fpow f e = fpow g e.
Proof. intros f g (c & NC & ->). pose proof k_pos. rewrite EE. apply (low_killed M HM p m Pp P2 Hm HO v Hv); auto. lia. Qed.
Lemma value_0l : forall Q, val None Q = f1. Proof. intros. apply (tate_P0 L HL). Qed.
Lemma value_0r : forall P, val P None = f1. Proof. intros. apply (tate_Q0 L HL). Qed.
Let GA := Twisted.G1 K M h v a b r.
Let GB := Twisted.G2 K M h v a b.
Let SA : subgroup L (up1 a) (up1 b) GA := sub1 K M HK HM h Hh v Hv a b HE r RP RO.
Let SB : subgroup L (up1 a) (up1 b) GB := sub2 K M HK HM h Hh v Hv a b HE.
Let D := disjoint K M HK HM h Hh v Hv a b HE r RP RO.
Let EL := HEL K M HK HM h Hh v Hv a b HE.
Lemma in_GA : forall P, G1 P -> GA (epoint up1 P).
Proof. intros P (O & T). exists P. auto. Qed.
Lemma in_GB : forall Q, onM Q -> GB (twist M v Q).
Proof. intros Q O. apply (twist_G2 K M HM h v Hv). auto. Qed.
Lemma order_up : forall P, G1 P -> pzmul L (up1 a) r (epoint up1 P) = None.
Proof.
  intros P (O & T). rewrite <- (e_pzmul K L HK HL up1 (up_embedding K M HM h Hh v) a (proj1 HE)), T. reflexivity.
Qed.
Theorem value_r : forall P Q, G1 P -> onM Q -> fpow (val P Q) r = f1.
Proof.
  intros P Q HP HQ. exact (tate_r L HL (up1 a) (up1 b) EL GA GB SA SB D r _ RP e_nonneg fermat_e _ _ (in_GA P HP) (in_GB Q HQ)).
Qed.
Theorem value_bilinear : forall i j P Q, G1 P -> onM Q -> val (pzmul K a i P) (pzmul M a' j Q) = fpow (val P Q) ((i * j) mod r).
Proof.
  intros i j P Q HP HQ.
  assert (T := tate_bilinear_z L HL (up1 a) (up1 b) EL GA GB SA SB D r _ RP e_nonneg fermat_e i j _ _ (in_GA P HP) (in_GB Q HQ) (order_up P HP)).
  rewrite <- (e_pzmul K L HK HL up1 (up_embedding K M HM h Hh v) a (proj1 HE)) in T.
  rewrite <- (twist_pzmul K M HK HM h Hh v Hv a b HE) in T. exact T.
Qed.
Theorem value_add1 : forall P P' Q, G1 P -> G1 P' -> onM Q -> val (padd K a P P') Q = fmul (val P Q) (val P' Q).
Proof.
  intros P P' Q HP HP' HQ.
  assert (T := tate_1 L HL (up1 a) (up1 b) EL GA GB SA SB D r _ RP e_nonneg fermat_e _ _ _ (in_GA P HP) (in_GA P' HP') (in_GB Q HQ) (order_up P HP) (order_up P' HP')).
  rewrite <- (e_padd K L HK HL up1 (up_embedding K M HM h Hh v) a (proj1 HE)) in T. exact T.
Qed.
Theorem value_add2 : forall P Q Q', G1 P -> onM Q -> onM Q' -> val P (padd M a' Q Q') = fmul (val P Q) (val P Q').
Proof.
  intros P Q Q' HP HQ HQ'.
  assert (T := tate_2 L HL (up1 a) (up1 b) EL GA GB SA SB D r _ RP e_nonneg fermat_e _ _ _ (in_GA P HP) (in_GB Q HQ) (in_GB Q' HQ') (order_up P HP)).
  rewrite <- (twist_padd K M HK HM h Hh v Hv a b HE) in T. exact T.
Qed.
Lemma onM_mul : forall i Q, onM Q -> onM (pzmul M a' i Q).
Proof.
  assert (C2 : f2 M <> f0) by (apply (C2M K M HK HM h Hh a b HE)).
  intros i Q O. destruct i; cbn [pzmul]; [exact Logic.I | apply (pmul_on M HM a' b' C2); auto | apply (neg_on M HM a' b'); apply (pmul_on M HM a' b' C2); auto].
Qed.
Lemma G1_mul : forall i P, G1 P -> G1 (pzmul K a i P).
Proof.
  destruct HE as (C2 & SM). intros i P (O & T).
  assert (ON : forall i, onK (pzmul K a i P)).
  { intros i0. destruct i0; cbn [pzmul]; [exact Logic.I | apply (pmul_on K HK a b C2); auto | apply (neg_on K HK a b); apply (pmul_on K HK a b C2); auto]. }
  split; auto. assert (TN : forall j, (0 <= j)%Z -> pzmul K a r (pzmul K a j P) = None).
  { intros j Hj. rewrite <- (zmul_mul K HK a b C2 SM) by (auto; lia). rewrite Z.mul_comm. rewrite (zmul_mul K HK a b C2 SM) by (auto; lia). rewrite T.
    destruct j; cbn [pzmul]; auto; rewrite mul_None; reflexivity. }
  destruct (Z_le_gt_dec 0 i) as [Hx | Hx]; [auto | ]. destruct i as [ | q | q]; try lia.
  change (pzmul K a (Z.neg q) P) with (pneg (pzmul K a (Z.pos q) P)). apply (order_neg K HK a b HE); auto. apply TN. lia.
Qed.

(** any implementation *)
Section I.
Variable PT : Type.
Variable mp : point K -> point M -> res L.
Variable ppi : point K -> res PT.
Variable ppa : PT -> point M -> res L.
Variable prd : list (point K) -> list (point M) -> nat -> res L.
Let pr : pairing := {| g1 := point K; g2 := point M; gt := L; ppt := PT; is0_1 := is_inf K; is0_2 := is_inf M; map_ := mp; pp_init_ := ppi; pp_apply_ := ppa; prod_ := prd |}.
Lemma apply_ok : forall P Q, (P <> None -> Q <> None -> mp P Q = Ok (val P Q)) -> pairing_apply pr P Q = Ok (val P Q).
Proof.
  intros P Q H. unfold pairing_apply. cbn [is0_1 is0_2 map_ pr gt].
  destruct P as [pp | ]; cbn [is_inf]; [ | rewrite value_0l; reflexivity].
  destruct Q as [qq | ]; cbn [is_inf]; [ | rewrite value_0r; reflexivity]. apply H; discriminate.
Qed.
Lemma pp_ok : forall P (ok : point M -> Prop), (P <> None -> exists t, ppi P = Ok t /\ forall Q, ok Q -> Q <> None -> ppa t Q = Ok (val P Q)) ->
  exists pp, pairing_pp_init pr P = Ok pp /\ forall Q, ok Q -> pairing_pp_apply pr Q pp = Ok (val P Q).
Proof.
  intros P ok H. unfold pairing_pp_init. cbn [is0_1 pp_init_ pr].
  destruct P as [pp | ]; cbn [is_inf].
  - destruct (H ltac:(discriminate)) as (t & E & A). rewrite E. cbn [bind]. exists (Some t). split; auto. intros [qq | ] OQ; cbn [pairing_pp_apply is0_2 pr is_inf pp_apply_].
    + apply A; auto. discriminate.
    + rewrite value_0r. reflexivity.
  - exists None. split; auto. intros Q _. cbn [pairing_pp_apply]. rewrite value_0l. reflexivity.
Qed.
Lemma pp_t : forall P t, pairing_pp_init pr P = Ok (Some t) -> P <> None /\ ppi P = Ok t.
Proof.
  intros P t E. unfold pairing_pp_init in E. cbn [is0_1 pp_init_ pr] in E. destruct P as [pp | ]; cbn [is_inf] in E; [ | discriminate].
  split; [discriminate | ]. destruct (ppi (Some pp)); cbn [bind] in E; try discriminate. injection E as <-. reflexivity.
Qed.
Lemma scan_no : forall pre1 pre2 in1 in2, length pre1 = length pre2 -> length in1 = length in2 ->
  Forall (fun P => P <> None) in1 -> Forall (fun P => P <> None) in2 ->
  prod_scan pr (pre1 ++ in1) (pre2 ++ in2) (length pre1) (length in1) = Ok false.
Proof.
  intros pre1 pre2 in1. revert pre1 pre2. induction in1 as [ | P in1 IH]; intros pre1 pre2 in2 EL1 EL2 F1 F2; cbn [length prod_scan]; auto.
  destruct in2 as [ | Q in2]; [discriminate | ]. pose proof (Forall_inv F1) as NA. pose proof (Forall_inv F2) as NB. apply Forall_inv_tail in F1. apply Forall_inv_tail in F2.
  rewrite get_app by auto. cbn [bind]. rewrite get_app by auto. cbn [bind is0_1 is0_2 pr].
  destruct P as [pp | ]; [ | congruence]. destruct Q as [qq | ]; [ | congruence]. cbn [is_inf].
  specialize (IH (pre1 ++ [Some pp]) (pre2 ++ [Some qq]) in2). rewrite <- !app_assoc in IH. cbn [app] in IH. rewrite app_length in IH. cbn [length] in IH.
  replace (S (length pre1)) with (length pre1 + 1)%nat by lia. apply IH; auto. rewrite app_length. cbn [length]. lia.
Qed.
Lemma prod_reduce : forall in1 in2, length in1 = length in2 -> Forall (fun P => P <> None) in1 -> Forall (fun P => P <> None) in2 ->
  element_prod_pairing pr in1 in2 (length in1) = prd in1 in2 (length in1).
Proof.
  intros in1 in2 EL1 N1 N2. unfold element_prod_pairing. assert (SC := scan_no [] [] in1 in2 eq_refl EL1 N1 N2). cbn [app length] in SC.
  match goal with |- bind ?x _ = _ => replace x with (@Ok bool false) by (symmetry; exact SC) end. reflexivity.
Qed.
Lemma prod_one : forall in1 in2 i P Q, length in1 = length in2 -> nth_error in1 i = Some P -> nth_error in2 i = Some Q -> P = None \/ Q = None ->
  element_prod_pairing pr in1 in2 (length in1) = Ok f1.
Proof.
  intros in1 in2 i P Q EL1 I1 I2 H. unfold element_prod_pairing.
  assert (H' : is0_1 pr P = true \/ is0_2 pr Q = true) by (destruct H as [-> | ->]; [left | right]; reflexivity).
  assert (S := scan_true pr in1 in2 i P Q EL1 I1 I2 H' (length in1) 0%nat eq_refl ltac:(lia)).
  match goal with |- bind ?x _ = _ => replace x with (@Ok bool true) by (symmetry; exact S) end. reflexivity.
Qed.
Lemma coddh_ok : forall P B Q R, pairing_apply pr P R = Ok (val P R) -> pairing_apply pr B Q = Ok (val B Q) -> exists z,
  generic_is_almost_coddh pr P B Q R = Ok z /\ (z = true <-> val P R = val B Q \/ fmul (val P R) (val B Q) = f1).
Proof.
  intros P B Q R E1 E2. unfold generic_is_almost_coddh. rewrite E1, E2. cbn [bind].
  exists (feqb (val P R) (val B Q) || feqb (fmul (val P R) (val B Q)) f1). split.
  - match goal with |- (if ?b then _ else _) = _ => change b with (feqb (val P R) (val B Q)); destruct (feqb (val P R) (val B Q)); reflexivity end.
  - rewrite orb_true_iff. split; (intros [E | E]; [left | right]; apply (fl_eqb L HL); exact E).
Qed.
End I.
(** Diffie-Hellman tuples *)
Lemma dh_values : forall P Q x s, G1 P -> onM Q -> s = 1%Z \/ s = (-1)%Z ->
  val P (pzmul M a' (s * x) Q) = val (pzmul K a x P) Q \/ fmul (val P (pzmul M a' (s * x) Q)) (val (pzmul K a x P) Q) = f1.
Proof.
  intros P Q x s HP HQ HS.
  assert (O1 : forall R : point K, pzmul K a 1 R = R) by (intros; cbn [pzmul Pos.to_nat Pos.iter_op pmul]; apply (add_0_r K a)).
  assert (O2 : forall R : point M, pzmul M a' 1 R = R) by (intros; cbn [pzmul Pos.to_nat Pos.iter_op pmul]; apply (add_0_r M a')).
  assert (V1 : val P (pzmul M a' (s * x) Q) = fpow (val P Q) ((s * x) mod r)).
  { rewrite <- (O1 P) at 1. rewrite value_bilinear by auto. f_equal. f_equal. ring. }
  assert (V2 : val (pzmul K a x P) Q = fpow (val P Q) (x mod r)).
  { rewrite <- (O2 Q) at 1. rewrite value_bilinear by auto. f_equal. f_equal. ring. }
  rewrite V1, V2. destruct HS as [-> | ->]; [left; rewrite Z.mul_1_l; reflexivity | right].
  assert (B1 := Z.mod_pos_bound (-1 * x) r RP). assert (B2 := Z.mod_pos_bound x r RP). rewrite <- (fpowA L HL) by lia.
  rewrite (fpow_mod L HL _ r) by (auto using value_r; lia). rewrite <- Zplus_mod. replace (-1 * x + x)%Z with 0%Z by ring. reflexivity.
Qed.
End V.
