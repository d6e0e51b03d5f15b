(** Type A pairings through the interface of include/pbc_pairing.h. *)
From Coq Require Import ZArith List Bool Lia Ring Field Znumtheory.
From Verif.Base Require Import Outcome Array Algebra Gmp.
From Verif.Spec Require Import Curve Tate Quadratic Twist FiniteField PairingValue.
From Verif.Model Require Import Lucas Pairing PairingA GT GenericPow.
From Verif.Proofs Require Import PowFacts FieldFacts QuadFacts CurveGroup CurveFacts LineAlgebra TateFacts Bilinear BilinearZ Embed
  Twisted LucasFacts FieldChar ArrayFacts PairingAFacts.
Import ListNotations.


Section C.
Context {A B : Type}.
Variable xy : option B -> B.
Hypothesis XY : forall b, xy (Some b) = b.
Lemma combine_1 : forall (l1 : list A) (l2 : list (option B)), length l1 = length l2 -> map fst (combine l1 (map xy l2)) = l1.
Proof. induction l1; intros [ | c l2] E; cbn in *; auto; try discriminate. f_equal. apply IHl1. lia. Qed.
Lemma combine_2 : forall (l1 : list A) (l2 : list (option B)), length l1 = length l2 -> Forall (fun c => c <> None) l2 ->
  map (fun pq => Some (snd pq)) (combine l1 (map xy l2)) = l2.
Proof.
  induction l1; intros [ | c l2] E N; cbn in *; auto; try discriminate. inversion N; subst. destruct c as [b | ]; [ | congruence]. rewrite XY. f_equal. apply IHl1; auto.
Qed.
Lemma combine_maps : forall {X} (f : X -> A) (g : X -> B) l, combine (map f l) (map g l) = map (fun x => (f x, g x)) l.
Proof. intros. induction l; cbn; [reflexivity | f_equal; auto]. Qed.
Lemma fold_map : forall {X} {T : fld} (f : X -> T) l, fold_right (fun x acc => fmul (f x) acc) f1 l = gprod (map f l).
Proof. intros. induction l; cbn; [reflexivity | f_equal; auto]. Qed.
End C.
Lemma scan_true : forall (p : pairing) in1 in2 i P Q, length in1 = length in2 -> nth_error in1 i = Some P -> nth_error in2 i = Some Q ->
  is0_1 p P = true \/ is0_2 p Q = true ->
  forall n k, (k + n = length in1)%nat -> (k <= i)%nat -> prod_scan p in1 in2 k n = Ok true.
Proof.
  intros p in1 in2 i P Q EL I1 I2 H. induction n; intros k E LE; cbn [prod_scan].
  - assert (N : nth_error in1 i <> None) by congruence. apply nth_error_Some in N. lia.
  - unfold get. destruct (nth_error in1 k) as [x1 | ] eqn:E1; [ | apply nth_error_None in E1; lia]. cbn [bind].
    destruct (nth_error in2 k) as [x2 | ] eqn:E2; [ | apply nth_error_None in E2; lia]. cbn [bind].
    destruct (Nat.eq_dec k i) as [-> | N].
    + rewrite I1 in E1. rewrite I2 in E2. injection E1 as <-. injection E2 as <-. destruct H as [-> | ->]; auto. destruct (is0_1 p P); auto.
    + destruct (is0_1 p x1); auto. destruct (is0_2 p x2); auto. apply IHn; lia.
Qed.
Lemma mul_None : forall (K : fld) (a : K) n, pmul K a n None = None.
Proof. intros. induction n; cbn [pmul]; [reflexivity | rewrite IHn; reflexivity]. Qed.
Section A.
Variable K : fld.
Variables q r h e2 e1 s1 s0 : Z.
Hypothesis TA : type_a K q r h e2 e1 s1 s0.
Let Pq := ta_q _ _ _ _ _ _ _ _ TA.
Let Q4 := ta_mod _ _ _ _ _ _ _ _ TA.
Let HK := ta_field _ _ _ _ _ _ _ _ TA.
Let Hq := ta_order _ _ _ _ _ _ _ _ TA.
Let Pr := ta_r _ _ _ _ _ _ _ _ TA.
Let R5 := ta_big _ _ _ _ _ _ _ _ TA.
Let RH := ta_h _ _ _ _ _ _ _ _ TA.
Let E12 := ta_exp _ _ _ _ _ _ _ _ TA.
Let S1 := ta_s1 _ _ _ _ _ _ _ _ TA.
Let S0 := ta_s0 _ _ _ _ _ _ _ _ TA.
Let RE := ta_solinas _ _ _ _ _ _ _ _ TA.
Variable j : K.
Local Notation info := (a_info_of h e2 e1 s1).
Local Notation v := (fopp f1 : K).
Local Notation L := (Quad K v).
Local Notation G1 := (torsion K f1 f0 r).
Local Notation onK := (on_curve K f1 f0).
Local Notation val := (type_a_value K q r).
Local Notation pair m := (a_pairing K (Ok j) info m).
Let VN := vns K HK q Pq Q4 Hq.
Let HL : fld_laws L := Quad_laws K HK v VN.
Let ELL := ellK K HK q Pq Hq r h R5 RH.
Add Field LFapi : (fl_field L HL).

Lemma value_0l : forall Q, val None Q = f1. Proof. intros. apply (tate_P0 L HL). Qed.
Lemma value_0r : forall P, val P None = f1. Proof. intros. apply (tate_Q0 L HL). Qed.
Lemma fermat_A : forall x : L, x <> f0 -> fpow x (r * ((q * q - 1) / r)) = f1.
Proof.
  intros x N. assert (Hq1 : has_order K (q ^ 1)) by (rewrite Z.pow_1_r; exact Hq). pose proof (q_big q Pq r h R5 RH) as QB.
  replace (r * ((q * q - 1) / r))%Z with (q ^ 1 * q ^ 1 - 1)%Z.
  - apply (fermatL K HK q 1 ltac:(lia) ltac:(lia) Hq1 v VN). auto.
  - rewrite (exp_eq q r h R5 RH e2 e1 E12), Z.pow_1_r. assert (q = r * h - 1)%Z by lia. nia.
Qed.
Lemma e_nonneg : (0 <= (q * q - 1) / r)%Z.
Proof. pose proof (q_big q Pq r h R5 RH). apply Z.div_pos; nia. Qed.
Local Notation up1 := (up K K (idh K) v).
Let GA := Twisted.G1 K K (idh K) v f1 f0 r.
Let GB := Twisted.G2 K K (idh K) v f1 f0.
Let RP : (0 < r)%Z. Proof. lia. Qed.
Let RO := r_odd r Pr R5.
Let SA : subgroup L (up1 f1) (up1 f0) GA := sub1 K K HK HK (idh K) (idE K) v VN f1 f0 ELL r RP RO.
Let SB : subgroup L (up1 f1) (up1 f0) GB := sub2 K K HK HK (idh K) (idE K) v VN f1 f0 ELL.
Let D := disjoint K K HK HK (idh K) (idE K) v VN f1 f0 ELL r RP RO.
Let EL := HEL K K HK HK (idh K) (idE K) v VN f1 f0 ELL.
Lemma in_GA : forall P, G1 P -> GA (epoint up1 P).
Proof. intros P (O & T). exists P. auto. Qed.
Lemma in_GB : forall Q, onK Q -> GB (twist K v Q).
Proof. intros Q O. apply (twist_in K HK q Pq Q4 Hq). auto. Qed.
Lemma order_up : forall P, G1 P -> pzmul L (up1 f1) r (epoint up1 P) = None.
Proof.
  intros P (O & T). rewrite <- (e_pzmul K L HK HL up1 (up_embedding K K HK (idh K) (idE K) v) f1 (c2 K HK q Pq Hq r h R5 RH)), T. reflexivity.
Qed.
Theorem value_r : forall P Q, G1 P -> onK Q -> fpow (val P Q) r = f1.
Proof.
  intros P Q HP HQ. exact (tate_r L HL (up1 f1) (up1 f0) EL GA GB SA SB D r _ RP e_nonneg fermat_A _ _ (in_GA P HP) (in_GB Q HQ)).
Qed.
Theorem value_bilinear : forall m n P Q, G1 P -> onK Q -> val (pzmul K f1 m P) (pzmul K f1 n Q) = fpow (val P Q) ((m * n) mod r).
Proof.
  intros m n P Q HP HQ.
  assert (T := tate_bilinear_z L HL (up1 f1) (up1 f0) EL GA GB SA SB D r _ RP e_nonneg fermat_A m n _ _ (in_GA P HP) (in_GB Q HQ) (order_up P HP)).
  rewrite <- (e_pzmul K L HK HL up1 (up_embedding K K HK (idh K) (idE K) v) f1 (c2 K HK q Pq Hq r h R5 RH)) in T.
  rewrite <- (twist_pzmul K K HK HK (idh K) (idE K) v VN f1 f0 ELL) in T.
  assert (E1 : fmul (fmul (idh K f1) v) v = f1) by (apply (tw1 K HK)). rewrite E1 in T. exact T.
Qed.

Theorem value_add1 : forall P P' Q, G1 P -> G1 P' -> onK Q -> val (padd K f1 P P') Q = fmul (val P Q) (val P' Q).
Proof.
  intros P P' Q HP HP' HQ.
  assert (T := tate_1 L HL (up1 f1) (up1 f0) EL GA GB SA SB D r _ RP e_nonneg fermat_A _ _ _ (in_GA P HP) (in_GA P' HP') (in_GB Q HQ) (order_up P HP) (order_up P' HP')).
  rewrite <- (e_padd K L HK HL up1 (up_embedding K K HK (idh K) (idE K) v) f1 (c2 K HK q Pq Hq r h R5 RH)) in T. exact T.
Qed.
Theorem value_add2 : forall P Q Q', G1 P -> onK Q -> onK Q' -> val P (padd K f1 Q Q') = fmul (val P Q) (val P Q').
Proof.
  intros P Q Q' HP HQ HQ'.
  assert (T := tate_2 L HL (up1 f1) (up1 f0) EL GA GB SA SB D r _ RP e_nonneg fermat_A _ _ _ (in_GA P HP) (in_GB Q HQ) (in_GB Q' HQ') (order_up P HP)).
  rewrite <- (twist_padd K K HK HK (idh K) (idE K) v VN f1 f0 ELL) in T.
  assert (E1 : fmul (fmul (idh K f1) v) v = f1) by (apply (tw1 K HK)). rewrite E1 in T. exact T.
Qed.
Theorem value_additive : forall P P' Q Q', G1 P -> G1 P' -> onK Q -> onK Q' ->
  val (padd K f1 P P') Q = fmul (val P Q) (val P' Q) /\ val P (padd K f1 Q Q') = fmul (val P Q) (val P Q').
Proof. intros. split; [apply value_add1 | apply value_add2]; auto. Qed.

Theorem apply_value : forall m P Q, G1 P -> onK Q -> pairing_apply (pair m) P Q = Ok (val P Q).
Proof.
  intros m P Q (OP & TP) OQ. unfold pairing_apply. cbn [is0_1 is0_2 map_ a_pairing gt].
  destruct P as [[px py] | ]; cbn [is_inf]; [ | rewrite value_0l; reflexivity].
  destruct Q as [[qx qy] | ]; cbn [is_inf]; [ | rewrite value_0r; reflexivity].
  destruct m; [apply (proj_correct K HK q Pq Q4 Hq r h Pr R5 RH e2 e1 s1 s0 E12 S1 S0 RE j) | apply (affine_correct K HK q Pq Q4 Hq r h Pr R5 RH e2 e1 s1 s0 E12 S1 S0 RE j)]; auto; discriminate.
Qed.
Theorem pp_value : forall m P, G1 P -> exists pp, pairing_pp_init (pair m) P = Ok pp /\
  forall Q, onK Q -> pairing_pp_apply (pair m) Q pp = Ok (val P Q).
Proof.
  intros m P (OP & TP). unfold pairing_pp_init. cbn [is0_1 pp_init_ a_pairing].
  destruct P as [[px py] | ]; cbn [is_inf].
  - destruct (pp_correct K HK q Pq Q4 Hq r h Pr R5 RH e2 e1 s1 s0 E12 S1 S0 RE j (Some (px, py)) OP ltac:(discriminate) TP) as (t & E & _ & H).
    unfold a_info_of. rewrite E. cbn [bind]. exists (Some t). split; auto. intros [[qx qy] | ] OQ; cbn [pairing_pp_apply is0_2 a_pairing is_inf pp_apply_].
    + apply H. auto.
    + rewrite value_0r. reflexivity.
  - exists None. split; auto. intros Q _. cbn [pairing_pp_apply]. rewrite value_0l. reflexivity.
Qed.
Theorem pp_table : forall m P t, G1 P -> pairing_pp_init (pair m) P = Ok (Some t) -> length t = Z.to_nat (e2 + 1).
Proof.
  intros m P t (OP & TP) E. unfold pairing_pp_init in E. cbn [is0_1 pp_init_ a_pairing] in E.
  destruct P as [[px py] | ]; cbn [is_inf] in E; [ | discriminate].
  destruct (pp_correct K HK q Pq Q4 Hq r h Pr R5 RH e2 e1 s1 s0 E12 S1 S0 RE j (Some (px, py)) OP ltac:(discriminate) TP) as (t' & E' & LT & _).
  unfold a_info_of in E. rewrite E' in E. cbn [bind] in E. injection E as <-. exact LT.
Qed.
(** products *)
Lemma scan_false : forall m pre1 pre2 in1 in2, length pre1 = length pre2 -> length in1 = length in2 ->
  Forall (fun P => P <> None) in1 -> Forall (fun P => P <> None) in2 ->
  prod_scan (pair m) (pre1 ++ in1) (pre2 ++ in2) (length pre1) (length in1) = Ok false.
Proof.
  intros m pre1 pre2 in1. revert pre1 pre2. induction in1 as [ | P in1 IH]; intros pre1 pre2 in2 EL1 EL2 F1 F2; cbn [length prod_scan]; auto.
  destruct in2 as [ | Q in2]; [discriminate | ]. pose proof (Forall_inv F1) as NA. pose proof (Forall_inv F2) as NB. apply Forall_inv_tail in F1. apply Forall_inv_tail in F2.
  rewrite get_app by auto. cbn [bind]. rewrite get_app by auto. cbn [bind is0_1 is0_2 a_pairing].
  destruct P as [pp | ]; [ | congruence]. destruct Q as [qq | ]; [ | congruence]. cbn [is_inf].
  specialize (IH (pre1 ++ [Some pp]) (pre2 ++ [Some qq]) in2). rewrite <- !app_assoc in IH. cbn [app] in IH. rewrite app_length in IH. cbn [length] in IH.
  replace (S (length pre1)) with (length pre1 + 1)%nat by lia. apply IH; auto. rewrite app_length. cbn [length]. lia.
Qed.
Theorem prod_value_ok : forall m in1 in2, length in1 = length in2 -> in1 <> [] ->
  Forall G1 in1 -> Forall onK in2 -> Forall (fun P => P <> None) in1 -> Forall (fun P => P <> None) in2 ->
  element_prod_pairing (pair m) in1 in2 (length in1) = Ok (gprod (map (fun pq => val (fst pq) (snd pq)) (combine in1 in2))).
Proof.
  intros m in1 in2 EL1 NE F1 F2 N1 N2. unfold element_prod_pairing.
  assert (SC := scan_false m [] [] in1 in2 eq_refl EL1 N1 N2). cbn [app length] in SC. match goal with |- bind ?x _ = _ => replace x with (@Ok bool false) by (symmetry; exact SC) end. cbn [bind prod_ a_pairing].
  set (xy := fun Q : point K => match Q with Some c => c | None => (f0, f0) end).
  set (l := combine in1 (map xy in2)).
  assert (LL : length l = length in1) by (unfold l; rewrite combine_length, map_length; lia).
  assert (M1 : map fst l = in1) by (apply combine_1; auto).
  assert (M2 : map (fun pq : point K * (K * K) => Some (snd pq) : point K) l = in2) by (apply combine_2; auto).
  assert (GL : Forall (good K r) l).
  { apply Forall_forall. intros [P c] I. assert (I1 : In P in1) by (rewrite <- M1; apply in_map_iff; exists (P, c); auto).
    assert (I2 : In (Some c : point K) in2) by (rewrite <- M2; apply in_map_iff; exists (P, c); auto).
    rewrite Forall_forall in F1, F2, N1. destruct (F1 _ I1) as (A & B). repeat split; cbn [fst snd]; auto. }
  assert (NL : l <> []) by (intro E; rewrite E in LL; destruct in1; [congruence | discriminate]).
  assert (PC := prod_correct K HK q Pq Q4 Hq r h Pr R5 RH e2 e1 s1 s0 E12 S1 S0 RE j l [] [] GL NL). rewrite !app_nil_r, M1, M2, LL in PC. etransitivity; [exact PC | f_equal].
  assert (EC : combine in1 in2 = map (fun pq : point K * (K * K) => (fst pq, Some (snd pq) : point K)) l).
  { rewrite <- M1 at 1. rewrite <- M2 at 1. apply combine_maps. }
  rewrite EC, map_map. apply fold_map.
Qed.
Theorem prod_identity : forall m in1 in2 i P Q, length in1 = length in2 -> nth_error in1 i = Some P -> nth_error in2 i = Some Q -> P = None \/ Q = None ->
  element_prod_pairing (pair m) in1 in2 (length in1) = Ok f1.
Proof.
  intros m in1 in2 i P Q EL1 I1 I2 H. unfold element_prod_pairing.
  assert (H' : is0_1 (pair m) P = true \/ is0_2 (pair m) Q = true) by (destruct H as [-> | ->]; [left | right]; reflexivity).
  assert (S := scan_true (pair m) in1 in2 i P Q EL1 I1 I2 H' (length in1) 0%nat eq_refl ltac:(lia)).
  match goal with |- bind ?x _ = _ => replace x with (@Ok bool true) by (symmetry; exact S) end. reflexivity.
Qed.
(** is_almost_coddh accepts Diffie-Hellman tuples *)
Theorem coddh_complete : forall m P Q x s, G1 P -> onK Q -> s = 1%Z \/ s = (-1)%Z ->
  generic_is_almost_coddh (pair m) P (pzmul K f1 x P) Q (pzmul K f1 (s * x) Q) = Ok true.
Proof.
  intros m P Q x s HP HQ HS. unfold generic_is_almost_coddh.
  assert (ON : forall k R, onK R -> onK (pzmul K f1 k R)).
  { intros k R O. destruct k; cbn [pzmul]; [exact Logic.I | apply (pmul_on K HK f1 f0 (proj1 ELL)); auto | apply (neg_on K HK f1 f0); apply (pmul_on K HK f1 f0 (proj1 ELL)); auto]. }
  assert (TX : G1 (pzmul K f1 x P)).
  { split; [apply ON; apply HP | ]. destruct HP as (O & T).
    assert (TN : forall k, (0 <= k)%Z -> pzmul K f1 r (pzmul K f1 k P) = None).
    { intros k Hk. rewrite <- (zmul_mul K HK f1 f0 (proj1 ELL) (proj2 ELL)) by (auto; lia).
      rewrite Z.mul_comm. rewrite (zmul_mul K HK f1 f0 (proj1 ELL) (proj2 ELL)) by (auto; lia). rewrite T.
      destruct k; cbn [pzmul]; auto; rewrite mul_None; reflexivity. }
    destruct (Z_le_gt_dec 0 x) as [Hx | Hx]; [auto | ]. destruct x as [ | p | p]; try lia.
    change (pzmul K f1 (Z.neg p) P) with (pneg (pzmul K f1 (Z.pos p) P)). apply (order_neg K HK f1 f0 ELL); auto. apply TN. lia. }
  rewrite (apply_value m P _ HP (ON _ _ HQ)). cbn [bind]. rewrite (apply_value m _ Q TX HQ). cbn [bind].
  assert (O1 : forall R : point K, pzmul K f1 1 R = R) by (intros; cbn [pzmul Pos.to_nat Pos.iter_op pmul]; apply (add_0_r K f1)).
  assert (V1 : val P (pzmul K f1 (s * x) Q) = fpow (val P Q) ((s * x) mod r)).
  { rewrite <- (O1 P) at 1. rewrite value_bilinear by auto. f_equal. f_equal. ring. }
  assert (V2 : val (pzmul K f1 x P) Q = fpow (val P Q) (x mod r)).
  { rewrite <- (O1 Q) at 1. rewrite value_bilinear by auto. f_equal. f_equal. ring. }
  rewrite V1, V2. destruct HS as [-> | ->].
  - rewrite Z.mul_1_l. assert (E : feqb (fpow (val P Q) (x mod r)) (fpow (val P Q) (x mod r)) = true) by (apply (feqb_refl L HL)).
    match goal with |- (if ?b then _ else _) = _ => replace b with true by (symmetry; exact E) end. reflexivity.
  - assert (E : feqb (fmul (fpow (val P Q) ((-1 * x) mod r)) (fpow (val P Q) (x mod r))) f1 = true).
    { apply (fl_eqb L HL).
      assert (B1 := Z.mod_pos_bound (-1 * x) r RP). assert (B2 := Z.mod_pos_bound x r RP). rewrite <- (fpowA L HL) by lia.
      rewrite (fpow_mod L HL _ r) by (auto using value_r; lia). rewrite <- Zplus_mod. replace (-1 * x + x)%Z with 0%Z by ring. reflexivity. }
    match goal with |- (if ?b then _ else Ok ?c) = _ => replace c with true by (symmetry; exact E); destruct b; reflexivity end.
Qed.
Theorem coddh_spec : forall m P B Q R, G1 P -> G1 B -> onK Q -> onK R -> exists b,
  generic_is_almost_coddh (pair m) P B Q R = Ok b /\ (b = true <-> val P R = val B Q \/ fmul (val P R) (val B Q) = f1).
Proof.
  intros m P B Q R HP HB HQ HR. unfold generic_is_almost_coddh.
  rewrite (apply_value m P R HP HR). cbn [bind]. rewrite (apply_value m B Q HB HQ). cbn [bind].
  exists (feqb (val P R) (val B Q) || feqb (fmul (val P R) (val B Q)) f1). split.
  - match goal with |- (if ?b then _ else _) = _ => change b with (feqb (val P R) (val B Q)); destruct (feqb (val P R) (val B Q)); reflexivity end.
  - rewrite orb_true_iff. split; (intros [E | E]; [left | right]; apply (fl_eqb L HL); exact E).
Qed.
(** random and hashed elements of GT *)
Theorem gt_finalpow : forall e : L, e <> f0 -> exists u, gt_random L (tateexp K (Ok j) info) e = Ok u /\ fpow u r = f1.
Proof.
  intros e N. pose proof (q_big q Pq r h R5 RH) as QB. unfold gt_random, tateexp. cbn [phikonr a_info_of]. assert (Hq1 : has_order K (q ^ 1)) by (rewrite Z.pow_1_r; exact Hq).
  pose proof (h_pos q Pq r h R5 RH) as HP.
  rewrite (tateexp_correct K HK q 1 Pq ltac:(lia) ltac:(lia) Hq1 v VN e j h (proj1 ELL) N HP (h_even q Q4 r h Pr R5 RH)).
  eexists. split; [reflexivity | ]. rewrite Z.pow_1_r. assert (0 <= (q - 1) * h)%Z by nia. rewrite <- (fpowM L HL) by lia. rewrite <- (exp_eq q r h R5 RH e2 e1 E12), Z.mul_comm. apply fermat_A. auto.
Qed.
End A.
