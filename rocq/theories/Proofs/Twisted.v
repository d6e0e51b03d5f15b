(** The two groups of a pairing whose second group lives on a quadratic twist,
    and values known up to a factor in the subfield. *)
From Coq Require Import ZArith List Bool Lia Ring Field.
From Verif.Base Require Import Outcome Algebra Slots.
From Verif.Spec Require Import Curve Tate Quadratic Twist FiniteField.
From Verif.Proofs Require Import PowFacts FieldFacts SlotFacts QuadFacts CurveGroup CurveFacts LineAlgebra TateFacts Bilinear Embed Frobenius.

(** scaling the coordinates *)
Section Scale.
Variable L : fld.
Hypothesis HL : fld_laws L.
Add Field LFs : (fl_field L HL).
Local Notation "0" := f0. Local Notation "1" := f1.
Local Notation "x + y" := (fadd x y). Local Notation "x - y" := (fsub x y). Local Notation "x * y" := (fmul x y). Local Notation "- x" := (fopp x).
Local Notation "x / y" := (fdiv x y).
Variables (u : L) (a a' : L).
Hypothesis U : u <> 0.
Hypothesis C2 : f2 L <> 0.
Hypothesis Ha : a = u * u * (u * u) * a'.
Definition scalept (P : point L) : point L := match P with None => None | Some (x, y) => Some (u * u * x, u * u * u * y) end.
Lemma scale_padd : forall P Q, scalept (padd L a' P Q) = padd L a (scalept P) (scalept Q).
Proof.
  assert (U2 : u * u <> 0) by (apply (f_mul_nz L HL); auto).
  assert (U3 : u * u * u <> 0) by (apply (f_mul_nz L HL); auto).
  intros [[x1 y1] | ] [[x2 y2] | ]; try reflexivity. cbn [padd scalept].
  assert (EX : feqb (u * u * x1) (u * u * x2) = feqb x1 x2).
  { destruct (f_eq_dec L HL x1 x2) as [-> | N]; [rewrite !(feqb_refl L HL); auto | ]. rewrite (feqb_false L HL _ _ N). apply (feqb_false L HL).
    intro E. apply N. apply (f_cancel L HL (u * u)); auto. }
  assert (EY : feqb (u * u * u * y1) (u * u * u * y2) = feqb y1 y2).
  { destruct (f_eq_dec L HL y1 y2) as [-> | N]; [rewrite !(feqb_refl L HL); auto | ]. rewrite (feqb_false L HL _ _ N). apply (feqb_false L HL).
    intro E. apply N. apply (f_cancel L HL (u * u * u)); auto. }
  assert (EZ : feqb (u * u * u * y1) 0 = feqb y1 0).
  { destruct (f_eq_dec L HL y1 0) as [-> | N]; [replace (u * u * u * 0) with (0 : L) by ring; rewrite !(feqb_refl L HL); auto | ].
    rewrite (feqb_false L HL _ _ N). apply (feqb_false L HL). apply (f_mul_nz L HL); auto. }
  rewrite EX, EY, EZ. destruct (feqb x1 x2) eqn:E; cbn [negb].
  - destruct (feqb y1 y2 && negb (feqb y1 0)) eqn:Y; [ | reflexivity]. apply andb_prop in Y. destruct Y as [_ Y]. apply negb_true_iff in Y. apply (feqb_neq L HL) in Y.
    unfold third, scalept. rewrite Ha. f_equal. f_equal; unfold f2 in *; field; repeat split; auto.
  - apply (feqb_neq L HL) in E. assert (x2 - x1 <> 0) by (intro F; apply E; symmetry; apply (f_sub_0 L HL); auto).
    assert (u * u * x2 - u * u * x1 <> 0). { replace (u * u * x2 - u * u * x1) with (u * u * (x2 - x1)) by ring. apply (f_mul_nz L HL); auto. }
    unfold third, scalept. f_equal. f_equal; field; repeat split; auto.
Qed.
Lemma scale_on : forall b b' P, b = u * u * u * (u * u * u) * b' -> on_curve L a' b' P -> on_curve L a b (scalept P).
Proof.
  intros b b' [[x y] | ] E H; cbn in *; auto. unfold rhs in *. rewrite E, Ha.
  transitivity (u * u * u * (u * u * u) * (y * y)); [ring | ]. rewrite H. ring.
Qed.
Lemma scale_neg : forall P, scalept (pneg P) = pneg (scalept P).
Proof. intros [[x y] | ]; cbn; auto. f_equal. f_equal. ring. Qed.
Lemma scale_inj : forall P Q, scalept P = scalept Q -> P = Q.
Proof.
  assert (U2 : u * u <> 0) by (apply (f_mul_nz L HL); auto).
  assert (U3 : u * u * u <> 0) by (apply (f_mul_nz L HL); auto).
  intros [[x y] | ] [[x' y'] | ] E; cbn in E; try discriminate; auto. injection E as E1 E2.
  apply (f_cancel L HL _ _ _ U2) in E1. apply (f_cancel L HL _ _ _ U3) in E2. congruence.
Qed.
Lemma scale_pmul : forall n P, scalept (pmul L a' n P) = pmul L a n (scalept P).
Proof. induction n; intros P; cbn [pmul]; auto. rewrite scale_padd, IHn. reflexivity. Qed.
Lemma scale_pzmul : forall n P, scalept (pzmul L a' n P) = pzmul L a n (scalept P).
Proof. intros [ | p | p] P; cbn [pzmul]; auto; rewrite ?scale_neg, scale_pmul; reflexivity. Qed.
End Scale.

Section S.
Variables K M : fld.
Hypothesis HK : fld_laws K.
Hypothesis HM : fld_laws M.
Add Field KFt : (fl_field K HK).
Add Field MFt : (fl_field M HM).
Variable h : K -> M.
Hypothesis Hh : embedding K M h.
Variable v : M.
Hypothesis Hv : ~ is_square v.
Local Notation L := (Quad M v).
Let HL : fld_laws L := Quad_laws M HM v Hv.
Add Field LFt : (fl_field L HL).
Local Notation "0" := f0. Local Notation "1" := f1.
Local Notation "x + y" := (fadd x y). Local Notation "x - y" := (fsub x y). Local Notation "x * y" := (fmul x y). Local Notation "- x" := (fopp x).
Local Notation "x / y" := (fdiv x y).
Local Notation conj := (qconj M v).

Lemma v_nz : v <> 0.
Proof. intros E. apply Hv. exists 0. rewrite E. ring. Qed.
Ltac qn := cbn; unfold qmul, qinv, qnorm; cbn [fst snd].
Lemma low_embedding : embedding M L (low M v).
Proof. split; unfold low; intros; qn; auto; f_equal; ring. Qed.
Lemma conj_embedding : embedding L L conj.
Proof. split; unfold qconj; intros; qn; auto; f_equal; ring. Qed.
Definition up (x : K) : L := low M v (h x).
Lemma up_embedding : embedding K L up.
Proof.
  split; unfold up; intros.
  - rewrite (em_0 _ _ _ Hh). apply low_embedding.
  - rewrite (em_1 _ _ _ Hh). apply low_embedding.
  - rewrite (em_add _ _ _ Hh). apply low_embedding.
  - rewrite (em_mul _ _ _ Hh). apply low_embedding.
Qed.
Lemma conj_low : forall x, conj (low M v x) = low M v x.
Proof. intros. unfold qconj, low. cbn. f_equal. ring. Qed.

Variables a b : K.
Hypothesis HE : elliptic K a b.
Let C2 : f2 K <> 0 := proj1 HE.
Let SM := proj2 HE.
Local Notation up' := (epoint up).
Definition HEL : elliptic L (up a) (up b) := e_elliptic K L HK HL up up_embedding a C2 b HE.
Local Notation onL := (on_curve L (up a) (up b)).
Local Notation addL := (padd L (up a)).
Lemma C2M : f2 M <> 0.
Proof. rewrite <- (e_f2 K M h Hh). apply (e_nz K M HK HM h Hh). auto. Qed.
Lemma C2L : f2 L <> 0. Proof. apply HEL. Qed.

Variable r : Z.
Hypothesis Hr : (0 < r)%Z.
Hypothesis Hodd : Z.odd r = true.
Definition G1 (P : point L) : Prop := exists P0, on_curve K a b P0 /\ pzmul K a r P0 = None /\ P = up' P0.
Definition G2 (R : point L) : Prop := onL R /\ epoint conj R = pneg R.

Lemma pmul_neg : forall n P, on_curve K a b P -> pmul K a n (pneg P) = pneg (pmul K a n P).
Proof.
  induction n; intros P H; cbn [pmul]; auto. rewrite IHn by auto. symmetry. apply (pneg_add K HK a b HE); auto.
  apply (pmul_on K HK a b C2); auto.
Qed.
Lemma pzmul_nat : forall P, pzmul K a r P = pmul K a (Z.to_nat r) P.
Proof. intros. unfold pzmul. destruct r; try lia. reflexivity. Qed.
Lemma sub1 : subgroup L (up a) (up b) G1.
Proof.
  split.
  - intros P (P0 & H & _ & ->). apply (e_on K L up up_embedding a b). auto.
  - exists None. repeat split; auto. rewrite pzmul_nat. induction (Z.to_nat r); cbn; auto.
  - intros P Q (P0 & H1 & H2 & ->) (Q0 & H3 & H4 & ->). exists (padd K a P0 Q0). repeat split.
    + apply (add_on K HK a b C2); auto.
    + rewrite (zmul_dist K HK a b C2 SM) by (auto; lia). rewrite H2, H4. reflexivity.
    + symmetry. apply (e_padd K L HK HL up up_embedding a C2).
  - intros P (P0 & H1 & H2 & ->). exists (pneg P0). repeat split.
    + apply (neg_on K HK a b). auto.
    + rewrite pzmul_nat, pmul_neg, <- pzmul_nat, H2 by auto. reflexivity.
    + symmetry. apply (e_neg K L HK HL up up_embedding).
Qed.
Lemma sub2 : subgroup L (up a) (up b) G2.
Proof.
  assert (CA : forall x, conj (up x) = up x) by (intros; apply conj_low).
  split.
  - intros P (H & _). auto.
  - split; cbn; auto.
  - intros P Q (H1 & H2) (H3 & H4). split; [apply (onadd L HL _ _ HEL); auto | ].
    rewrite <- (CA a) at 1. rewrite CA at 1. rewrite (e_padd L L HL HL conj conj_embedding (up a) C2L), CA, H2, H4.
    symmetry. apply (pneg_add L HL _ _ HEL); auto.
  - intros P (H1 & H2). split; [apply (neg_on L HL); auto | ]. rewrite (e_neg L L HL HL conj conj_embedding), H2. reflexivity.
Qed.
Lemma disjoint : forall P, G1 P -> G2 P -> P = None.
Proof.
  intros P (P0 & H1 & H2 & ->) (H3 & H4).
  assert (F : epoint conj (up' P0) = up' P0). { destruct P0 as [[x y] | ]; cbn [epoint]; auto. unfold up. rewrite !conj_low. reflexivity. }
  rewrite F in H4. rewrite <- (e_neg K L HK HL up up_embedding) in H4. apply (e_point_inj K L HK HL up up_embedding) in H4.
  assert (D2 : padd K a P0 P0 = None) by (rewrite H4 at 2; apply (add_neg_r K HK a C2)).
  pose proof (Z.div_mod r 2 ltac:(lia)) as DM. rewrite Zmod_odd, Hodd in DM. assert (0 <= r / 2)%Z by (apply Z.div_pos; lia).
  assert (pzmul K a r P0 = P0).
  { rewrite DM. rewrite (zmul_add K HK a b C2 SM) by (auto; lia). rewrite Z.mul_comm, (zmul_mul K HK a b C2 SM) by (auto; lia).
    replace (pzmul K a 2 P0) with (None : point K).
    - replace (pzmul K a (r / 2) None) with (None : point K).
      + change (pzmul K a 1 P0) with (padd K a P0 None). rewrite (add_0_r K a). reflexivity.
      + symmetry. unfold pzmul. destruct (r / 2)%Z; auto; [ | lia]. induction (Pos.to_nat p); cbn; auto.
    - symmetry. change (pzmul K a 2 P0) with (padd K a P0 (padd K a P0 None)). rewrite (add_0_r K a). auto. }
  rewrite H2 in H0. rewrite <- H0. reflexivity.
Qed.

(** the twist map *)
Let a' : M := fmul (fmul (h a) v) v.
Let b' : M := fmul (fmul (fmul (h b) v) v) v.
Definition tu : L := (0, 1 / v).
Lemma tu_nz : tu <> 0.
Proof. intros E. injection E as E. apply (f_1_neq_0 M HM). transitivity (fmul (fdiv f1 v) v); [field; apply v_nz | ]. rewrite E. ring. Qed.
Lemma twist_is : forall Q, twist M v Q = scalept L tu (epoint (low M v) Q).
Proof.
  intros [[x y] | ]; cbn [twist epoint scalept]; auto. pose proof v_nz. f_equal. f_equal; unfold tu, low; qn; f_equal; field; auto.
Qed.
Lemma tu4 : up a = fmul (fmul (fmul tu tu) (fmul tu tu)) (low M v a').
Proof. pose proof v_nz. unfold up, tu, low, a'. qn. f_equal; field; auto. Qed.
Lemma tu6 : up b = fmul (fmul (fmul (fmul tu tu) tu) (fmul (fmul tu tu) tu)) (low M v b').
Proof. pose proof v_nz. unfold up, tu, low, b'. qn. f_equal; field; auto. Qed.
Lemma twist_padd : forall P Q, twist M v (padd M a' P Q) = addL (twist M v P) (twist M v Q).
Proof.
  intros. rewrite !twist_is, (e_padd M L HM HL (low M v) low_embedding a' C2M), (scale_padd L HL tu (up a) (low M v a') tu_nz C2L tu4). reflexivity.
Qed.
Lemma twist_pzmul : forall n Q, twist M v (pzmul M a' n Q) = pzmul L (up a) n (twist M v Q).
Proof.
  intros. rewrite !twist_is, (e_pzmul M L HM HL (low M v) low_embedding a' C2M), (scale_pzmul L HL tu (up a) (low M v a') tu_nz C2L tu4). reflexivity.
Qed.
Lemma twist_pmul : forall n Q, twist M v (pmul M a' n Q) = pmul L (up a) n (twist M v Q).
Proof.
  intros. rewrite !twist_is, (e_pmul M L HM HL (low M v) low_embedding a' C2M), (scale_pmul L HL tu (up a) (low M v a') tu_nz C2L tu4). reflexivity.
Qed.
Lemma twist_G2 : forall Q, on_curve M a' b' Q -> G2 (twist M v Q).
Proof.
  intros Q H. split.
  - rewrite twist_is. apply (scale_on L HL tu (up a) (low M v a') tu4 (up b) (low M v b')); [apply tu6 | ]. apply (e_on M L (low M v) low_embedding). auto.
  - destruct Q as [[x y] | ]; cbn; auto. f_equal. unfold qconj; cbn [fst snd]. pose proof v_nz. f_equal; f_equal; ring.
Qed.
Lemma twist_none : forall Q, twist M v Q = None -> Q = None.
Proof. intros [[x y] | ]; cbn; congruence. Qed.
Lemma G2_form : forall R, G2 R -> R = None \/ exists X Y, R = Some ((X, 0), (0, Y)).
Proof.
  intros [[[X X'] [Y' Y]] | ] (_ & H); auto. right. cbn in H. unfold qconj in H. cbn in H. injection H as H1 H2.
  assert (Z : forall z : M, fopp z = z -> z = 0).
  { intros z E. assert (f2 M * z = 0). { unfold f2. transitivity (fadd z z); [ring | ]. rewrite <- E at 1. ring. }
    destruct (f_integral M HM _ _ H); auto. destruct (C2M H0). }
  exists X, Y. rewrite (Z X') by auto. rewrite (Z Y') by auto. reflexivity.
Qed.

(** equality up to a factor in M *)
Definition sim (f g : L) : Prop := exists c : M, c <> 0 /\ f = fmul (low M v c) g.
Lemma sim_refl : forall f, sim f f.
Proof. intros f. exists 1. split; [apply (f_1_neq_0 M HM) | ]. rewrite (em_1 _ _ _ low_embedding). ring. Qed.
Lemma sim_mul : forall f f' g g', sim f g -> sim f' g' -> sim (f * f') (g * g').
Proof.
  intros f f' g g' (c & H & ->) (c' & H' & ->). exists (fmul c c'). split; [apply (f_mul_nz M HM); auto | ].
  rewrite (em_mul _ _ _ low_embedding). ring.
Qed.
Lemma sim_trans : forall f g k, sim f g -> sim g k -> sim f k.
Proof.
  intros f g k (c & H & ->) (c' & H' & ->). exists (fmul c c'). split; [apply (f_mul_nz M HM); auto | ].
  rewrite (em_mul _ _ _ low_embedding). ring.
Qed.
Lemma sim_sym : forall f g, sim f g -> sim g f.
Proof.
  intros f g (c & H & ->). exists (finv c). split; [apply (f_inv_nz M HM); auto | ].
  transitivity (fmul (low M v (fmul (finv c) c)) g); [ | rewrite (em_mul _ _ _ low_embedding); ring].
  replace (fmul (finv c) c) with (1 : M) by (field; auto). rewrite (em_1 _ _ _ low_embedding). ring.
Qed.
Lemma sim_low : forall c f, c <> 0 -> sim (fmul (low M v c) f) f.
Proof. intros c f H. exists c. auto. Qed.
Lemma low_nz : forall c, c <> 0 -> low M v c <> 0.
Proof. intros. apply (e_nz M L HM HL (low M v) low_embedding). auto. Qed.

(** the value at R of a X + b Y + c with coefficients in K *)
Definition lineval (ca cb cc : K) (X Y : M) : L := (fadd (fmul (h ca) X) (h cc), fmul (h cb) Y).
(** coefficients proportional to those of the line through A and B *)
Definition is_line (A B : point K) (l : K * K * K) : Prop :=
  match A, B with
  | Some (x1, y1), Some (x2, y2) =>
      let '(ca, cb, cc) := l in
      cb <> 0 /\ ca = - (cb * slope K a x1 y1 x2 y2) /\ cc = - (cb * (y1 - slope K a x1 y1 x2 y2 * x1))
  | _, _ => False
  end.
Local Notation stepL := (miller_step L (up a)).
Local Notation milL := (miller L (up a)).

Lemma up_G1 : forall P, on_curve K a b P -> pzmul K a r P = None -> G1 (up' P).
Proof. intros P H1 H2. exists P. auto. Qed.

(* what the code evaluates is the Miller step up to a factor *)
Lemma line_step : forall A B ca cb cc X Y, on_curve K a b A -> on_curve K a b B -> pzmul K a r A = None -> pzmul K a r B = None ->
  padd K a A B <> None -> is_line A B (ca, cb, cc) -> G2 (Some ((X, 0), (0, Y))) ->
  sim (lineval ca cb cc X Y) (stepL (up' A) (up' B) (Some ((X, 0), (0, Y)))).
Proof.
  intros A B ca cb cc X Y HA HB TA TB N IL HR.
  destruct A as [[x1 y1] | ]; [ | contradiction]. destruct B as [[x2 y2] | ]; [ | contradiction].
  destruct IL as (Hb & -> & ->). destruct (padd K a (Some (x1, y1)) (Some (x2, y2))) as [[x3 y3] | ] eqn:E; [ | congruence].
  assert (SL : x1 <> x2 \/ y1 <> 0) by (destruct (finite_sum K HK a b x1 y1 x2 y2 (x3, y3) HA HB E) as [NE | (E1 & E2 & NE)]; auto).
  assert (E' : addL (up' (Some (x1, y1))) (up' (Some (x2, y2))) = up' (Some (x3, y3))) by (rewrite <- (e_padd K L HK HL up up_embedding a C2), E; reflexivity).
  assert (OFF : X <> h x3).
  { intro F. assert (O : offx L (up' (Some (x3, y3))) (Some ((X, 0), (0, Y)))).
    { apply (off12 L HL (up a) (up b) G1 G2 sub1 sub2 disjoint); auto; try congruence. rewrite <- E'. apply sub1; apply up_G1; auto. }
    cbn in O. apply O. unfold up, low. rewrite F. reflexivity. }
  cbn [epoint] in E'; cbn [miller_step epoint]; rewrite E'.
  rewrite <- (e_slope K L HK HL up up_embedding a C2 x1 y1 x2 y2 SL).
  exists (fmul (h cb) (fsub X (h x3))); assert (OF2 : fsub X (h x3) <> 0) by (intro F; apply OFF; apply (f_sub_0 M HM); auto).
  split; [apply (f_mul_nz M HM); auto; apply (e_nz K M HK HM h Hh); auto | ].
  rewrite (em_mul _ _ _ low_embedding); set (l := slope K a x1 y1 x2 y2).
  assert (LE : low M v (fsub X (h x3)) = fsub ((X, 0) : L) (up x3)) by (unfold up, low; qn; f_equal; ring).
  assert (NZ : fsub ((X, 0) : L) (up x3) <> 0) by (rewrite <- LE; apply low_nz; auto).
  rewrite LE; transitivity (fmul (low M v (h cb)) (fsub (fsub ((0, Y) : L) (up y1)) (fmul (up l) (fsub ((X, 0) : L) (up x1))))); [ | field; auto].
  unfold lineval; rewrite !(e_opp K M HK HM h Hh), !(e_mul K M h Hh), (e_sub K M HK HM h Hh), (e_mul K M h Hh); unfold up, low; qn; f_equal; ring.
Qed.

Section P.
Variable P : point K.
Hypothesis OP : on_curve K a b P.
Hypothesis TP : pzmul K a r P = None.
Variables X Y : M.
Let R : point L := Some ((X, 0), (0, Y)).
Hypothesis GR : G2 R.
Local Notation mul n := (pmul K a n P).
Lemma mul_on : forall n, on_curve K a b (mul n).
Proof. intros. apply (pmul_on K HK a b C2); auto. Qed.
Lemma mul_tors : forall n, pzmul K a r (mul n) = None.
Proof.
  intros n. rewrite pzmul_nat. induction n.
  - cbn. induction (Z.to_nat r); cbn; auto.
  - cbn [pmul]. rewrite <- pzmul_nat, (zmul_dist K HK a b C2 SM), TP, pzmul_nat, IHn by (auto using mul_on; lia). reflexivity.
Qed.
Lemma GP : G1 (up' P). Proof. apply up_G1; auto. Qed.
Lemma up_mul : forall n, up' (mul n) = pmul L (up a) n (up' P).
Proof. intros. apply (e_pmul K L HK HL up up_embedding a C2). Qed.
Local Notation mil n := (milL n (up' P) R).
Lemma mul_plus : forall m n, mul (m + n)%nat = padd K a (mul m) (mul n).
Proof.
  intros. apply (e_point_inj K L HK HL up up_embedding). rewrite (e_padd K L HK HL up up_embedding a C2), !up_mul.
  apply (mul_add L HL (up a) (up b) HEL G1 sub1). apply GP.
Qed.
Lemma mil_line : forall f g m n ca cb cc, sim f (mil m) -> sim g (mil n) -> mul (m + n)%nat <> None -> is_line (mul m) (mul n) (ca, cb, cc) ->
  sim (f * g * lineval ca cb cc X Y) (mil (m + n)%nat).
Proof.
  intros f g m n ca cb cc F G N IL. rewrite (mil_add L HL (up a) (up b) HEL G1 G2 sub1 sub2 disjoint) by (auto using GP).
  apply sim_mul; [apply sim_mul; auto | ]. rewrite <- !up_mul. apply line_step; auto using mul_on, mul_tors.
  rewrite <- mul_plus. auto.
Qed.
(* a step whose line is vertical is left out *)
Lemma mil_vertical : forall f g m n, sim f (mil m) -> sim g (mil n) -> mul (m + n)%nat = None ->
  sim (f * g) (mil (m + n)%nat).
Proof.
  intros f g m n F G E. rewrite (mil_add L HL (up a) (up b) HEL G1 G2 sub1 sub2 disjoint) by (auto using GP).
  assert (Z : sim 1 (stepL (pmul L (up a) m (up' P)) (pmul L (up a) n (up' P)) R)).
  { rewrite <- !up_mul. destruct (mul m) as [[x1 y1] | ] eqn:E1; [ | apply sim_refl]. destruct (mul n) as [[x2 y2] | ] eqn:E2; [ | rewrite (step_B0 L (up a)); apply sim_refl].
    rewrite mul_plus, E1, E2 in E. assert (E' : addL (up' (Some (x1, y1))) (up' (Some (x2, y2))) = None) by (rewrite <- (e_padd K L HK HL up up_embedding a C2), E; reflexivity).
    cbn [epoint] in *. unfold R. cbn [miller_step]. rewrite E'.
    assert (OFF : X <> h x1).
    { intro F'. assert (O : offx L (up' (Some (x1, y1))) (Some ((X, 0), (0, Y)))).
      { apply (off12 L HL (up a) (up b) G1 G2 sub1 sub2 disjoint); auto; try congruence. rewrite <- E1. apply up_G1; auto using mul_on, mul_tors. }
      cbn in O. apply O. unfold up, low. rewrite F'. reflexivity. }
    assert (OF2 : fsub X (h x1) <> 0) by (intro F'; apply OFF; apply (f_sub_0 M HM); auto).
    apply sim_sym. replace (fsub ((X, 0) : L) (up x1)) with (fmul (low M v (fsub X (h x1))) (1 : L)).
    - apply sim_low. auto.
    - unfold up, low. qn. f_equal; ring. }
  replace (f * g) with (f * g * 1) by ring. apply sim_mul; auto. apply sim_mul; auto.
Qed.
Lemma mil_one : sim 1 (mil 1).
Proof.
  cbn [miller pmul]. replace (1 * miller_step L (up a) None (up' P) R) with (1 : L); [apply sim_refl | ].
  rewrite (step_A0 L (up a)). ring.
Qed.
Lemma mil_nz' : forall n, mil n <> 0.
Proof. intros. apply (mil_nz L HL (up a) (up b) HEL G1 G2 sub1 sub2 disjoint); auto using GP. Qed.
Lemma sim_nz : forall f g, sim f g -> g <> 0 -> f <> 0.
Proof. intros f g (c & H & ->) N. apply (f_mul_nz L HL); auto. apply low_nz. auto. Qed.
Lemma sim_inv : forall f g, sim f g -> g <> 0 -> sim (finv f) (finv g).
Proof.
  intros f g H N. assert (NF := sim_nz f g H N). destruct H as (c & H & ->). exists (finv c). split; [apply (f_inv_nz M HM); auto | ].
  assert (E : low M v (finv c) = finv (low M v c)).
  { assert (NL := low_nz c H). transitivity (fmul (fmul (low M v (finv c)) (low M v c)) (finv (low M v c))); [field; auto | ].
    rewrite <- (em_mul _ _ _ low_embedding). replace (fmul (finv c) c) with (1 : M) by (field; auto). rewrite (em_1 _ _ _ low_embedding). ring. }
  rewrite E. field. split; auto. apply low_nz. auto.
Qed.
(* subtracting a multiple *)
Lemma mil_minus : forall f g m n ca cb cc, sim f (mil (m + n)%nat) -> sim g (mil n) -> mul m <> None -> mul n <> None ->
  is_line (mul (m + n)%nat) (pneg (mul n)) (ca, cb, cc) ->
  sim (f * finv g * lineval ca cb cc X Y) (mil m).
Proof.
  intros f g m n ca cb cc F G Nm Nn IL.
  assert (TN : pzmul K a r (pneg (mul n)) = None) by (rewrite pzmul_nat, pmul_neg, <- pzmul_nat, mul_tors by apply mul_on; reflexivity).
  assert (ON : on_curve K a b (pneg (mul n))) by (apply (neg_on K HK a b); apply mul_on).
  assert (EQ : padd K a (mul (m + n)%nat) (pneg (mul n)) = mul m).
  { rewrite mul_plus, (add_assoc K HK a b C2 SM), (add_neg_r K HK a C2), (add_0_r K a); auto using mul_on. }
  assert (S1 := line_step (mul (m + n)%nat) (pneg (mul n)) ca cb cc X Y (mul_on _) ON (mul_tors _) TN ltac:(rewrite EQ; auto) IL GR).
  assert (S2 := sim_mul _ _ _ _ (sim_mul _ _ _ _ F (sim_inv g _ G (mil_nz' n))) S1). eapply sim_trans; [exact S2 | ].
  rewrite (mil_add L HL (up a) (up b) HEL G1 G2 sub1 sub2 disjoint) by (auto using GP). rewrite <- !up_mul.
  assert (GM : forall k, G1 (up' (mul k))) by (intros; apply up_G1; auto using mul_on, mul_tors).
  assert (GN : G1 (up' (pneg (mul n)))) by (apply up_G1; auto).
  pose proof (cocycle L HL (up a) (up b) HEL G1 G2 sub1 sub2 disjoint (up' (mul m)) (up' (mul n)) (up' (pneg (mul n))) R (GM m) (GM n) GN GR) as CO.
  rewrite <- !(e_padd K L HK HL up up_embedding a C2) in CO. rewrite <- mul_plus, (add_neg_r K HK a C2) in CO. cbn [epoint] in CO. rewrite (step_B0 L (up a)) in CO.
  destruct (mul n) as [[xn yn] | ] eqn:EN; [ | congruence]. cbn [epoint pneg] in CO.
  assert (V1 : stepL (Some (up xn, up yn)) (Some (up xn, up (fopp yn))) R = fsub ((X, 0) : L) (up xn)).
  { unfold R. cbn [miller_step]. replace (addL (Some (up xn, up yn)) (Some (up xn, up (fopp yn)))) with (None : point L); [reflexivity | ].
    symmetry. change (addL (up' (Some (xn, yn))) (up' (pneg (Some (xn, yn)))) = None). rewrite <- (e_padd K L HK HL up up_embedding a C2), (add_neg_r K HK a C2). reflexivity. }
  rewrite V1 in CO.
  assert (OFF : X <> h xn).
  { intro F'. assert (O : offx L (up' (Some (xn, yn))) (Some ((X, 0), (0, Y)))).
    { apply (off12 L HL (up a) (up b) G1 G2 sub1 sub2 disjoint); auto; try congruence. rewrite <- EN. auto. }
    cbn in O. apply O. unfold up, low. rewrite F'. reflexivity. }
  assert (OF2 : fsub X (h xn) <> 0) by (intro F'; apply OFF; apply (f_sub_0 M HM); auto).
  exists (fsub X (h xn)). split; auto.
  assert (LE : low M v (fsub X (h xn)) = fsub ((X, 0) : L) (up xn)) by (unfold up, low; qn; f_equal; ring).
  rewrite LE. cbn [epoint pneg].
  transitivity (mil m * (miller_step L (up a) (up' (mul m)) (Some (up xn, up yn)) R * stepL (up' (mul (m + n)%nat)) (Some (up xn, up (fopp yn))) R)).
  - fold R. field. apply mil_nz'.
  - transitivity (mil m * (fsub ((X, 0) : L) (up xn) * 1)); [f_equal; exact CO | ring].
Qed.
Lemma mil_r1 : mil (S (Z.to_nat r)) = mil (Z.to_nat r).
Proof.
  cbn [miller]. rewrite <- up_mul, <- pzmul_nat, TP. cbn [epoint]. rewrite (step_A0 L (up a)). ring.
Qed.
(* multiples that do not vanish *)
Lemma coprime_finite : forall k, P <> None -> (0 <= k)%Z -> Z.gcd k r = 1%Z -> pzmul K a k P <> None.
Proof.
  intros k N Hk GC E. apply N. destruct (Z.gcd_bezout k r 1 GC) as (u & w & B).
  assert (0 < r)%Z by auto. set (u' := (u + r * Z.abs u)%Z). assert (0 <= u')%Z by (unfold u'; nia).
  assert (BB : (u' * k = 1 + (Z.abs u * k - w) * r)%Z) by (unfold u'; nia).
  destruct (Z.eq_dec r 1) as [R1 | NR].
  - rewrite R1 in TP. change (pzmul K a 1 P) with (padd K a P None) in TP. rewrite (add_0_r K a) in TP. auto.
  - assert (W0 : (0 <= Z.abs u * k - w)%Z) by (assert (0 <= u' * k)%Z by (apply Z.mul_nonneg_nonneg; lia); nia).
    assert (E1 : pzmul K a (u' * k) P = None).
    { rewrite (zmul_mul K HK a b C2 SM), E by (auto; lia). unfold pzmul. destruct u'; auto; [ | lia]. induction (Pos.to_nat p); cbn; auto. }
    rewrite BB, (zmul_add K HK a b C2 SM), (zmul_mul K HK a b C2 SM), TP in E1 by (auto; nia).
    replace (pzmul K a (Z.abs u * k - w) None) with (None : point K) in E1.
    + change (pzmul K a 1 P) with (padd K a P None) in E1. rewrite !(add_0_r K a) in E1. auto.
    + symmetry. unfold pzmul. destruct (Z.abs u * k - w)%Z; auto; [ | lia]. induction (Pos.to_nat p); cbn; auto.
Qed.
End P.
End S.
