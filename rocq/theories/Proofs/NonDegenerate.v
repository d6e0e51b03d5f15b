(** Non-degeneracy of the pairings with a quadratic twist that has enough
    points, by counting the roots of a polynomial. *)
From Coq Require Import ZArith List Bool Lia Ring Field.
From Verif.Base Require Import Outcome Algebra Slots.
From Verif.Spec Require Import FiniteField Quadratic Curve Tate Twist PairingValue.
From Verif.Proofs Require Import PowFacts FieldFacts SlotFacts QuadFacts CurveGroup CurveFacts LineAlgebra TateFacts Embed Frobenius BilinearZ Twisted MillerPoly.
Import ListNotations.

Section N.
Variables K M : fld.
Hypothesis HK : fld_laws K.
Hypothesis HM : fld_laws M.
Add Field KFnd : (fl_field K HK).
Add Field MFnd : (fl_field M HM).
Variable h : K -> M.
Hypothesis Hh : embedding K M h.
Variable v : M.
Hypothesis Hv : ~ is_square v.
Local Notation L := (Quad M v).
Let HL : fld_laws L := Quad_laws M HM v Hv.
Add Field LFnd : (fl_field L HL).
Variables a b : K.
Hypothesis HE : elliptic K a b.
Let C2 : f2 K <> f0 := proj1 HE.
Variables Q0 r : Z.
Hypothesis Hr2 : (2 < r)%Z.
Hypothesis Hodd : Z.odd r = true.
Hypothesis HQ : (1 < Q0)%Z.
Hypothesis HQodd : Z.odd Q0 = true.
Hypothesis Hdiv : (r | Q0 + 1)%Z.
Hypothesis FC : forall x : L, fpow x Q0 = qconj M v x.
Variables px py : K.
Local Notation P := (Some (px, py)).
Hypothesis HP : on_curve K a b P.
Hypothesis HO : exact_order K a r P.
Local Notation up := (fun x : K => low M v (h x)).
Local Notation a' := (fmul (fmul (h a) v) v).
Local Notation b' := (fmul (fmul (fmul (h b) v) v) v).
Local Notation onT := (on_curve M a' b').
Local Notation val S := (twisted_value h v a r ((Q0 * Q0 - 1) / r) P S).
Let N := Z.to_nat r.
Lemma zN : Z.of_nat N = r. Proof. unfold N. lia. Qed.
Lemma pz_nat : forall n, pzmul K a (Z.of_nat n) P = pmul K a n P.
Proof. intros [ | n]; [reflexivity | ]. cbn [Z.of_nat pzmul]. rewrite SuccNat2Pos.id_succ. reflexivity. Qed.
Lemma nd_ord : pmul K a N P = None. Proof. rewrite <- pz_nat, zN. apply HO. Qed.
Lemma nd_fin : forall k, (0 < k < N)%nat -> pmul K a k P <> None.
Proof. intros k H. rewrite <- pz_nat. apply HO. unfold N in H. lia. Qed.
Lemma nd_odd : forall k, (0 < k < N)%nat -> pmul K a (2 * k) P <> None.
Proof.
  intros k H. destruct (lt_eq_lt_dec (2 * k) N) as [[A | A] | A].
  - apply nd_fin. lia.
  - exfalso. assert (r = 2 * Z.of_nat k)%Z by (rewrite <- zN; lia). rewrite H0, Z.odd_mul in Hodd. discriminate.
  - replace (2 * k)%nat with (N + (2 * k - N))%nat by lia. rewrite (pt_plus K HK a b HE px py HP), nd_ord, add_0_l. apply nd_fin. lia.
Qed.
Lemma v_nz' : v <> f0. Proof. apply (v_nz M HM v Hv). Qed.
(** the x-coordinates of the two subgroups are different *)
Lemma tw_x : forall x y xk yk, onT (Some (x, y)) -> y <> f0 -> on_curve K a b (Some (xk, yk)) -> fdiv x v <> h xk.
Proof.
  intros x y xk yk O Y Ok E. apply Hv. pose proof v_nz' as V.
  pose proof (on_eq M HM a' b' x y O) as E1. pose proof (on_eq K HK a b xk yk Ok) as E2.
  assert (E3 : fmul (h yk) (h yk) = fadd (fadd (fmul (fmul (h xk) (h xk)) (h xk)) (fmul (h a) (h xk))) (h b)).
  { rewrite <- !(em_mul _ _ _ Hh), <- !(em_add _ _ _ Hh), E2. reflexivity. }
  assert (Ex : x = fmul v (h xk)) by (rewrite <- E; field; auto).
  assert (E4 : fmul y y = fmul (fmul (fmul v v) v) (fmul (h yk) (h yk))) by (rewrite E1, E3, Ex; ring).
  assert (Z : h yk <> f0). { intro Z. rewrite Z in E4. assert (E5 : fmul y y = f0) by (rewrite E4; ring). destruct (f_integral M HM _ _ E5); auto. }
  exists (fdiv y (fmul v (h yk))). transitivity (fdiv (fmul y y) (fmul (fmul v v) (fmul (h yk) (h yk)))); [field; auto | ]. rewrite E4. field. auto.
Qed.
Lemma qpow_snd : forall w : L, fpow w (Q0 - 1) = f1 -> snd w = f0.
Proof.
  intros w E. assert (F : fpow w Q0 = w).
  { replace Q0 with ((Q0 - 1) + 1)%Z by lia. rewrite (fpowA L HL) by lia. rewrite E. assert (E' : fpow w 1 = fmul w (f1 : L)) by reflexivity. rewrite E'. ring. }
  rewrite FC in F. apply (f_equal snd) in F. cbn [qconj snd] in F. 
  assert (C2' : f2 M <> f0) by (apply (C2M K M HK HM h Hh a b HE)).
  apply (f_cancel M HM (f2 M)); auto. unfold f2. transitivity (fadd (snd w) (snd w)); [ring | ]. rewrite <- F at 1. ring.
Qed.
Lemma up_emb : embedding K L up. Proof. apply (up_embedding K M HM h Hh v). Qed.
Lemma fev_twist : forall (f : fn K) x y, fev up f ((x, f0) : L) ((f0, y) : L) = (peval M (map h (fst f)) x, fmul (peval M (map h (snd f)) x) y).
Proof.
  intros [A B] x y. unfold fev. cbn [fst snd]. 
  assert (E : forall p, peval L (map up p) (low M v x) = low M v (peval M (map h p) x)).
  { intro p. replace (map up p) with (map (low M v) (map h p)) by (rewrite map_map; reflexivity). apply (pquot_map M L HM HL (low M v) (low_embedding M HM v)). }
  unfold low in E. cbv beta. unfold low in *. rewrite !E. cbn [Quad fadd fmul qmul fst snd]. f_equal; ring.
Qed.
Lemma on_twist' : forall x y, onT (Some (x, y)) -> on_curve L (up a) (up b) (Some ((fdiv x v, f0), (f0, fdiv y (fmul v v)))).
Proof. intros x y O. apply (twist_G2 K M HM h v Hv a b (Some (x, y)) O). Qed.
Lemma nonneg_exp : ((Q0 * Q0 - 1) / r = (Q0 + 1) / r * (Q0 - 1))%Z /\ (0 <= (Q0 + 1) / r)%Z /\ ((Q0 + 1) / r * r = Q0 + 1)%Z.
Proof.
  destruct Hdiv as [c E]. assert (D : ((Q0 + 1) / r = c)%Z) by (rewrite E; apply Z.div_mul; lia). rewrite D.
  split; [ | split; [nia | lia]]. replace (Q0 * Q0 - 1)%Z with (c * (Q0 - 1) * r)%Z by nia. apply Z.div_mul. lia.
Qed.
Theorem nondegenerate : forall l : list (M * M), NoDup (map fst l) -> (Q0 - 1 <= 2 * Z.of_nat (length l))%Z ->
  (forall x y, In (x, y) l -> onT (Some (x, y)) /\ y <> f0) -> exists S, In S l /\ val (Some S) <> f1.
Proof.
  intros l ND LEN HT.
  destruct (existsb (fun S => negb (feqb (val (Some S)) f1)) l) eqn:EX.
  { apply existsb_exists in EX. destruct EX as (S & I & E). exists S. split; auto. intro Q. rewrite Q, (feqb_refl L HL) in E. discriminate. }
  exfalso. assert (ALL : forall S, In S l -> val (Some S) = f1).
  { intros S I. destruct (feqb (val (Some S)) f1) eqn:E; [apply (feqb_eq L HL); exact E | ].
    assert (existsb (fun S => negb (feqb (val (Some S)) f1)) l = true) by (apply existsb_exists; exists S; rewrite E; auto). congruence. }
  destruct (miller_poly K HK a b HE px py HP N ltac:(unfold N; lia) nd_fin nd_odd nd_ord) as (f & DF & Z & NZ & V).
  destruct nonneg_exp as (E1 & E2 & E3). set (c := Z.to_nat ((Q0 + 1) / r)).
  set (w := fnpow K a b f c).
  assert (DW : inL (Z.to_nat (Q0 + 1)) w).
  { replace (Z.to_nat (Q0 + 1)) with (c * N)%nat by (unfold c, N; rewrite <- Z2Nat.inj_mul by lia; rewrite E3; reflexivity). apply inL_pow. exact DF. }
  destruct DW as [_ DB]. pose proof v_nz' as Vn.
  assert (ROOT : forall X, In X (map (fun S => fdiv (fst S) v) l) -> peval M (map h (snd w)) X = f0).
  { intros X I. apply in_map_iff in I. destruct I as ([x y] & <- & I). destruct (HT x y I) as [O Y]. cbn [fst]. specialize (ALL (x, y) I).
    pose proof (on_twist' x y O) as OL. unfold twisted_value, tate in ALL. cbn [twist] in ALL. fold N in ALL.
    assert (SIDE : forall k xk yk, (0 < k < N)%nat -> pmul K a k P = Some (xk, yk) -> ((fdiv x v, f0) : L) <> up xk).
    { intros k xk yk Hk Ek Q. apply (tw_x x y xk yk O Y); [ | apply (f_equal fst) in Q; exact Q]. rewrite <- Ek. apply (pt_on K HK a b HE px py HP). }
    pose proof (V L HL up up_emb _ _ OL SIDE) as EV.
    assert (ALL' : fpow (fev up f ((fdiv x v, f0) : L) ((f0, fdiv y (fmul v v)) : L)) ((Q0 * Q0 - 1) / r) = f1) by (rewrite EV; exact ALL).
    clear ALL. rename ALL' into ALL.
    rewrite E1 in ALL. rewrite (fpowM L HL) in ALL by lia.
    assert (EW : fev up w ((fdiv x v, f0) : L) ((f0, fdiv y (fmul v v)) : L) = fpow (fev up f ((fdiv x v, f0) : L) ((f0, fdiv y (fmul v v)) : L)) ((Q0 + 1) / r)).
    { unfold w. rewrite (fev_pow K a b L HL up up_emb) by (apply (on_eq L HL (up a) (up b)); exact OL). reflexivity. }
    rewrite <- EW in ALL. apply qpow_snd in ALL. rewrite fev_twist in ALL. cbn [snd] in ALL.
    destruct (f_integral M HM _ _ ALL) as [Q | Q]; auto. exfalso. apply Y. transitivity (fmul (fdiv y (fmul v v)) (fmul v v)); [field; auto | rewrite Q; ring]. }
  assert (ZERO : forall X, peval M (map h (snd w)) X = f0).
  { apply (many_roots M HM) with (l := map (fun S => fdiv (fst S) v) l).
    - rewrite <- (map_map fst (fun x => fdiv x v)). apply FinFun.Injective_map_NoDup; auto. intros x y E. transitivity (fmul v (fdiv x v)); [field; auto | ]. rewrite E. field. auto.
    - rewrite !map_length. destruct DB as [-> | DB]; [cbn [length]; lia | ]. 
      assert (OD : (Q0 = 2 * (Q0 / 2) + 1)%Z) by (pose proof (Zodd_div2 Q0) as O; rewrite Z.div2_div in O; apply O; apply Zodd_bool_iff; exact HQodd). lia.
    - exact ROOT. }
  assert (ZK : peval K (snd w) px = f0).
  { apply (e_inj K M HK HM h Hh). rewrite (em_0 _ _ _ Hh), <- (proj1 (pquot_map K M HK HM h Hh)). apply ZERO. }
  assert (EQ : fev (fun x : K => x) w px py = fev (fun x : K => x) w px (fopp py)) by (unfold fev; rewrite !map_id, ZK; ring).
  unfold w in EQ. rewrite !(fev_pow K a b K HK _ (id_emb K)) in EQ.
  - rewrite Z in EQ. rewrite (npow_0_pos K HK) in EQ.
    + symmetry in EQ. revert EQ. apply (npow_nz K HK). exact NZ.
    + unfold c. assert ((Q0 + 1) / r <> 0)%Z by (intro Q; rewrite Q in E3; lia). lia.
  - apply (on_eq K HK a b). apply (neg_on K HK a b P HP).
  - apply (on_eq K HK a b). exact HP.
Qed.


(** the same for a list of points: at most two share an abscissa *)
Theorem nondegenerate_points : forall l : list (M * M), NoDup l -> (Q0 - 1 <= Z.of_nat (length l))%Z ->
  (forall x y, In (x, y) l -> onT (Some (x, y)) /\ y <> f0) -> exists S, In S l /\ val (Some S) <> f1.
Proof.
  intros l ND LEN HT. set (xs := nodup (f_eq_dec M HM) (map fst l)).
  set (pick := fun x : M => match find (fun S : M * M => feqb (fst S) x) l with Some T => T | None => (x, f0) end).
  assert (PICK : forall x, In x xs -> In (pick x) l /\ fst (pick x) = x).
  { intros x I. apply nodup_In in I. apply in_map_iff in I. destruct I as (S & E & I). unfold pick. destruct (find _ l) as [T | ] eqn:EF.
    - apply find_some in EF. destruct EF as [IT ET]. apply (feqb_eq M HM) in ET. auto.
    - exfalso. pose proof (find_none _ _ EF S I) as F. cbn beta in F. rewrite E, (feqb_refl M HM) in F. discriminate. }
  assert (MF : map fst (map pick xs) = xs).
  { rewrite map_map. rewrite <- (map_id xs) at 2. apply map_ext_in. intros x I. apply (PICK x I). }
  destruct (nondegenerate (map pick xs)) as (S & I & V).
  - rewrite MF. apply NoDup_nodup.
  - assert (LL : (length l <= length (map pick xs ++ map (fun S => (fst S, fopp (snd S))) (map pick xs)))%nat).
    { apply NoDup_incl_length; auto. intros [x y] I. destruct (HT x y I) as [O Y].
      assert (Ix : In x xs) by (apply nodup_In; apply in_map_iff; exists (x, y); auto).
      destruct (PICK x Ix) as [IP EP]. destruct (pick x) as [x' y'] eqn:E'. cbn [fst] in EP. subst x'. destruct (HT x y' IP) as [O' Y'].
      assert (Z : fmul (fsub y y') (fadd y y') = f0).
      { transitivity (fsub (fmul y y) (fmul y' y')); [ring | ]. rewrite (on_eq M HM _ _ _ _ O), (on_eq M HM _ _ _ _ O'). ring. }
      apply in_or_app. destruct (f_integral M HM _ _ Z) as [Q | Q]; [left | right].
      - replace (x, y) with (pick x); [apply in_map; auto | ]. rewrite E'. f_equal. transitivity (fadd (fsub y y') y'); [rewrite Q | ]; ring.
      - rewrite map_map. apply in_map_iff. exists x. split; auto. rewrite E'. cbn [fst snd]. f_equal. transitivity (fsub (fadd y y') y'); [rewrite Q | ]; ring. }
    rewrite app_length, !map_length in LL. rewrite map_length. lia.
  - intros x y I. apply in_map_iff in I. destruct I as (z & E & I). apply HT. rewrite <- E. apply PICK. auto.
  - exists S. split; auto. apply in_map_iff in I. destruct I as (z & <- & I). apply PICK. auto.
Qed.
End N.
