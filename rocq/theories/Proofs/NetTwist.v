(** The last term of the net against Miller's function, when the second
    argument lies on a quadratic twist. *)
From Coq Require Import ZArith List Bool Lia Ring Field.
From Verif.Base Require Import Outcome Algebra Slots Gmp.
From Verif.Spec Require Import Curve Tate Quadratic Twist FiniteField PairingValue.
From Verif.Proofs Require Import PowFacts FieldFacts SlotFacts QuadFacts CurveGroup CurveFacts LineAlgebra TateFacts Bilinear Embed Frobenius Twisted NetFacts NetLoop.

(** Miller's functions under an embedding *)
Section E.
Variables K M : fld.
Hypothesis HK : fld_laws K.
Hypothesis HM : fld_laws M.
Variable h : K -> M.
Hypothesis Hh : embedding K M h.
Variables a b : K.
Hypothesis HE : elliptic K a b.
Let C2 : f2 K <> f0 := proj1 HE.
Lemma e_step : forall A B R, on_curve K a b A -> on_curve K a b B -> (padd K a A B <> None -> R <> None -> offx K (padd K a A B) R) ->
  h (miller_step K a A B R) = miller_step M (h a) (epoint h A) (epoint h B) (epoint h R).
Proof.
  intros [[x1 y1] | ] [[x2 y2] | ] [[x y] | ] HA HB OF; cbn [epoint miller_step]; try (apply Hh).
  pose proof (e_padd K M HK HM h Hh a C2 (Some (x1, y1)) (Some (x2, y2))) as EP. cbn [epoint] in EP. rewrite <- EP.
  destruct (padd K a (Some (x1, y1)) (Some (x2, y2))) as [[x3 y3] | ] eqn:E; cbn [epoint].
  - assert (SL : x1 <> x2 \/ y1 <> f0) by (destruct (finite_sum K HK a b x1 y1 x2 y2 (x3, y3) HA HB E) as [NE | (E1 & E2 & NE)]; auto).
    specialize (OF ltac:(congruence) ltac:(congruence)). cbn in OF.
    assert (N : fsub x x3 <> f0) by (intro F; apply OF; symmetry; apply (f_sub_0 K HK); auto).
    rewrite (e_div K M HK HM h Hh) by auto. rewrite !(e_sub K M HK HM h Hh), (e_mul K M h Hh), (e_sub K M HK HM h Hh), (e_slope K M HK HM h Hh a C2) by auto. reflexivity.
  - apply (e_sub K M HK HM h Hh).
Qed.
Variables GA GB : point K -> Prop.
Hypothesis SA : subgroup K a b GA.
Hypothesis SB : subgroup K a b GB.
Hypothesis DJ : forall P, GA P -> GB P -> P = None.
Lemma e_miller : forall n P R, GA P -> GB R -> h (miller K a n P R) = miller M (h a) n (epoint h P) (epoint h R).
Proof.
  intros n P R HP HR. induction n; cbn [miller]; [apply Hh | ].
  assert (GM : forall n, GA (pmul K a n P)) by (induction n0; cbn [pmul]; [apply SA | apply SA; auto]).
  rewrite (e_mul K M h Hh), IHn, <- (e_pmul K M HK HM h Hh a C2). f_equal. apply e_step.
  - apply SA. auto.
  - apply SA. auto.
  - intros N1 N2. apply (off12 K HK a b GA GB SA SB DJ); auto. apply SA; auto.
Qed.
End E.

Section S.
Variables K M : fld.
Hypothesis HK : fld_laws K.
Hypothesis HM : fld_laws M.
Variable h : K -> M.
Hypothesis Hh : embedding K M h.
Variable v : M.
Hypothesis Hv : ~ is_square v.
Local Notation L := (Quad M v).
Let HL : fld_laws L := Quad_laws M HM v Hv.
Add Field LFnt : (fl_field L HL).
Add Field MFnt : (fl_field M HM).
Local Notation conj := (qconj M v).
Variables a b : K.
Hypothesis HE : elliptic K a b.
Let C2 : f2 K <> f0 := proj1 HE.
Local Notation up := (up K M h v).
Local Notation sim := (sim M v).
Variable r : Z.
Hypothesis R5 : (5 <= r)%Z.
Hypothesis RO : Z.odd r = true.
Let RP : (0 < r)%Z. Proof. lia. Qed.
Variables x1 y1 : K.
Local Notation P := (Some (x1, y1)).
Hypothesis OP : on_curve K a b P.
Hypothesis EX : exact_order K a r P.
Variables X Y : M.
Local Notation R := (Some (((X, f0) : L), ((f0, Y) : L))).
Hypothesis GR : G2 K M h v a b R.
Let G1 := G1 K M h v a b r.
Let S1 : subgroup L (up a) (up b) G1 := sub1 K M HK HM h Hh v Hv a b HE r RP RO.
Let S2 : subgroup L (up a) (up b) (G2 K M h v a b) := sub2 K M HK HM h Hh v Hv a b HE.
Let D := disjoint K M HK HM h Hh v Hv a b HE r RP RO.
Let EL := HEL K M HK HM h Hh v Hv a b HE.
Let UE := up_embedding K M HM h Hh v.
Lemma ord_nat : forall j, (0 < j < Z.to_nat r)%nat -> pmul K a j P <> None.
Proof. intros j H. destruct EX as (_ & E). specialize (E (Z.of_nat j) ltac:(lia)). unfold pzmul in E. destruct (Z.of_nat j) eqn:F; try lia. replace j with (Pos.to_nat p) by lia. auto. Qed.
Lemma tor_nat : pmul K a (Z.to_nat r) P = None.
Proof. destruct EX as (E & _). revert E. generalize R5. clear. intros H E. unfold pzmul in E. destruct r; try lia. auto. Qed.
Lemma G1P : G1 (epoint up P). Proof. apply up_G1; auto. apply EX. Qed.
Lemma never_R : forall j, pmul L (up a) j (Some (up x1, up y1)) <> R.
Proof.
  intros j E. assert (GM : forall n, G1 (pmul L (up a) n (epoint up P))) by (induction n; cbn [pmul]; [apply S1 | apply S1; auto using G1P]).
  pose proof (D R) as DR. cbn [epoint] in GM. specialize (GM j). rewrite E in GM. specialize (DR GM GR). discriminate DR.
Qed.
Lemma on_R : on_curve L (up a) (up b) R. Proof. apply GR. Qed.
Local Notation N := (Z.to_nat r).
Local Notation W := (bz L (up a) (up x1) (up y1) N ((X, f0) : L) ((f0, Y) : L)).
Lemma R5n : (5 <= N)%nat. Proof. lia. Qed.
Theorem net_sim : sim (W (r + 1)) (miller L (up a) N (epoint up P) R).
Proof.
  pose proof (net_miller L HL (up a) (up b) EL (up x1) (up y1) (OP' K L up UE a b x1 y1 OP) N R5n
    (ORD' K L HK HL up UE a b HE x1 y1 N ord_nat) (TOR' K L HK HL up UE a b HE x1 y1 N tor_nat) (X, f0) (f0, Y) on_R never_R) as (s & US & E).
  rewrite Z2Nat.id in E by lia.
  assert (CR : Some (((X, f0) : L), fopp ((f0, Y) : L)) = epoint conj R). { destruct GR as (_ & G). rewrite G. reflexivity. }
  assert (CU : forall x, conj (up x) = up x) by (intros; apply (conj_low M HM v)).
  set (f := miller L (up a) N (epoint up P) R) in *.
  assert (CF : miller L (up a) N (Some (up x1, up y1)) (Some (((X, f0) : L), fopp ((f0, Y) : L))) = conj f).
  { unfold f. rewrite CR. rewrite (e_miller L L HL HL conj (conj_embedding M HM v) (up a) (up b) EL G1 (G2 K M h v a b) S1 S2 D) by (auto using G1P).
    rewrite CU. cbn [epoint]. rewrite !CU. reflexivity. }
  rewrite CF in E.
  assert (NF : f <> f0). { unfold f. apply (mil_nz L HL (up a) (up b) EL G1 (G2 K M h v a b) S1 S2 D); auto using G1P. }
  assert (CN : exists c : K, c <> f0 /\ fmul s (net_const L (up a) (up x1) (up y1) N) = up c).
  { pose proof (net_const_nz K HK a b HE x1 y1 OP N R5n ord_nat) as NN.
    assert (U : net_const L (up a) (up x1) (up y1) N = up (net_const K a x1 y1 N)).
    { unfold net_const. pose proof (up_an K L HK HL up UE a b HE x1 y1 OP N R5n ord_nat) as UA. rewrite <- !UA by (pose proof R5n; lia).
      assert (NZ : an K a x1 y1 (N - 2) <> f0) by (apply (an_nz K HK a b HE x1 y1 OP N R5n ord_nat); pose proof R5n; lia).
      rewrite !(e_mul K L up UE), (e_div K L HK HL up UE) by auto. rewrite !(e_mul K L up UE), (e_f2 K L up UE). reflexivity. }
    rewrite U. destruct US as [-> | ->].
    - exists (net_const K a x1 y1 N). split; auto. ring.
    - exists (fopp (net_const K a x1 y1 N)). split; [apply (f_opp_nz K HK); auto | ]. rewrite (e_opp K L HK HL up UE). ring. }
  destruct CN as (c & NC & EC). rewrite EC in E.
  assert (NM : exists n : M, n <> f0 /\ fmul f (conj f) = low M v n).
  { exists (qnorm M v f). assert (Q : fmul f (conj f) = low M v (qnorm M v f)).
    { unfold low, qconj, qnorm. cbn. unfold qmul. cbn [fst snd]. f_equal; ring. }
    split; auto. intros F. assert (CNZ : conj f <> f0) by (apply (e_nz L L HL HL conj (conj_embedding M HM v)); auto).
    apply (f_mul_nz L HL f (conj f) NF CNZ). rewrite Q, F. apply (em_0 _ _ _ (low_embedding M HM v)). }
  destruct NM as (n & Nn & En).
  exists (fdiv (h c) n). split; [apply (div_nz M HM); auto; apply (e_nz K M HK HM h Hh); auto | ].
  assert (LN := low_nz M HM v Hv n Nn).
  assert (CNZ : conj f <> f0) by (apply (e_nz L L HL HL conj (conj_embedding M HM v)); auto).
  apply (f_cancel L HL (fmul (conj f) (low M v n))); [apply (f_mul_nz L HL); auto | ].
  transitivity (fmul (fmul (W (r + 1)%Z) (conj f)) (low M v n)); [ring | ]. rewrite E.
  transitivity (fmul (low M v (fmul (fdiv (h c) n) n)) (fmul f (conj f))); [ | rewrite (em_mul _ _ _ (low_embedding M HM v)); ring].
  rewrite En. replace (fmul (fdiv (h c) n) n) with (h c) by (field; auto). reflexivity.
Qed.
End S.
