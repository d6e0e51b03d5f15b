(** The Shipsey-Stange method of types A and A1 computes the same pairing as
    the other methods. *)
From Coq Require Import ZArith List Bool Lia Ring Field Znumtheory.
From Verif.Base Require Import Outcome Array Algebra Slots Gmp.
From Verif.Spec Require Import Curve Tate Quadratic Twist FiniteField PairingValue.
From Verif.Model Require Import GenericPow Curve Lucas Pairing PairingA PairingA1 Miller EllNet.
From Verif.Proofs Require Import PowFacts FieldFacts SlotFacts QuadFacts CurveGroup CurveFacts LineAlgebra TateFacts Bilinear BilinearZ Embed Frobenius Twisted
  LucasFacts ArrayFacts PairingAFacts PairingAApi MillerFacts TwistedValue PairingA1Facts NetFacts NetLoop NetTwist.
From Verif.Model Require Import Pairing.

Lemma put_ok : forall {A} (l : list A) i x, (i < length l)%nat -> exists l', put l i x = Ok l' /\ length l' = length l /\
  (forall k, k <> i -> nth_error l' k = nth_error l k) /\ nth_error l' i = Some x.
Proof.
  intros A l i x H. exists (firstn i l ++ x :: skipn (S i) l). unfold put. destruct (Nat.ltb_spec i (length l)); [ | lia].
  assert (LF : length (firstn i l) = i) by (rewrite firstn_length; lia). repeat split.
  - rewrite app_length, LF. cbn [length]. rewrite skipn_length. lia.
  - intros k Hk. destruct (Nat.lt_ge_cases k i).
    + rewrite nth_error_app1 by lia. rewrite <- (firstn_skipn i l) at 2. rewrite nth_error_app1 by lia. reflexivity.
    + rewrite nth_error_app2 by lia. rewrite LF. destruct (k - i)%nat as [ | n] eqn:E; [lia | ]. cbn [nth_error].
      rewrite <- (firstn_skipn (S i) l) at 2. rewrite nth_error_app2; rewrite firstn_length; [ | lia]. f_equal. lia.
  - rewrite nth_error_app2 by lia. rewrite LF, Nat.sub_diag. reflexivity.
Qed.

Section A.
Variable K : fld.
Variables p r l : Z.
Hypothesis TA : type_a1 K p r l.
Hypothesis R5 : (5 <= r)%Z.
Let Pp := t1_p _ _ _ _ TA.
Let HK := t1_field _ _ _ _ TA.
Let R3 := t1_n _ _ _ _ TA.
Let RO := t1_odd _ _ _ _ TA.
Add Field KFna : (fl_field K HK).
Local Notation "0" := f0. Local Notation "1" := f1.
Local Notation "x + y" := (fadd x y). Local Notation "x - y" := (fsub x y). Local Notation "x * y" := (fmul x y). Local Notation "- x" := (fopp x).
Local Notation "x / y" := (fdiv x y).
Local Notation v := (fopp f1 : K).
Local Notation L := (Quad K v).
Local Notation idh := (idh K).
Local Notation onK := (on_curve K f1 f0).
Local Notation val := (type_a_value K p r).
Let VN := vns1 K p r l TA.
Let HL : fld_laws L := Quad_laws K HK v VN.
Add Field LFna : (fl_field L HL).
Let EK := ell1 K p r l TA.
Let C2 := proj1 EK.
Local Notation up := (Twisted.up K K idh v).
Let UE : embedding K L up := up_embedding K K HK idh (idE K) v.
Variable j : K.
Lemma v_nz' : v <> 0. Proof. apply (f_opp_nz K HK). apply (f_1_neq_0 K HK). Qed.
Lemma div_v : forall x : K, x / v = - x. Proof. intros. pose proof v_nz'. field. auto. Qed.
Lemma div_vv : forall x : K, x / (v * v) = x.
Proof. intros. pose proof (f_1_neq_0 K HK). replace (v * v) with (1 : K) by ring. field. auto. Qed.
Ltac qn := cbn; unfold qmul, qinv, qnorm; cbn [fst snd].

Section PQ.
Variables x y x2 y2 : K.
Local Notation P := (Some (x, y)).
Local Notation Q := (Some (x2, y2)).
Hypothesis OP : onK P.
Hypothesis EX : exact_order K f1 r P.
Hypothesis OQ : onK Q.
Local Notation X := (- x2).
Local Notation Y := y2.
Local Notation xq := ((X, 0) : L).
Local Notation yq := ((0, Y) : L).
Lemma tw_form : twist K v Q = Some (xq, yq).
Proof. cbn [twist]. rewrite div_v, div_vv. reflexivity. Qed.
Lemma GRn : G2 K K idh v f1 f0 (Some (xq, yq)).
Proof. rewrite <- tw_form. apply (twist_G2 K K HK idh v VN f1 f0). apply (twin K p r l TA). auto. Qed.
Local Notation N := (Z.to_nat r).
Local Notation W := (bz L (up f1) (up x) (up y) N xq yq).
Lemma rN : Z.of_nat N = r. Proof. lia. Qed.
Let R5' := R5n r R5.
Let ORD := ord_nat K f1 r R5 x y EX.
Let TOR := tor_nat K f1 r R5 x y EX.
Let NR := never_R K K HK HK idh (idE K) v VN f1 f0 EK r R5 RO x y OP EX X Y GRn.
Let OR := on_R K K idh v f1 f0 X Y GRn.
Let OPL := OP' K L up UE f1 f0 x y OP.
Let ORDL := ORD' K L HK HL up UE f1 f0 EK x y N ORD.
Let TORL := TOR' K L HK HL up UE f1 f0 EK x y N TOR.
Let EL := Twisted.HEL K K HK HK idh (idE K) v VN f1 f0 EK.
Lemma A_nz : x + x2 <> 0.
Proof.
  intros E. pose proof (xq_nz L HL (up f1) (up f0) EL _ _ OPL N R5' ORDL TORL xq yq OR NR) as H. apply H.
  unfold Twisted.up, PairingAFacts.idh, low. qn. f_equal; [transitivity (x + x2); [ring | auto] | ring].
Qed.
Lemma yy_nz' : double K y <> 0.
Proof. intros E. apply (yy_nz K HK f1 f0 EK x y N R5' ORD). rewrite <- E. unfold double, f2. ring. Qed.
Lemma start_ok : exists B d2, a_net_start K x y x2 y2 = Ok (B, finv (x + x2), d2) /\
  fmul (B : L) (dd L (up x) (up y) xq yq) = f1 /\
  (d2 : L) = fsub (fadd (fmul (f2 L) (up x)) xq) (fmul (fdiv (fsub (up y) yq) (fsub (up x) xq)) (fdiv (fsub (up y) yq) (fsub (up x) xq))).
Proof.
  pose proof A_nz as NA. unfold a_net_start.
  pose proof (dd_nz L HL (up f1) (up f0) EL _ _ OPL N R5' ORDL TORL xq yq OR NR) as DN.
  set (d1' := fmul ((y, y2) : Fq2 K) (y, y2)). set (e := fopp ((fst d1' - (double K x - x2) * ((x + x2) * (x + x2)), snd d1') : Fq2 K)).
  assert (ED : (e : L) = dd L (up x) (up y) xq yq).
  { unfold e, d1', dd, f2, double, Twisted.up, PairingAFacts.idh, low. qn. f_equal; ring. }
  assert (EI : @finvert (Fq2 K) e = Ok (finv e)) by (apply (finvert_ok L HL); rewrite ED; auto). rewrite EI. cbn [bind].
  rewrite (finvert_ok K HK) by auto. cbn [bind]. eexists. eexists. split; [reflexivity | ]. split.
  - rewrite <- ED. change (fmul (finv (e : L)) (e : L) = f1). field. rewrite ED. auto.
  - assert (XN : fsub (up x) xq = up (x + x2)). { unfold Twisted.up, PairingAFacts.idh, low. qn. f_equal; ring. }
    rewrite XN. assert (ND : up (x + x2) <> f0) by (apply (e_nz K L HK HL up UE); auto).
    assert (DV : fdiv (fsub (up y) yq) (up (x + x2)) = fopp ((- (y * finv (x + x2)), y2 * finv (x + x2)) : L)).
    { apply (f_cancel L HL (up (x + x2))); auto. transitivity (fsub (up y) yq); [field; auto | ].
      unfold Twisted.up, PairingAFacts.idh, low. qn. f_equal; field; auto. }
    rewrite DV. set (i := finv (x + x2)). clearbody i. unfold f2, double, Twisted.up, PairingAFacts.idh, low. qn. f_equal; ring.
Qed.
Local Notation loop B d2 := (net_loop K r (Fq2 K) (a_scal K) (a_scal K (finv (x + x2))) B (start_bit r) (finv (double K y)) (first_c_a K x y) (first_d (Fq2 K) d2)).
Lemma loop_ok : forall B d2, fmul (B : L) (dd L (up x) (up y) xq yq) = f1 ->
  (d2 : L) = fsub (fadd (fmul (f2 L) (up x)) xq) (fmul (fdiv (fsub (up y) yq) (fsub (up x) xq)) (fdiv (fsub (up y) yq) (fsub (up x) xq))) ->
  Twisted.sim K v (d1 (snd (loop B d2))) (miller L (up f1) N (epoint up P) (twist K v Q)).
Proof.
  intros B d2 HB HD. pose proof A_nz as NA.
  assert (HC : finv (double K y) * (f2 K * y) = 1).
  { replace (f2 K * y) with (double K y) by (unfold double, f2; ring). field. apply yy_nz'. }
  assert (SC : forall c (u : L), a_scal K c u = fmul (up c) u).
  { intros c [u1 u2]. unfold a_scal, Twisted.up, PairingAFacts.idh, low. qn. f_equal; ring. }
  assert (MA : forall u : L, fmul (a_scal K (finv (x + x2)) u) (fsub (up x) xq) = u).
  { intros [u1 u2]. unfold a_scal, Twisted.up, PairingAFacts.idh, low. qn. f_equal; field; auto. }
  pose proof (net_loop_last K L HK HL up UE f1 f0 EK x y OP N R5' ORD TOR (finv (double K y)) HC xq yq OR NR (a_scal K) SC
    (a_scal K (finv (x + x2))) MA B HB (first_c_a K x y) d2 (first_c_a_inv K HK f1 f0 EK x y OP N R5' ORD eq_refl eq_refl) HD) as H.
  rewrite rN in H. change (Fq2 K) with L. destruct (net_loop K r L (a_scal K) (a_scal K (finv (x + x2))) B (start_bit r) (finv (double K y)) (first_c_a K x y) (first_d L d2)) as [c' d'].
  destruct H as (_ & H). cbn [snd]. rewrite H, tw_form.
  apply (net_sim K K HK HK idh (idE K) v VN f1 f0 EK r R5 RO x y OP EX X Y GRn).
Qed.
Lemma fin_net : forall f : L, Twisted.sim K v f (miller L (up f1) N (epoint up P) (twist K v Q)) -> a_tateexp K v (Ok j) f l = Ok (val P Q).
Proof.
  intros f F. assert (NM : miller L (up f1) N (epoint up P) (twist K v Q) <> f0).
  { rewrite tw_form. assert (RP : (0 < r)%Z) by lia.
    apply (mil_nz' K K HK HK idh (idE K) v VN f1 f0 EK r RP RO P OP (proj1 EX) X Y GRn). }
  rewrite (tateexp_correct K HK p 1 Pp (p2 K p r l TA) Z.le_0_1 (ho1 K p r l TA) v VN f j l C2 (sim_nz K HK v VN _ _ F NM) (l_pos K p r l TA) (l_even K p r l TA)).
  f_equal. rewrite <- (ee1 K p r l TA).
  rewrite (fin_sim K HK v VN r R3 p 1 Pp (p2 K p r l TA) Z.le_0_1 (ho1 K p r l TA) _ l (rk1 K p r l TA) (ee1 K p r l TA) f _ F). reflexivity.
Qed.
Theorem ellnet_correct : a_pairing_ellnet K (Ok j) r l P Q = Ok (val P Q).
Proof.
  unfold a_pairing_ellnet. cbn [coords bind]. destruct start_ok as (B & d2 & -> & HB & HD). cbn [bind].
  rewrite (finvert_ok K HK) by apply yy_nz'. cbn [bind]. pose proof (loop_ok B d2 HB HD) as H. destruct (loop B d2) as [c d]. cbn [snd] in H. apply fin_net. exact H.
Qed.
End PQ.

(** ** Preprocessing *)
Lemma pp_same : forall m k C c sq, (k + m < length sq)%nat ->
  exists sq', net_pp_loop K r m k C c sq = Ok sq' /\ length sq' = length sq /\ (forall i, (i < k)%nat -> nth_error sq' i = nth_error sq i) /\
    forall A B d, net_pp_eval K r m k A B sq' d = Ok (snd (net_loop K r (Fq2 K) (a_scal K) (a_scal K A) B m C c d)).
Proof.
  induction m as [ | m IH]; intros k C c sq H; cbn [net_pp_loop].
  - destruct (put_ok sq k (Some (keep K c)) ltac:(lia)) as (s1 & E & LS & SAME & AT). rewrite E. cbn [bind].
    exists s1. repeat split; auto. { intros i Hi. apply SAME. lia. }
    intros A B d. cbn [net_pp_eval]. unfold get. rewrite AT. cbn [bind]. reflexivity.
  - destruct (put_ok sq k (Some (keep K c)) ltac:(lia)) as (s1 & E & LS & SAME & AT). rewrite E. cbn [bind].
    destruct (IH (S k) C (c_step K (mpz_tstbit r (Z.of_nat (S m))) C (keep K c) (rest K c)) s1 ltac:(lia)) as (s2 & E2 & L2 & SAME2 & EV).
    exists s2. split; [exact E2 | ]. split; [lia | ]. split.
    + intros i Hi. rewrite SAME2 by lia. apply SAME. lia.
    + intros A B d. cbn [net_pp_eval net_loop]. unfold get. rewrite SAME2, AT by lia. cbn [bind]. apply EV.
Qed.
Theorem ellnet_pp_correct : forall P, onK P -> exact_order K f1 r P ->
  exists t, a_pairing_ellnet_pp_init K r P = Ok t /\ length (seq K t) = Z.to_nat (sizeinbase2 r) /\
    forall Q, onK Q -> Q <> None -> a_pairing_ellnet_pp_apply K (Ok j) r l t Q = Ok (val P Q).
Proof.
  intros [[x y] | ] OP EX.
  2:{ destruct EX as (_ & E). destruct (E 1%Z ltac:(lia)). reflexivity. }
  unfold a_pairing_ellnet_pp_init. cbn [coords bind]. rewrite (finvert_ok K HK) by (eapply yy_nz'; eauto). cbn [bind].
  destruct (pp_same (start_bit r) 0 (finv (double K y)) (first_c_a K x y) (repeat None (Z.to_nat (sizeinbase2 r)))) as (sq & E & LS & _ & EV).
  { rewrite repeat_length. pose proof (start_log r R3) as SL. unfold sizeinbase2. destruct (Z.eqb_spec r 0); [lia | ]. rewrite Z.abs_eq by lia. lia. }
  rewrite E. cbn [bind]. eexists. split; [reflexivity | ]. cbn [seq px py]. split; [rewrite LS, repeat_length; reflexivity | ].
  intros [[x2 y2] | ] OQ NQ; [ | congruence]. unfold a_pairing_ellnet_pp_apply. cbn [coords bind px py seq].
  destruct (start_ok x y x2 y2 OP EX OQ) as (B & d2 & -> & HB & HD). cbn [bind]. rewrite EV. cbn [bind].
  apply (fin_net x y x2 y2 OP EX OQ). apply (loop_ok x y x2 y2 OP EX OQ B d2 HB HD).
Qed.
End A.
