(** Correctness of Montgomery multiplication and reduction at limb level. *)
From Coq Require Import ZArith List Bool Lia.
From Verif.Base Require Import Outcome Gmp Array.
From Verif.Model Require Import FieldInt NaiveFp FastFp FasterFp MontFp.
From Verif.Proofs Require Import GmpFacts ArrayFacts.
Import ListNotations.
Open Scope Z_scope.

(** What field_init_mont_fp establishes. *)
Record mont_ok (f : montdata) : Prop := {
  mo_p : 1 < order (base f);
  mo_odd : Z.odd (order (base f)) = true;
  mo_t : (0 < nlimbs (base f))%nat;
  mo_lt : order (base f) < Bpow (nlimbs (base f));
  mo_prime : primelimbs (base f) = limbs (nlimbs (base f)) (order (base f));
  mo_neg : exists k, negpinv f * order (base f) + 1 = k * B;
  mo_negr : 0 <= negpinv f < B;
  mo_R : Rm f = limbs (nlimbs (base f)) (Bpow (nlimbs (base f)) mod order (base f));
  mo_R3 : R3m f = limbs (nlimbs (base f)) ((Bpow (nlimbs (base f)) mod order (base f)) ^ 3 mod order (base f))
}.

(** The carry chain of mont_mul is lossless when the top limb of p is not
    2^64 - 1. *)
Definition top_ok (f : montdata) : Prop :=
  order (base f) * (B + 1) <= Bpow (nlimbs (base f)) * B.

Section S.
Variable f : montdata.
Variable junk : nat -> list Z.
Hypothesis HF : mont_ok f.
Let p := order (base f).
Let t := nlimbs (base f).
Let P := primelimbs (base f).

Lemma P_wf : wf t P.
Proof. unfold P, t. rewrite (mo_prime _ HF). apply limbs_wf. Qed.

Lemma P_val : val P = p.
Proof.
  unfold P, p. rewrite (mo_prime _ HF). apply val_limbs_small.
  pose proof (mo_lt _ HF). pose proof (mo_p _ HF). lia.
Qed.

Lemma p_pos : 1 < p. Proof. exact (mo_p _ HF). Qed.
Lemma p_lt : p < Bpow t. Proof. exact (mo_lt _ HF). Qed.

Lemma u_zero : forall x u, u = wrap (x * negpinv f) -> exists k, x + u * p = k * B.
Proof.
  intros x u ->. unfold wrap. destruct (mo_neg _ HF) as [k Hk]. fold p in Hk.
  exists (x * k - (x * negpinv f / B) * p).
  pose proof (Z.div_mod (x * negpinv f) B ltac:(pose proof B_pos; lia)) as D.
  replace ((x * negpinv f) mod B) with (x * negpinv f - B * (x * negpinv f / B)) by lia.
  replace (x + (x * negpinv f - B * (x * negpinv f / B)) * p)
    with (x * (negpinv f * p + 1) - (x * negpinv f / B) * p * B) by ring.
  rewrite Hk. ring.
Qed.

Lemma addmul_split : forall r a x,
  val (fst (mpn_addmul_1 r a t x)) + Bpow t * snd (mpn_addmul_1 r a t x) = val r + val a * x.
Proof.
  intros. unfold mpn_addmul_1. simpl. rewrite val_limbs.
  pose proof (Z.div_mod (val r + val a * x) (Bpow t) ltac:(pose proof (Bpow_pos t); lia)). lia.
Qed.

Lemma addmul_carry : forall r a x, wf t r -> wf t a -> 0 <= x < B ->
  0 <= snd (mpn_addmul_1 r a t x) < B.
Proof.
  intros r a x Hr Ha Hx. unfold mpn_addmul_1. simpl.
  pose proof (val_range _ _ Hr). pose proof (val_range _ _ Ha). pose proof (Bpow_pos t).
  split; [apply Z.div_pos; nia | apply Z.div_lt_upper_bound; nia].
Qed.

(** Value of the t+1 limb window. *)
Definition win (w : list Z) (h : Z) : Z := val w + Bpow t * h.

Lemma carry_detect : forall v c, 0 <= v < B -> 0 <= c < B ->
  wrap (v + c) + B * (if wrap (v + c) <? v then 1 else 0) = v + c.
Proof.
  intros v c Hv Hc. unfold wrap. pose proof B_pos.
  destruct (Z_lt_dec (v + c) B).
  - rewrite Z.mod_small by lia.
    destruct (v + c <? v) eqn:E; [apply Z.ltb_lt in E|]; lia.
  - assert (E : (v + c) mod B = v + c - B).
    { symmetry. apply Z.mod_unique with 1; lia. }
    rewrite E. destruct (v + c - B <? v) eqn:E2; [|apply Z.ltb_ge in E2]; lia.
Qed.

(** One pass of the loop body on the window. *)
Lemma body_arith : forall w h b ai u w1 c1 v w3 c2 h' ov zi b0,
  wf t w -> 0 <= h <= 1 -> wf t b -> 0 <= ai < B ->
  b0 = val b mod B -> zi = val w mod B ->
  val b < p -> p + B * val b <= Bpow t * B ->
  win w h < p + val b ->
  u = wrap (wrap (zi + wrap (ai * b0)) * negpinv f) ->
  (w1, c1) = mpn_addmul_1 w b t ai ->
  v = wrap (h + c1) ->
  (w3, c2) = mpn_addmul_1 w1 P t u ->
  h' = wrap (v + c2) -> ov = (if h' <? v then 1 else 0) ->
  win w3 (h' + B * ov) = win w h + ai * val b + u * p /\
  (exists k, win w h + ai * val b + u * p = k * B) /\
  0 <= u < B /\ 0 <= h' < B /\ 0 <= ov <= 1.
Proof.
  intros w h b ai u w1 c1 v w3 c2 h' ov zi b0
    Hw Hh Hb Hai Hb0 Hzi Hbp Hno HW Hu E1 Hv E2 Hh' Hov.
  pose proof B_pos as PB. pose proof (Bpow_pos t) as PT.
  pose proof (addmul_split w b ai) as S1. pose proof (addmul_carry w b ai Hw Hb Hai) as C1.
  rewrite <- E1 in S1, C1. simpl in S1, C1.
  assert (Hu' : 0 <= u < B) by (subst u; apply Z.mod_pos_bound; lia).
  assert (W1 : wf t w1) by (unfold mpn_addmul_1 in E1; inversion E1; apply limbs_wf).
  pose proof (addmul_split w1 P u) as S2. pose proof (addmul_carry w1 P u W1 P_wf Hu') as C2.
  rewrite <- E2 in S2, C2. simpl in S2, C2. rewrite P_val in S2.
  pose proof (val_range _ _ Hw) as Rw. pose proof (val_range _ _ W1) as Rw1.
  pose proof (val_range _ _ Hb) as Rb.
  unfold win in *.
  assert (Hhc : h + c1 < B).
  { assert (val w1 + Bpow t * (h + c1) < p + B * val b) by nia. nia. }
  assert (Hv' : v = h + c1) by (subst v; unfold wrap; apply Z.mod_small; lia).
  assert (Hov' : h' + B * ov = v + c2).
  { subst h' ov. apply carry_detect; lia. }
  repeat split.
  - rewrite Hov', Hv'. nia.
  - (* divisibility by B *)
    destruct (u_zero (wrap (zi + wrap (ai * b0))) u Hu) as [k Hk].
    assert (exists k1, val w = zi + B * k1) as [k1 K1].
    { exists (val w / B). rewrite Hzi. pose proof (Z.div_mod (val w) B). lia. }
    assert (exists k2, val b = b0 + B * k2) as [k2 K2].
    { exists (val b / B). rewrite Hb0. pose proof (Z.div_mod (val b) B). lia. }
    assert (exists k3, Bpow t = B * k3) as [k3 K3].
    { pose proof (mo_t _ HF). fold t in H. destruct t; [lia|]. rewrite Bpow_S. eauto. }
    assert (exists k4, wrap (zi + wrap (ai * b0)) = zi + ai * b0 + B * k4) as [k4 K4].
    { unfold wrap. exists (- ((zi + (ai * b0) mod B) / B) - (ai * b0) / B).
      pose proof (Z.div_mod (ai * b0) B ltac:(lia)).
      pose proof (Z.div_mod (zi + (ai * b0) mod B) B ltac:(lia)). lia. }
    exists (k1 + k3 * h + ai * k2 + k - k4).
    rewrite K1, K2, K3. rewrite K4 in Hk. 
    replace (zi + B * k1 + B * k3 * h + ai * (b0 + B * k2) + u * p)
      with ((zi + ai * b0 + B * k4 + u * p) + B * (k1 + k3 * h + ai * k2 - k4)) by ring.
    rewrite Hk. ring.
  - lia.
  - lia.
  - subst h'. apply Z.mod_pos_bound; lia.
  - subst h'. apply Z.mod_pos_bound; lia.
  - subst ov. destruct (h' <? v); lia.
  - subst ov. destruct (h' <? v); lia.
Qed.

Lemma firstn_S_val : forall a i ai, nth_error a i = Some ai ->
  val (firstn (S i) a) = val (firstn i a) + Bpow i * ai.
Proof.
  induction a as [|x a IH]; intros [|i] ai H; simpl in H; try discriminate.
  - inversion H; subst. cbn [firstn val]. rewrite Bpow_0. lia.
  - change (firstn (S (S i)) (x :: a)) with (x :: firstn (S i) a).
    change (firstn (S i) (x :: a)) with (x :: firstn i a).
    cbn [val]. rewrite (IH i ai H), Bpow_S. lia.
Qed.

Lemma wf_last : forall n w, wf (S n) w -> exists w' x, w = w' ++ [x] /\ wf n w' /\ 0 <= x < B.
Proof.
  intros n w [Hl Hr].
  destruct (exists_last (l := w)) as [w' [x E]]; [intro; subst; discriminate|].
  exists w', x. subst. rewrite app_length in Hl. simpl in Hl.
  apply Forall_app in Hr. destruct Hr as [H1 H2]. inversion H2; subst.
  repeat split; auto; lia.
Qed.

(** If the window value is a multiple of B, shifting it by one limb divides
    its value by B. *)
Lemma window_shift : forall w h ov k,
  wf t w -> 0 <= h < B -> win w (h + B * ov) = k * B ->
  exists w', w = 0 :: w' /\ wf t (w' ++ [h]) /\ win (w' ++ [h]) ov = k.
Proof.
  intros w h ov k Hw Hh E. pose proof (mo_t _ HF) as Ht. fold t in Ht.
  unfold win in *. destruct t as [|t'] eqn:Et; [lia|].
  destruct (wf_S_inv _ _ Hw) as [x [w' [-> [Hx Hw']]]].
  rewrite Bpow_S in E. simpl val in E. pose proof B_pos.
  assert (x = 0).
  { assert (x = B * (k - val w' - Bpow t' * (h + B * ov))) by nia.
    assert (-1 < k - val w' - Bpow t' * (h + B * ov) < 1) by nia. nia. }
  subst x. exists w'. split; auto. split.
  - replace (S t') with (t' + 1)%nat by lia. apply wf_app; auto.
    split; simpl; auto.
  - rewrite val_app. destruct Hw' as [-> _]. cbn [val]. rewrite Bpow_S. nia.
Qed.

Lemma get_head : forall (lo w r : list Z) i x w', length lo = i -> w = x :: w' ->
  get (lo ++ w ++ r) i = Ok x.
Proof. intros. subst w. simpl. apply get_app; auto. Qed.

Lemma t_S : exists t', t = S t'.
Proof. pose proof (mo_t _ HF). fold t in H. destruct t; [lia | eauto]. Qed.

Lemma get_first : forall b, wf t b -> exists b' b0, b = b0 :: b' /\ b0 = val b mod B.
Proof.
  intros b Hb. destruct t_S as [t' E]. rewrite E in Hb.
  destruct (wf_S_inv _ _ Hb) as [x [b' [-> [Hx Hb']]]].
  exists b', x. split; auto. simpl. rewrite Z.mul_comm, Z.mod_add, Z.mod_small; auto; lia.
Qed.

Lemma mont_mul_loop_spec : forall n i a b lo w h rest,
  wf t a -> wf t b -> val b < p -> p + B * val b <= Bpow t * B ->
  length lo = i -> length rest = n -> (i + n = t)%nat ->
  wf t w -> 0 <= h <= 1 -> win w h < p + val b ->
  (exists k, Bpow i * win w h = val (firstn i a) * val b + k * p) ->
  exists lo' w' h',
    mont_mul_loop f n i a b (lo ++ w ++ h :: rest) = Ok (lo' ++ w' ++ [h']) /\
    length lo' = t /\ wf t w' /\ 0 <= h' <= 1 /\ win w' h' < p + val b /\
    (exists k, Bpow t * win w' h' = val a * val b + k * p).
Proof.
  induction n; intros i a b lo w h rest Ha Hb Hbp Hno Hlo Hrest Hit Hw Hh HW Hk.
  - destruct rest; [|discriminate]. exists lo, w, h. simpl.
    repeat split; try tauto; try lia; try apply Hw.
    replace i with t in Hk by lia.
    destruct Ha as [Hl _]. rewrite firstn_all2 in Hk by lia. exact Hk.
  - destruct rest as [|x rest]; [discriminate|].
    destruct (get_first w Hw) as [wt [zi [Ew Hzi]]].
    destruct (get_first b Hb) as [bt [b0 [Eb Hb0]]].
    assert (exists ai, nth_error a i = Some ai) as [ai Hai].
    { destruct (nth_error a i) eqn:E; eauto. apply nth_error_None in E. destruct Ha. lia. }
    assert (Rai : 0 <= ai < B).
    { destruct Ha as [_ Ha]. apply (Forall_forall (fun x => 0 <= x < B) a); auto.
      eapply nth_error_In; eauto. }
    cbn [mont_mul_loop].
    rewrite (get_head lo w (h :: x :: rest) i zi wt Hlo Ew). cbn [bind].
    unfold get at 1. rewrite Hai. cbn [bind].
    replace (get b 0) with (Ok b0) by (rewrite Eb; reflexivity). cbn [bind].
    rewrite slice_app by (auto; destruct Hw; auto). cbn [bind].
    destruct (mpn_addmul_1 w b (nlimbs (base f)) ai) as [w1 c1] eqn:E1.
    assert (W1 : wf t w1) by (unfold mpn_addmul_1 in E1; inversion E1; apply limbs_wf).
    rewrite splice_app by (auto; destruct Hw; destruct W1; congruence). cbn [bind].
    assert (L1 : length (lo ++ w1) = (nlimbs (base f) + i)%nat).
    { rewrite app_length. destruct W1 as [-> _]. unfold t. lia. }
    rewrite (app_assoc lo w1). rewrite get_app by exact L1. cbn [bind].
    rewrite put_app by exact L1. cbn [bind].
    rewrite <- app_assoc. rewrite slice_app by (auto; destruct W1; auto). cbn [bind].
    set (u := wrap (wrap (zi + wrap (ai * b0)) * negpinv f)) in *.
    destruct (mpn_addmul_1 w1 (primelimbs (base f)) (nlimbs (base f)) u) as [w3 c2] eqn:E2.
    assert (W3 : wf t w3) by (unfold mpn_addmul_1 in E2; inversion E2; apply limbs_wf).
    rewrite splice_app by (auto; destruct W1; destruct W3; congruence). cbn [bind].
    assert (L3 : length (lo ++ w3) = (nlimbs (base f) + i)%nat).
    { rewrite app_length. destruct W3 as [-> _]. unfold t. lia. }
    rewrite (app_assoc lo w3). rewrite put_app by exact L3. cbn [bind].
    set (v := wrap (h + c1)) in *. set (h' := wrap (v + c2)) in *.
    change ((lo ++ w3) ++ h' :: x :: rest) with ((lo ++ w3) ++ [h'] ++ x :: rest).
    rewrite app_assoc.
    assert (L4 : length ((lo ++ w3) ++ [h']) = (nlimbs (base f) + i + 1)%nat).
    { rewrite app_length. simpl. lia. }
    rewrite put_app by exact L4. cbn [bind].
    set (ov := if h' <? v then 1 else 0) in *.
    destruct (body_arith w h b ai u w1 c1 v w3 c2 h' ov zi b0) as [A1 [[k A2] [A3 [A4 A5]]]]; auto.
    rewrite A2 in A1.
    destruct (window_shift w3 h' ov k W3 A4 A1) as [w' [Ew3 [Ww' Wk]]].
    replace (((lo ++ w3) ++ [h']) ++ ov :: rest)
      with ((lo ++ [0]) ++ (w' ++ [h']) ++ ov :: rest)
      by (rewrite Ew3, <- !app_assoc; reflexivity).
    eapply IHn; auto.
    + rewrite app_length. simpl. lia.
    + lia.
    + rewrite Wk. pose proof B_pos. pose proof (val_range _ _ Hb). pose proof p_pos. nia.
    + destruct Hk as [k0 Hk0]. exists (k0 + Bpow i * u).
      rewrite Wk, (firstn_S_val a i ai Hai), Bpow_S.
      replace (B * Bpow i * k) with (Bpow i * (k * B)) by ring. rewrite <- A2.
      replace (Bpow i * (win w h + ai * val b + u * p))
        with (Bpow i * win w h + Bpow i * (ai * val b + u * p)) by ring.
      rewrite Hk0. ring.
Qed.

(** Final conditional subtraction. *)
Lemma final_sub : forall w h bound, wf t w -> 0 <= h <= 1 -> win w h < p + bound -> bound <= p ->
  let r := if negb (h =? 0) || (mpn_cmp w P >=? 0) then fst (mpn_sub_n w P t) else w in
  wf t r /\ 0 <= val r < p /\ exists k, win w h = val r + k * p.
Proof.
  intros w h bound Hw Hh HW Hb. pose proof (val_range _ _ Hw). pose proof p_lt. pose proof p_pos.
  unfold win in HW. cbv zeta. unfold mpn_cmp, mpn_sub_n. rewrite P_val.
  destruct (h =? 0) eqn:E0; simpl.
  - apply Z.eqb_eq in E0; subst h. rewrite Z.mul_0_r, Z.add_0_r in HW.
    destruct (Z.sgn (val w - p) >=? 0) eqn:E.
    + assert (p <= val w) by (destruct (Z.sgn_spec (val w - p)) as [[? S]|[[? S]|[? S]]]; rewrite S in E; simpl in E; try lia; discriminate).
      split; [apply limbs_wf|]. rewrite val_limbs_small by lia. split; [lia|].
      exists 1. unfold win. lia.
    + assert (val w < p) by (destruct (Z.sgn_spec (val w - p)) as [[? S]|[[? S]|[? S]]]; rewrite S in E; simpl in E; try discriminate; lia).
      split; auto. split; [lia|]. exists 0. unfold win. lia.
  - apply Z.eqb_neq in E0. assert (h = 1) by lia. subst h.
    rewrite Z.mul_1_r in HW.
    split; [apply limbs_wf|].
    assert (val (limbs t (val w - p)) = val w - p + Bpow t).
    { rewrite val_limbs. symmetry. apply Z.mod_unique with (-1); lia. }
    rewrite H2. split; [lia|]. exists 1. unfold win. lia.
Qed.

Lemma if_ok : forall A (c : bool) (x y : A), (if c then Ok x else Ok y) = Ok (if c then x else y).
Proof. intros; destruct c; reflexivity. Qed.

(** Montgomery multiplication, as long as no carry can be lost. *)
Lemma mont_mul_spec_gen : forall a b,
  (forall n, length (junk n) = n) ->
  wf t a -> wf t b -> val b < p -> p + B * val b <= Bpow t * B ->
  exists r, mont_mul f junk a b = Ok r /\ wf t r /\ 0 <= val r < p /\
            exists k, Bpow t * val r = val a * val b + k * p.
Proof.
  intros a b HJ Ha Hb Hbp Hno.
  destruct (get_first a Ha) as [a' [a0 [Ea Ha0]]].
  destruct (get_first b Hb) as [b' [b0 [Eb Hb0]]].
  unfold mont_mul. replace (get a 0) with (Ok a0) by (rewrite Ea; reflexivity). cbn [bind].
  replace (get b 0) with (Ok b0) by (rewrite Eb; reflexivity). cbn [bind].
  set (zj := junk (2 * nlimbs (base f) + 1)).
  assert (Lz : length zj = (2 * t + 1)%nat) by apply HJ.
  destruct t_S as [t' Et].
  (* split the junk array *)
  assert (exists j1 j2 j3 j4, zj = j1 ++ j2 :: j3 :: j4 /\ length j1 = t /\ length j4 = t')
    as [j1 [j2 [j3 [j4 [Ez [L1 L4]]]]]].
  { exists (firstn t zj). remember (skipn t zj) as s eqn:Es.
    assert (length s = (t + 1)%nat) by (subst s; rewrite skipn_length; lia).
    destruct s as [|j2 s]; [simpl in H; lia|]. destruct s as [|j3 j4]; [simpl in H; lia|].
    exists j2, j3, j4. rewrite Es, firstn_skipn. rewrite firstn_length. cbn [length] in H. split; [reflexivity|]. split; lia. }
  rewrite Ez.
  destruct (mpn_mul_1 b (nlimbs (base f)) a0) as [w v] eqn:E1.
  assert (W : wf t w) by (unfold mpn_mul_1 in E1; inversion E1; apply limbs_wf).
  change (j1 ++ j2 :: j3 :: j4) with ([] ++ j1 ++ j2 :: j3 :: j4).
  rewrite splice_app by (auto; destruct W; congruence). cbn [bind app].
  rewrite put_app by (destruct W; auto). cbn [bind].
  change (w ++ v :: j3 :: j4) with ([] ++ w ++ v :: j3 :: j4).
  rewrite slice_app by (auto; destruct W; auto). cbn [bind].
  set (u := wrap (wrap (a0 * b0) * negpinv f)) in *.
  destruct (mpn_addmul_1 w (primelimbs (base f)) (nlimbs (base f)) u) as [w3 c2] eqn:E2.
  assert (W3 : wf t w3) by (unfold mpn_addmul_1 in E2; inversion E2; apply limbs_wf).
  rewrite splice_app by (auto; destruct W; destruct W3; congruence). cbn [bind app].
  rewrite put_app by (destruct W3; auto). cbn [bind].
  set (h' := wrap (v + c2)) in *.
  change (w3 ++ h' :: j3 :: j4) with (w3 ++ [h'] ++ j3 :: j4). rewrite app_assoc.
  rewrite put_app by (rewrite app_length; destruct W3 as [-> _]; reflexivity). cbn [bind].
  set (ov := if h' <? v then 1 else 0) in *.
  (* the first pass is the loop body on a zero window *)
  set (w0 := limbs t 0).
  assert (V0 : val w0 = 0) by (unfold w0; rewrite val_limbs, Z.mod_0_l; auto; pose proof (Bpow_pos t); lia).
  assert (Ra0 : 0 <= a0 < B) by (rewrite Ha0; apply Z.mod_pos_bound, B_pos).
  assert (Hv : v = wrap (0 + v) /\ (w, v) = mpn_addmul_1 w0 b t a0).
  { unfold mpn_addmul_1. rewrite V0, !Z.add_0_l. unfold mpn_mul_1 in E1. fold t in E1. split.
    - inversion E1. unfold wrap. rewrite Z.mod_small; auto.
      pose proof (val_range _ _ Hb). pose proof (Bpow_pos t).
      split; [apply Z.div_pos; nia | apply Z.div_lt_upper_bound; nia].
    - symmetry. exact E1. }
  destruct Hv as [Hv HE].
  assert (X1 : 0 <= 0 <= 1) by lia.
  assert (X2 : 0 = val w0 mod B) by (rewrite V0; symmetry; apply Z.mod_0_l; pose proof B_pos; lia).
  assert (X3 : win w0 0 < p + val b)
    by (unfold win; rewrite V0; pose proof (val_range _ _ Hb); pose proof p_pos; lia).
  assert (X4 : u = wrap (wrap (0 + wrap (a0 * b0)) * negpinv f))
    by (unfold u; rewrite Z.add_0_l; unfold wrap; rewrite Z.mod_mod by (pose proof B_pos; lia); reflexivity).
  assert (X5 : wf t w0) by apply limbs_wf.
  destruct (body_arith w0 0 b a0 u w v v w3 c2 h' ov 0 b0) as [A1 [[k A2] [A3 [A4 A5]]]]; auto.
  rewrite A2 in A1.
  destruct (window_shift w3 h' ov k W3 A4 A1) as [w' [Ew3 [Ww' Wk]]].
  replace ((w3 ++ [h']) ++ ov :: j4) with ([0] ++ (w' ++ [h']) ++ ov :: j4)
    by (rewrite Ew3; rewrite <- !app_assoc; reflexivity).
  assert (Ht1 : (nlimbs (base f) - 1)%nat = t') by (fold t; lia). rewrite Ht1.
  destruct (mont_mul_loop_spec t' 1 a b [0] (w' ++ [h']) ov j4) as [lo [wf' [hf [EQ [HL [HW [Hh [Hb1 Hk]]]]]]]]; auto.
  { rewrite Wk. unfold win in A2. rewrite V0 in A2. pose proof (val_range _ _ Hb).
    pose proof p_pos. pose proof B_pos. nia. }
  { exists u. rewrite Wk. rewrite Ea. cbn [firstn val]. rewrite Z.mul_0_r, Z.add_0_r.
    unfold win in A2. rewrite V0 in A2. change (Bpow 1) with (B * 1). lia. }
  rewrite EQ. cbn [bind].
  replace (nlimbs (base f) * 2)%nat with (length (lo ++ wf'))
    by (rewrite app_length; destruct HW as [-> _]; unfold t in *; lia).
  rewrite (app_assoc lo). rewrite get_app by reflexivity. cbn [bind].
  rewrite <- app_assoc. rewrite slice_app by (auto; destruct HW; auto). cbn [bind].
  rewrite if_ok.
  destruct (final_sub wf' hf (val b) HW Hh Hb1 ltac:(lia)) as [F1 [F2 [k2 F3]]].
  eexists. split; [reflexivity|]. fold P t. split; auto. split; auto.
  destruct Hk as [k1 Hk1]. exists (k1 - Bpow t * k2).
  rewrite F3 in Hk1. unfold P, t in *.
  replace (Bpow (nlimbs (base f)) *
    val (if negb (hf =? 0) || (mpn_cmp wf' (primelimbs (base f)) >=? 0)
         then fst (mpn_sub_n wf' (primelimbs (base f)) (nlimbs (base f))) else wf'))
  with (val a * val b + k1 * p - Bpow (nlimbs (base f)) * k2 * p) by lia. ring.
Qed.

Lemma mont_mul_spec : forall a b,
  top_ok f -> (forall n, length (junk n) = n) ->
  wf t a -> wf t b -> val b < p ->
  exists r, mont_mul f junk a b = Ok r /\ wf t r /\ 0 <= val r < p /\
            exists k, Bpow t * val r = val a * val b + k * p.
Proof.
  intros a b HT HJ Ha Hb Hbp. apply mont_mul_spec_gen; auto.
  unfold top_ok in HT. fold p t in HT. pose proof B_pos. nia.
Qed.

(** mont_reduce: total value y, result = y / R mod p. *)
Lemma mont_reduce_loop_spec : forall n i y fl,
  length y = (2 * t)%nat -> Forall (fun x => 0 <= x < B) y -> (i + n = t)%nat ->
  0 <= fl <= 1 -> val (firstn i y) = 0 ->
  (forall A, val y + Bpow (2 * t) * fl = A -> A < p * Bpow i + Bpow t ->
  exists y' fl', mont_reduce_loop f n i y fl = Ok (y', fl') /\
    length y' = (2 * t)%nat /\ Forall (fun x => 0 <= x < B) y' /\ 0 <= fl' <= 1 /\
    val (firstn t y') = 0 /\
    exists u, val y' + Bpow (2 * t) * fl' = A + u * p /\ val y' + Bpow (2 * t) * fl' < p * Bpow t + Bpow t).
Proof.
  induction n; intros i y fl HL HR Hit Hfl Hlo A HA HAb.
  - cbn [mont_reduce_loop]. exists y, fl. replace i with t in * by lia.
    repeat split; auto; try lia. exists 0. split; lia.
  - (* split y = lo ++ w ++ h *)
    set (lo := firstn i y). set (w := firstn t (skipn i y)). set (h := skipn t (skipn i y)).
    assert (Llo : length lo = i) by (unfold lo; rewrite firstn_length; lia).
    assert (Lw : length w = t) by (unfold w; rewrite firstn_length, skipn_length; lia).
    assert (Lh : length h = (t - i)%nat) by (unfold h; rewrite !skipn_length; lia).
    assert (Ey : y = lo ++ w ++ h).
    { unfold lo, w, h. rewrite (firstn_skipn t), firstn_skipn. reflexivity. }
    assert (HR' := HR). rewrite Ey in HR'. apply Forall_app in HR'. destruct HR' as [Rlo HR'].
    apply Forall_app in HR'. destruct HR' as [Rw Rh].
    assert (Ww : wf t w) by (split; auto). assert (Wh : wf (t - i) h) by (split; auto).
    destruct (get_first w Ww) as [w' [yi [Ew Hyi]]].
    cbn [mont_reduce_loop]. rewrite Ey.
    rewrite (get_head lo w h i yi w' Llo Ew). cbn [bind].
    rewrite slice_app by auto. cbn [bind].
    set (u := wrap (yi * negpinv f)).
    destruct (mpn_addmul_1 w (primelimbs (base f)) (nlimbs (base f)) u) as [w1 c1] eqn:E1.
    assert (W1 : wf t w1) by (unfold mpn_addmul_1 in E1; inversion E1; apply limbs_wf).
    rewrite splice_app by (auto; destruct W1; congruence). cbn [bind].
    assert (L1 : length (lo ++ w1) = (i + nlimbs (base f))%nat)
      by (rewrite app_length; destruct W1 as [-> _]; unfold t; lia).
    replace (lo ++ w1 ++ h) with ((lo ++ w1) ++ h ++ []) by (rewrite app_nil_r, app_assoc; reflexivity).
    rewrite slice_app by auto. cbn [bind].
    destruct (mpn_add_1 h (nlimbs (base f) - i) c1) as [h1 c] eqn:E2.
    assert (W2 : wf (t - i) h1) by (unfold mpn_add_1 in E2; inversion E2; apply limbs_wf).
    rewrite splice_app by (auto; destruct W2; congruence). cbn [bind]. rewrite app_nil_r.
    assert (Hu : 0 <= u < B) by (apply Z.mod_pos_bound, B_pos).
    pose proof (addmul_split w P u) as S1. pose proof (addmul_carry w P u Ww P_wf Hu) as C1.
    unfold P in S1, C1. fold t in E1. rewrite E1 in S1, C1. simpl in S1, C1.
    fold P in S1. rewrite P_val in S1.
    assert (S2 : val h1 + Bpow (t - i) * c = val h + c1).
    { unfold mpn_add_1 in E2. inversion E2. rewrite val_limbs. fold t.
      pose proof (Z.div_mod (val h + c1) (Bpow (t - i)) ltac:(pose proof (Bpow_pos (t-i)); lia)). lia. }
    pose proof (val_range _ _ Wh) as Rvh. pose proof (val_range _ _ W2) as Rvh1.
    pose proof (val_range _ _ Ww) as Rvw. pose proof (val_range _ _ W1) as Rvw1.
    (* values *)
    assert (Vy : val y = Bpow i * val w + Bpow (i + t) * val h).
    { rewrite Ey, !val_app, Llo, Lw, Bpow_add. fold lo in Hlo. rewrite Hlo. ring. }
    assert (Vy2 : val ((lo ++ w1) ++ h1) = Bpow i * val w1 + Bpow (i + t) * val h1).
    { rewrite !val_app, app_length, Llo. destruct W1 as [-> _]. fold lo in Hlo. rewrite Hlo. ring. }
    assert (E2t : Bpow (2 * t) = Bpow (i + t) * Bpow (t - i)).
    { rewrite <- Bpow_add. f_equal. lia. }
    pose proof (Bpow_pos i) as Pi. pose proof (Bpow_pos t) as Pt. pose proof (Bpow_pos (t - i)) as Pti.
    pose proof (Bpow_add i t) as Eit. pose proof B_pos as PB. pose proof p_pos. pose proof p_lt.
    assert (Etot : val ((lo ++ w1) ++ h1) + Bpow (2 * t) * (fl + c) = A + Bpow i * u * p).
    { rewrite Vy2, <- HA, Vy, E2t. rewrite Eit in *. 
      replace (Bpow i * val w1 + Bpow i * Bpow t * val h1 + Bpow i * Bpow t * Bpow (t - i) * (fl + c))
        with (Bpow i * val w1 + Bpow i * Bpow t * (val h1 + Bpow (t - i) * c) + Bpow i * Bpow t * Bpow (t - i) * fl) by ring.
      rewrite S2.
      replace (Bpow i * val w1 + Bpow i * Bpow t * (val h + c1))
        with (Bpow i * (val w1 + Bpow t * c1) + Bpow i * Bpow t * val h) by ring.
      rewrite S1. ring. }
    assert (Bnd : A + Bpow i * u * p < p * Bpow (S i) + Bpow t).
    { rewrite Bpow_S.
      assert (Bpow i * p * u <= Bpow i * p * (B - 1))
        by (apply Z.mul_le_mono_nonneg_l; [apply Z.mul_nonneg_nonneg|]; lia). lia. }
    assert (Hc : 0 <= c).
    { unfold mpn_add_1 in E2. injection E2 as _ <-. apply Z.div_pos; [lia | apply Bpow_pos]. }
    assert (Hflc : 0 <= fl + c <= 1).
    { split; [lia|]. 
      assert (Bpow (2 * t) * (fl + c) < p * Bpow (S i) + Bpow t).
      { assert (0 <= val ((lo ++ w1) ++ h1)) 
          by (rewrite Vy2; pose proof (Bpow_pos (i + t)); apply Z.add_nonneg_nonneg; apply Z.mul_nonneg_nonneg; lia).
        lia. }
      assert (Bpow (S i) <= Bpow t).
      { unfold Bpow. apply Z.pow_le_mono_r; [apply B_pos|]. lia. }
      assert (Bpow (2 * t) = Bpow t * Bpow t) by (rewrite <- Bpow_add; f_equal; lia).
      assert (p * Bpow (S i) <= (Bpow t - 1) * Bpow t) by (pose proof (Bpow_pos (S i)); apply Z.mul_le_mono_nonneg; lia).
      assert (Bpow (2 * t) * (fl + c) < Bpow (2 * t)) by lia.
      pose proof (Bpow_pos (2 * t)).
      assert (fl + c < 1) by (apply (Z.mul_lt_mono_pos_l (Bpow (2 * t))); lia). lia. }
    assert (Ewr : wrap (fl + c) = fl + c).
    { unfold wrap. apply Z.mod_small. pose proof B_gt1. lia. }
    rewrite Ewr.
    (* low limb of w1 is zero *)
    assert (exists w1', w1 = 0 :: w1') as [w1' Ew1].
    { destruct (u_zero yi u eq_refl) as [k Hk].
      destruct (get_first w1 W1) as [w1' [x [Ex Hx]]]. exists w1'. rewrite Ex. f_equal.
      rewrite Hx.
      assert (exists k1, val w = yi + B * k1) as [k1 K1].
      { exists (val w / B). rewrite Hyi. pose proof (Z.div_mod (val w) B). lia. }
      destruct t_S as [t' Et]. 
      assert (val w1 = B * (k1 + k - Bpow t' * c1)).
      { rewrite Et, Bpow_S in S1. rewrite K1 in S1. lia. }
      rewrite H1, Z.mul_comm. apply Z.mod_mul. lia. }
    destruct (IHn (S i) ((lo ++ w1) ++ h1) (fl + c)) with (A := A + Bpow i * u * p)
      as [y' [fl' [EQ [L' [R' [F' [V' [u' [U1 U2]]]]]]]]]; auto.
    + rewrite !app_length, Llo. destruct W1 as [-> _]. destruct W2 as [-> _]. lia.
    + apply Forall_app; split; [apply Forall_app; split; auto; apply W1 | apply W2].
    + lia.
    + rewrite Ew1. replace (((lo ++ 0 :: w1') ++ h1)) with ((lo ++ [0]) ++ (w1' ++ h1))
        by (rewrite <- !app_assoc; reflexivity).
      rewrite firstn_app. rewrite firstn_all2 by (rewrite app_length; simpl; lia).
      assert (Z0 : (S i - length (lo ++ [0%Z]) = 0)%nat) by (rewrite app_length; cbn [length]; lia).
      rewrite Z0. cbn [firstn]. rewrite app_nil_r, val_app. fold lo in Hlo. rewrite Hlo. simpl. lia.
    + exists y', fl'. fold t. rewrite EQ. repeat split; auto; try lia.
      exists (Bpow i * u + u'). split; [rewrite U1; ring | lia].
Qed.

Lemma mont_reduce_spec : forall y,
  length y = (2 * t)%nat -> Forall (fun x => 0 <= x < B) y -> val y < Bpow t ->
  exists r, mont_reduce f y = Ok r /\ wf t r /\ 0 <= val r < p /\
            exists k, Bpow t * val r = val y + k * p.
Proof.
  intros y HL HR HV.
  destruct (mont_reduce_loop_spec t 0 y 0) with (A := val y)
    as [y' [fl' [EQ [L' [R' [F' [V' [u [U1 U2]]]]]]]]]; auto; try lia.
  { rewrite Bpow_0. pose proof p_pos. lia. }
  unfold mont_reduce. fold t. rewrite EQ. cbn [bind].
  assert (Ey : y' = firstn t y' ++ skipn t y' ++ []) by (rewrite app_nil_r, firstn_skipn; reflexivity).
  set (lo := firstn t y') in *. set (h := skipn t y') in *.
  assert (Llo : length lo = t) by (unfold lo; rewrite firstn_length; lia).
  assert (Lh : length h = t) by (unfold h; rewrite skipn_length; lia).
  assert (Wh : wf t h).
  { split; auto. rewrite Ey in R'. apply Forall_app in R'. destruct R' as [_ R'].
    rewrite app_nil_r in R'. exact R'. }
  assert (Vy : val y' = Bpow t * val h).
  { rewrite Ey at 1. rewrite app_nil_r, val_app, V', Llo. lia. }
  rewrite Ey. rewrite slice_app by auto. cbn [bind]. rewrite if_ok.
  assert (E2t : Bpow (2 * t) = Bpow t * Bpow t) by (rewrite <- Bpow_add; f_equal; lia).
  assert (HW : win h fl' < p + 1).
  { unfold win. pose proof (Bpow_pos t). rewrite Vy, E2t in U2. nia. }
  destruct (final_sub h fl' 1 Wh F' HW ltac:(pose proof p_pos; lia)) as [G1 [G2 [k G3]]].
  eexists. split; [reflexivity|]. fold P. split; auto. split; auto.
  exists (u - Bpow t * k). unfold win in G3.
  rewrite Vy, E2t in U1.
  set (r := if negb (fl' =? 0) || (mpn_cmp h P >=? 0) then fst (mpn_sub_n h P t) else h) in *.
  assert (Bpow t * (val h + Bpow t * fl') = val y + u * p) by (rewrite <- U1; ring).
  rewrite G3 in H. replace (Bpow t * val r) with (Bpow t * (val r + k * p) - Bpow t * k * p) by ring.
  rewrite H. ring.
Qed.
End S.
