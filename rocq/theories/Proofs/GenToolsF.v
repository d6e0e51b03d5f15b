(** The program genfparam. *)
From Coq Require Import ZArith Znumtheory List Bool String Lia.
From Verif.Base Require Import Outcome Algebra Slots.
From Verif.Spec Require Import CurveCalls ParamText ParamEqs FiniteField Quadratic Twist Curve HashToCurve CurveChoice PairingValue PairingValueF GenTools.
From Verif.Model Require Import CurveCodec Pairing PairingF CurveGen Param ParamGen GenTools.
From Verif.Proofs Require Import ZpField RootWitness MntMain ParamGenFacts ParamMain FieldFacts QuadFacts CurveFacts FieldChar CurveGenF CurveGenMain PairingFApi PairingFMain ExampleMain GenToolsFacts GenToolsE.
Import ListNotations.
Open Scope Z_scope.

Lemma bn_embedding : forall x, (bn_r x | bn_q x ^ 4 - bn_q x ^ 2 + 1).
Proof.
  intros x. exists (bn_r (- x) + (bn_q x + 6 * x ^ 2) * (bn_q x ^ 2 + 36 * x ^ 4) - (bn_q x + 6 * x ^ 2)). unfold bn_q, bn_r. ring.
Qed.
Lemma bn_sizes : forall x, prime (bn_q x) -> prime (bn_r x) -> 3 < bn_q x /\ 2 < bn_r x.
Proof.
  intros x Pq Pr. apply prime_ge_2 in Pq. apply prime_ge_2 in Pr.
  assert (bn_q x = 6 * (6 * x ^ 4 + 6 * x ^ 3 + 4 * x ^ 2 + x) + 1) as E1 by (unfold bn_q; ring).
  assert (bn_r x = 2 * (18 * x ^ 4 + 18 * x ^ 3 + 9 * x ^ 2 + 3 * x) + 1) as E2 by (unfold bn_r; ring). lia.
Qed.
Lemma trace12 : forall q t, 3 <= q -> t * t <= 4 * q -> 0 <= q ^ 12 + 1 - trace_n q t 12.
Proof.
  intros q t Q3 T. set (s3 := t * (t * t - 3 * q)). set (s6 := s3 * s3 - 2 * q ^ 3).
  assert (q ^ 12 + 1 - trace_n q t 12 = (q ^ 6 + 1 - s6) * (q ^ 6 + 1 + s6)) as E.
  { unfold trace_n. change (Z.to_nat (12 - 1)) with 11%nat. cbn [trace_loop]. unfold s6, s3. ring. }
  rewrite E. clear E.
  assert (q ^ 6 = q ^ 3 * q ^ 3) as E6 by ring. assert (q ^ 3 = q * (q * q)) as E3 by ring.
  assert (Z.abs t <= q + 1) as B1 by nia.
  assert (Z.abs (t * t - 3 * q) <= 3 * q) as B2 by (assert (0 <= t * t) by nia; lia).
  assert (Z.abs s3 <= q ^ 3 + 1) as B3.
  { unfold s3. rewrite Z.abs_mul. destruct (Z.eq_dec q 3) as [->|N3].
    - assert (Z.abs t <= 3) by nia. assert (0 <= Z.abs (t * t - 3 * 3)) by lia. assert (0 <= Z.abs t) by lia. nia.
    - assert (Z.abs t <= q) by nia. assert (0 <= Z.abs t) by lia. assert (0 <= Z.abs (t * t - 3 * q)) by lia.
      assert (Z.abs t * Z.abs (t * t - 3 * q) <= q * (3 * q)) by (apply Z.mul_le_mono_nonneg; lia). nia. }
  assert (0 <= q ^ 3) as P3 by (apply Z.pow_nonneg; lia).
  assert (s3 * s3 <= (q ^ 3 + 1) * (q ^ 3 + 1)) as B4. { rewrite <- (Z.abs_square s3). apply Z.mul_le_mono_nonneg; lia. }
  assert (0 <= s3 * s3) as B5 by (rewrite <- (Z.abs_square s3); nia).
  apply Z.mul_nonneg_nonneg; unfold s6; rewrite E6; [lia|]. assert (0 <= (q ^ 3 - 1) * (q ^ 3 - 1)) by (apply Z.square_nonneg). lia.
Qed.
Lemma bn_trace : forall x, bn_t x * bn_t x <= 4 * bn_q x.
Proof.
  intros x. assert (4 * bn_q x - bn_t x * bn_t x = 3 * ((6 * x ^ 2 + 4 * x + 1) * (6 * x ^ 2 + 4 * x + 1))) as E by (unfold bn_q, bn_t; ring).
  pose proof (Z.square_nonneg (6 * x ^ 2 + 4 * x + 1)). lia.
Qed.

Lemma f_works : forall (K : fld) beta alpha (b : K) q r, type_f K beta alpha b q r -> exists d, f_init K beta alpha q r = Ok d /\
  bilinear_two K (F2 K beta) (F12 K beta alpha) f0 f0 r (torsion K f0 b r) (on_f_twist K beta alpha b) (pairing_apply (f_pairing_rec K beta alpha d r)).
Proof.
  intros K beta alpha b q r T. destruct (init_ex K beta alpha b q r T) as [d HD]. exists d. split; [exact HD|].
  intros P Q HP HQ. exists (f_value K beta alpha q r P Q). split; [exact (m_apply K beta alpha b q r T d HD P Q HP HQ)|].
  split; [exact (f_value_r K beta alpha b q r T P Q HP HQ)|].
  intros i k. rewrite <- (f_bilinear K beta alpha b q r T i k P Q HP HQ). apply (m_apply K beta alpha b q r T d HD).
  - assert (0 <= r) as R0 by (pose proof (tf_r2 _ _ _ _ _ _ T); lia). apply (torsion_mul K (tf_field _ _ _ _ _ _ T) f0 b (tf_curve _ _ _ _ _ _ T) r R0). exact HP.
  - unfold on_f_twist in *. apply (pzmul_on (F2 K beta) (Quad_laws K (tf_field _ _ _ _ _ _ T) beta (tf_beta _ _ _ _ _ _ T)) f0 _ (proj1 (f_ell K beta alpha b q r T))). exact HQ.
Qed.

Theorem genfparam_ok : forall isprime nextprime rest fuel bits text, exact_primes isprime nextprime ->
  (forall n, isprime n = true -> prime n) ->
  genfparam isprime rest fuel bits = Ok text ->
  forall bl junk t, (forall n, List.length (junk n) = n) ->
  exists v, param_init_set_str bl junk (text ++ 0 :: t) = Ok {| ret := 0; ptyp := Some TF; vals := v |} /\
  let q := v (chars "q") in let r := v (chars "r") in
  prime q /\ prime r /\ (exists x, 2 ^ ((bits - 6) / 4) <= Z.abs x /\ q = bn_q x /\ r = bn_r x) /\
  forall (K : fld) beta to_mpz is_sqr sqrt is_sqr2 sqrt2 xs src x src2, fld_laws K -> has_order K q -> (forall c : K, fofz (to_mpz c) = c) ->
  ~ is_square beta -> good_roots K is_sqr sqrt -> good_roots (F2 K beta) is_sqr2 sqrt2 -> Forall (Z.le 0) xs -> 0 <= x ->
  rest q r = f_rest K beta to_mpz is_sqr sqrt is_sqr2 sqrt2 isprime nextprime q r xs src x src2 ->
  let b : K := fofz (v (chars "b")) in let alpha : F2 K beta := (fofz (v (chars "alpha0")), fofz (v (chars "alpha1"))) in
  fofz (v (chars "beta")) = beta /\ (b <> f0 ->
  (exists G y, In y xs /\ on_curve K f0 b G /\ G <> None /\ (pzmul K f0 y G = None \/ order_r K f0 b r (pzmul K f0 y G))) /\
  exists d, f_init K beta alpha q r = Ok d /\
  bilinear_two K (F2 K beta) (F12 K beta alpha) f0 f0 r (torsion K f0 b r) (on_f_twist K beta alpha b) (pairing_apply (f_pairing_rec K beta alpha d r))).
Proof.
  intros ip np rest fuel bits text XP HP H bl junk t HJ. unfold genfparam in H.
  destruct (f_gen ip fuel bits) as [[q r]| | |] eqn:Eg; try discriminate. cbn [bind] in H.
  destruct (rest q r) as [[[[b be] a0] a1]| | |] eqn:Er; try discriminate. cbn [bind] in H.
  destruct (f_gen_ok _ _ _ _ _ Eg) as (P1 & P2 & x0 & X1 & X2 & X3 & X4).
  set (w := f_values q r b be a0 a1) in *.
  assert (forall key, has_key F (w (chars "k")) key true -> int32 (w key)) as I32.
  { intros key [(s & Hs & ->)|(? & _)]; [|discriminate]. cbn [plain_keys In] in Hs. repeat (destruct Hs as [Hs|Hs]; [discriminate|]). destruct Hs. }
  destruct (round_trip bl junk HJ F w t I32 ltac:(discriminate)) as (text' & v & O1 & O2 & _ & V).
  cbn [code] in O1, O2. rewrite H in O1. injection O1 as <-. exists v. split; [exact O2|]. cbv zeta.
  assert (forall s int, In (s, int) (plain_keys F) -> v (chars s) = w (chars s)) as W by (intros s' int HI; exact (V _ int (plain F _ s' int HI))).
  rewrite (W "q"%string false), (W "r"%string false), (W "b"%string false), (W "beta"%string false), (W "alpha0"%string false), (W "alpha1"%string false) by (cbn; auto 12).
  change (w (chars "q")) with q. change (w (chars "r")) with r. change (w (chars "b")) with b.
  change (w (chars "beta")) with be. change (w (chars "alpha0")) with a0. change (w (chars "alpha1")) with a1.
  assert (prime q) as PQ by auto. assert (prime r) as PR by auto.
  split; [exact PQ|]. split; [exact PR|]. split; [exists x0; auto|].
  intros K beta to_mpz is_sqr sqrt is_sqr2 sqrt2 xs src x src2 HK HO TM NB GR1 GR XS X0 ER. rewrite Er in ER. unfold f_rest in ER.
  destruct (f_curve_loop K is_sqr sqrt r xs src) as [[[b' xs'] src']| | |] eqn:EF; try discriminate. cbn [bind] in ER.
  match type of ER with (_ = bind ?m _) => destruct m as [[al src2']| | |] eqn:ES end; try discriminate. cbn [bind] in ER. injection ER as -> -> -> ->.
  rewrite !TM. split; [reflexivity|]. intros B0. replace (fst al, snd al) with al by (destruct al; reflexivity).
  assert (prime (bn_q x0)) as PQ' by congruence. assert (prime (bn_r x0)) as PR' by congruence. destruct (bn_sizes x0 PQ' PR') as [Q3 R2].
  split.
  { destruct (f_curve_sound K HK (f2_nz K HK _ PQ HO ltac:(lia)) (f3_nz K HK _ PQ HO ltac:(lia)) is_sqr sqrt GR1 r xs src b' xs' src' ltac:(lia) XS EF) as [E|E]; [contradiction|exact E]. }
  apply f_works.
  apply (f_generated K HK q PQ ltac:(lia) HO ip np (proj1 XP) (proj2 XP) beta NB is_sqr2 sqrt2 GR r b' (q - r + 1) x src2 al src2' PR ltac:(lia)); auto.
  - rewrite X2, X3. apply bn_embedding.
  - apply trace12; [lia|]. replace (q - r + 1) with (bn_t x0) by lia. rewrite X2. apply bn_trace.
Qed.

(** BITS = 1, 2: the exponent (BITS - 6) / 4 is negative *)
Lemma f_tiny : forall isprime rest fuel bits, 1 <= bits <= 2 -> genfparam isprime rest fuel bits = Die.
Proof. intros ip rest fuel bits H. assert (bits = 1 \/ bits = 2) as [-> | ->] by lia; reflexivity. Qed.

(** * A run over F_19 *)
Lemma lt19 : 1 < 19. Proof. reflexivity. Qed.
Definition F19 := Zp 19 lt19.
Definition c19 (x : Z) : F19 := zmk 19 lt19 x.
Definition e19 : list F19 := zp_elems 19 lt19.
Definition G19 := Quad F19 (c19 2).
Definition e361 : list G19 := list_prod e19 e19.
Definition root_in (L : fld) (l : list L) (x : L) : option L := find (fun y => feqb (fmul y y) x) l.
Definition is_sqr_in (L : fld) (l : list L) (x : L) : bool := match root_in L l x with Some _ => true | None => false end.
Definition sqrt_in (L : fld) (l : list L) (x : L) : res L := match root_in L l x with Some y => Ok y | None => UB end.
Lemma roots_in : forall (L : fld) l, fld_laws L -> (forall x, In x l) -> good_roots L (is_sqr_in L l) (sqrt_in L l).
Proof.
  intros L l HL A. assert (forall x, is_square x -> exists y, root_in L l x = Some y /\ fmul y y = x) as R.
  { intros x [y E]. unfold root_in. destruct (find (fun y => feqb (fmul y y) x) l) as [z|] eqn:F.
    - exists z. split; [reflexivity|]. apply find_some in F. apply (fl_eqb L HL), (proj2 F).
    - exfalso. pose proof (find_none _ _ F y (A y)) as N. cbv beta in N. rewrite (proj2 (fl_eqb L HL (fmul y y) x)) in N; [discriminate|congruence]. }
  split.
  - intros x. unfold is_sqr_in. split.
    + destruct (root_in L l x) as [y|] eqn:F; [|discriminate]. intros _. exists y. unfold root_in in F. apply find_some in F. apply (fl_eqb L HL), (proj2 F).
    + intros S. destruct (R x S) as (y & -> & _). reflexivity.
  - intros x S. unfold sqrt_in. destruct (R x S) as (y & -> & E). eauto.
Qed.
Lemma prime19 : prime 19. Proof. apply isprime_spec. vm_compute. reflexivity. Qed.
Lemma two_not_square : ~ is_square (c19 2).
Proof.
  intros S. apply (proj1 (roots_in F19 e19 (proj1 (Zp_instance 19 lt19 prime19)) (zp_elems_in 19 lt19))) in S. vm_compute in S. discriminate S.
Qed.
Definition rest19 (q r : Z) : res (Z * Z * Z * Z) :=
  f_rest F19 (c19 2) (zval 19) (is_sqr_in F19 e19) (sqrt_in F19 e19) (is_sqr_in G19 e361) (sqrt_in G19 e361) isprime nextprime q r
    [1; 1] [c19 1; c19 0; c19 2; c19 0; c19 1; c19 2; c19 3; c19 4] 1 [(c19 1, c19 1); (c19 0, c19 1); (c19 1, c19 2); (c19 1, c19 3); (c19 2, c19 3); (c19 0, c19 2)].
Definition text19 : list Z := flat_map (fun s => chars s ++ [10]) ["type f"; "q 19"; "r 13"; "b 2"; "beta 2"; "alpha0 15"; "alpha1 7"]%string.
Lemma run19 : genfparam isprime rest19 1 9 = Ok text19.
Proof. vm_compute. reflexivity. Qed.
Lemma F19_ok : fld_laws F19 /\ has_order F19 19 /\ (forall c : F19, fofz (zval 19 c) = c) /\ ~ is_square (c19 2) /\
  good_roots F19 (is_sqr_in F19 e19) (sqrt_in F19 e19) /\ good_roots G19 (is_sqr_in G19 e361) (sqrt_in G19 e361).
Proof.
  destruct (Zp_instance 19 lt19 prime19) as [L O]. split; [exact L|]. split; [exact O|]. split.
  { assert (forallb (fun c : F19 => feqb (fofz (zval 19 c)) c) e19 = true) as H by (vm_compute; reflexivity).
    intros c. rewrite forallb_forall in H. apply (fl_eqb F19 L). apply H, zp_elems_in. }
  split; [exact two_not_square|]. split; [apply roots_in; [exact L|apply zp_elems_in]|].
  apply roots_in; [apply Quad_laws; [exact L|exact two_not_square]|]. intros [x y]. apply in_prod; apply zp_elems_in.
Qed.
Lemma f_bits : forall bl junk, (forall n, List.length (junk n) = n) ->
  exists v, param_init_set_str bl junk (text19 ++ [0]) = Ok {| ret := 0; ptyp := Some TF; vals := v |} /\ v (chars "r") < 2 ^ 4.
Proof.
  intros bl junk HJ. assert (forall key, has_key F (f_values 19 13 2 2 15 7 (chars "k")) key true -> int32 (f_values 19 13 2 2 15 7 key)) as I32.
  { intros key [(s & Hs & ->)|(? & _)]; [|discriminate]. cbn [plain_keys In] in Hs. repeat (destruct Hs as [Hs|Hs]; [discriminate|]). destruct Hs. }
  destruct (round_trip bl junk HJ F (f_values 19 13 2 2 15 7) [] I32 ltac:(discriminate)) as (text' & v & O1 & O2 & _ & V).
  cbn [code] in O1, O2. assert (text' = text19) as ->.
  { assert (param_out_str TF (f_values 19 13 2 2 15 7) = Ok text19) as E by (vm_compute; reflexivity). congruence. }
  exists v. split; [exact O2|]. rewrite (V _ false (plain F _ "r"%string false ltac:(cbn; auto))). vm_compute. reflexivity.
Qed.
