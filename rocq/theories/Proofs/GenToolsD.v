(** The program gendparam. *)
From Coq Require Import ZArith Znumtheory List Bool String Lia.
From Verif.Base Require Import Outcome Algebra Slots.
From Verif.Spec Require Import ParamText FiniteField Polynomials Roots Extension Quadratic Twist Curve HashToCurve CurveChoice CMCurves PairingValue PairingValueD GenTools.
From Verif.Model Require Import CurveCodec Pairing PairingA PairingD Mnt CurveGen Param GenTools GenToolsD.
From Verif.Proofs Require Import ZpField RootWitness ParamFacts MntMain ParamMain FieldFacts CurveGenOrders CurveGenMain PairingDFacts PairingDApi GenToolsFacts GenToolsF CurveGenCases.
Import ListNotations.
Open Scope Z_scope.

Lemma d_works : forall (K : fld) m (c a b : K) q r, type_d K 3 m c a b q r ->
  let v := const K 3 m c in
  bilinear_two K (Ext K 3 m) (Quad (Ext K 3 m) v) a (fmul (fmul (const K 3 m a) v) v) r (torsion K a b r) (on_twist K 3 m c a b)
    (pairing_apply (d_pairing K 3 m v a r 6 q MillerAffine)).
Proof.
  intros K m c a b q r T v P Q HP HQ. exists (dg_value K 3 m c a q r P Q). split; [exact (d_apply K 3 m c a b q r T P Q HP HQ)|].
  split; [exact (dg_value_r K 3 m c a b q r (proj1 T) P Q HP HQ)|]. intros i k.
  unfold v. rewrite <- (dg_bilinear K 3 m c a b q r (proj1 T) i k P Q HP HQ).
  apply (d_apply K 3 m c a b q r T); [apply (dg_mul1 K 3 m c a b q r (proj1 T)); exact HP|apply (dg_mul2 K 3 m c a b q r (proj1 T)); exact HQ].
Qed.
Lemma generate_in : forall rest l ts, generate_all rest l = Ok ts -> forall t, In t ts -> exists c, In c l /\ generate rest c = Ok t.
Proof.
  intros rest l. induction l as [|c l IH]; intros ts H t I; cbn [generate_all] in H. { injection H as <-. destruct I. }
  destruct (generate rest c) as [t0| | |] eqn:E; try discriminate. cbn [bind] in H.
  destruct (generate_all rest l) as [ts0| | |] eqn:E2; try discriminate. cbn [bind] in H. injection H as <-.
  destruct I as [->|I]; [exists c; cbn; auto|]. destruct (IH _ eq_refl t I) as (c' & I' & E'). exists c'. cbn. auto.
Qed.
Lemma coeff_has : forall i s, 0 <= i < 3 -> chars s = chars "coeff" ++ mpz_out_str i -> has_key D 6 (chars s) false.
Proof. intros i s Hi E. right. split; [reflexivity|]. exists i, (mpz_out_str i). split; [exact Hi|]. split; [apply out_decimal|exact E]. Qed.
Lemma r_odd : forall q r, prime r -> (r | Phi6 q) -> 2 < r.
Proof.
  intros q r PR HD. pose proof (prime_ge_2 r PR). destruct (Z.eq_dec r 2) as [->|]; [|lia]. exfalso.
  apply Z.mod_divide in HD; [|lia]. unfold Phi6 in HD. assert (q ^ 2 - q + 1 = q * (q - 1) + 1) as E by ring. rewrite E in HD.
  destruct (Z.Even_or_Odd q) as [[k K]|[k K]]; rewrite K in HD.
  - replace (2 * k * (2 * k - 1) + 1) with (1 + (k * (2 * k - 1)) * 2) in HD by ring. rewrite Z_mod_plus_full in HD. discriminate.
  - replace ((2 * k + 1) * (2 * k + 1 - 1) + 1) with (1 + ((2 * k + 1) * k) * 2) in HD by ring. rewrite Z_mod_plus_full in HD. discriminate.
Qed.
Lemma monic3 : forall (K : fld) (m : list K), monic m 3 -> exists x y z, m = [x; y; z; f1].
Proof.
  intros K m [L C]. do 5 (destruct m as [|? m]; try discriminate). unfold coef in C. cbn in C. subst. eauto.
Qed.

Theorem gendparam_ok : forall isprime nextprime rest fuel dd ts, exact_primes isprime nextprime ->
  (forall n, isprime n = true -> prime n) -> 3 * dd < 2 ^ 32 ->
  gendparam isprime nextprime rest fuel dd = Ok ts ->
  forall text, In text ts -> forall bl junk t, (forall n, List.length (junk n) = n) ->
  exists v, param_init_set_str bl junk (text ++ 0 :: t) = Ok {| ret := 0; ptyp := Some TD; vals := v |} /\
  let q := v (chars "q") in let r := v (chars "r") in let n := v (chars "n") in
  prime q /\ prime r /\ order_splits n (v (chars "h")) r /\ cm_equation q n dd /\ v (chars "k") = 6 /\ (r | Phi6 q) /\
  v (chars "nk") = curve_order_extn q (q + 1 - n) 6 /\ v (chars "hk") * (r * r) = v (chars "nk") /\
  forall (K : fld) to_mpz is_sqr sqrt nqr0 hilbert d x src src2 fuel2, 3 < q -> 0 <= n -> fld_laws K -> has_order K q -> (forall c : K, fofz (to_mpz c) = c) ->
  good_roots K is_sqr sqrt -> nqr0 <> f0 -> 0 <= x ->
  monic (map fofz hilbert : list K) d -> (2 <= d)%nat -> (exists j : K, is_root (map fofz hilbert) j) -> ~ is_root (map fofz hilbert) (f0 : K) ->
  (forall c, cm_q c = q -> rest c = d_rest K to_mpz is_sqr sqrt isprime nextprime nqr0 hilbert x src src2 fuel2 c) ->
  let a : K := fofz (v (chars "a")) in let b : K := fofz (v (chars "b")) in let c : K := fofz (v (chars "nqr")) in
  let m : list K := [fofz (v (chars "coeff0")); fofz (v (chars "coeff1")); fofz (v (chars "coeff2")); f1] in let w := const K 3 m c in
  c <> f0 -> bilinear_two K (Ext K 3 m) (Quad (Ext K 3 m) w) a (fmul (fmul (const K 3 m a) w) w) r (torsion K a b r) (on_twist K 3 m c a b)
    (pairing_apply (d_pairing K 3 m w a r (v (chars "k")) q MillerAffine)).
Proof.
  intros ip np rest fuel dd ts XP HP H3 H text IT bl junk t HJ. unfold gendparam in H.
  destruct ((dd <=? 0) || (dd mod 4 =? 1) || (dd mod 4 =? 2)) eqn:ED; [discriminate|].
  assert (0 <= dd) as D0. { apply orb_false_iff in ED. destruct ED as [ED _]. apply orb_false_iff in ED. destruct ED as [ED _]. apply Z.leb_gt in ED. lia. }
  destruct (cm_search_d ip np (fun _ _ => 1) fuel dd 500) as [[hist found]| | |] eqn:ES; try discriminate. cbn [bind] in H.
  destruct (generate_all rest hist) as [ts'| | |] eqn:EG; try discriminate. cbn [bind] in H.
  destruct (found =? 0); [discriminate|]. injection H as ->.
  destruct (generate_in rest hist ts EG text IT) as (c & IC & GC).
  pose proof (search_d_sound ip np _ fuel dd 500 hist found D0 H3 ES) as FA. rewrite Forall_forall in FA.
  destruct (FA c IC) as (S1 & S2 & S3 & S4 & S5 & S6 & S7). clear FA.
  unfold generate in GC. destruct (rest c) as [[[[a b] co] nq]| | |] eqn:Er; try discriminate. cbn [bind] in GC.
  set (u := d_values c a b co nq) in *.
  assert (u (chars "k") = 6) as UK by exact S5.
  assert (forall key, has_key D (u (chars "k")) key true -> int32 (u key)) as I32.
  { intros key [(s & Hs & ->)|(? & _)]; [|discriminate]. cbn [plain_keys In] in Hs.
    repeat (destruct Hs as [Hs|Hs]; [try discriminate; injection Hs as <-; rewrite UK; unfold int32; lia|]). destruct Hs. }
  destruct (round_trip bl junk HJ D u t I32 ltac:(intros _; lia)) as (text' & v & O1 & O2 & _ & V).
  cbn [code] in O1, O2. rewrite GC in O1. injection O1 as <-. exists v. split; [exact O2|]. cbv zeta.
  assert (forall s int, In (s, int) (plain_keys D) -> v (chars s) = u (chars s)) as W by (intros s' int HI; exact (V _ int (plain D _ s' int HI))).
  rewrite UK in V.
  assert (v (chars "coeff0") = u (chars "coeff0")) as W0 by (apply (V _ false), (coeff_has 0 "coeff0"); [lia|vm_compute; reflexivity]).
  assert (v (chars "coeff1") = u (chars "coeff1")) as W1 by (apply (V _ false), (coeff_has 1 "coeff1"); [lia|vm_compute; reflexivity]).
  assert (v (chars "coeff2") = u (chars "coeff2")) as W2 by (apply (V _ false), (coeff_has 2 "coeff2"); [lia|vm_compute; reflexivity]).
  rewrite W0, W1, W2.
  rewrite (W "q"%string false), (W "r"%string false), (W "n"%string false), (W "h"%string false), (W "a"%string false), (W "b"%string false), (W "k"%string true), (W "nqr"%string false), (W "nk"%string false), (W "hk"%string false) by (cbn; auto 12).
  rewrite UK. change (u (chars "q")) with (cm_q c). change (u (chars "r")) with (cm_r c). change (u (chars "n")) with (cm_n c). change (u (chars "h")) with (cm_h c).
  change (u (chars "nk")) with (extension_order (cm_q c) (cm_n c) (cm_k c)). change (u (chars "hk")) with (extension_cofactor (cm_q c) (cm_n c) (cm_r c) (cm_k c)).
  rewrite S5. change (u (chars "a")) with a. change (u (chars "b")) with b. change (u (chars "nqr")) with nq.
  change (u (chars "coeff0")) with (nth 0 co 0). change (u (chars "coeff1")) with (nth 1 co 0). change (u (chars "coeff2")) with (nth 2 co 0).
  assert (prime (cm_q c)) as PQ by auto. assert (prime (cm_r c)) as PR by auto.
  split; [exact PQ|]. split; [exact PR|]. split; [exact S1|]. split; [exact S6|]. split; [reflexivity|]. split; [exact S7|].
  split; [apply extension_order_is|]. split.
  { apply mnt_cofactor; [pose proof (prime_ge_2 _ PR); lia|exists (cm_h c); exact S1|]. destruct S7 as [k S7]. exists k. unfold Phi6 in S7. rewrite <- S7. ring. }
  intros K to_mpz is_sqr sqrt nqr0 hil d x src src2 fuel2 Q3 N0 HK HO TM GR NQ X0 MH D2 RT NR ER.
  specialize (ER c eq_refl). rewrite Er in ER. unfold d_rest in ER. rewrite S5 in ER. change (Z.to_nat (Z.quot 6 2)) with 3%nat in ER.
  destruct (cm_curve K (cm_q c) is_sqr sqrt nqr0 hil (cm_n c) x src) as [[[a' b'] src']| | |] eqn:EC; try discriminate. cbn [bind] in ER.
  destruct (extension_gen K (cm_q c) ip np fuel2 3 src2) as [[[m c'] src2']| | |] eqn:EX; try discriminate. cbn [bind] in ER.
  injection ER as -> -> -> ->. rewrite !TM. intros C0.
  assert (type_d K 3 m c' a' b' (cm_q c) (cm_r c)) as T.
  { apply (d_generated K HK (cm_q c) PQ Q3 HO ip np (proj1 XP) (proj2 XP) is_sqr sqrt GR (cm_r c) fuel2 src2 m c' src2' PR (r_odd _ _ PR S7)) with (nqr := nqr0) (coeffs := hil) (d := d) (N := cm_n c) (x := x) (src2 := src) (src3 := src'); auto.
    destruct S7 as [k S7]. exists k. unfold Phi6 in S7. rewrite <- S7. ring. }
  destruct (monic3 K m (dg_monic _ _ _ _ _ _ _ _ (proj1 T))) as (y0 & y1 & y2 & ->). cbn [firstn map nth]. rewrite !TM. apply d_works. exact T.
Qed.

(** * A run over F_17, with D = 59 *)
Lemma lt17 : 1 < 17. Proof. reflexivity. Qed.
Definition F17 := Zp 17 lt17.
Definition c17 (x : Z) : F17 := zmk 17 lt17 x.
Definition e17 : list F17 := zp_elems 17 lt17.
(** the Hilbert class polynomial for D = 59 *)
Definition h59 : list Z := [374643194001883136; -140811576541184; 30197678080; 1].
Definition rest17 : cm -> res (Z * Z * list Z * Z) :=
  d_rest F17 (zval 17) (is_sqr_in F17 e17) (sqrt_in F17 e17) isprime nextprime (c17 3) h59 1 (map c17 [1; 2; 3; 4; 5; 6; 7; 8; 9]) (map c17 [3; 1; 0; 1; 3]) 1.
Lemma prime17 : prime 17. Proof. apply isprime_spec. vm_compute. reflexivity. Qed.
Lemma run17 : gendparam isprime nextprime rest17 100 59 =
  Ok [flat_map (fun s => chars s ++ [10]) ["type d"; "q 17"; "n 21"; "h 3"; "r 7"; "a 6"; "b 12"; "k 6"; "nk 24131520"; "hk 492480"; "coeff0 3"; "coeff1 1"; "coeff2 0"; "nqr 3"]%string].
Proof. vm_compute. reflexivity. Qed.
Lemma F17_ok : fld_laws F17 /\ has_order F17 17 /\ (forall c : F17, fofz (zval 17 c) = c) /\ good_roots F17 (is_sqr_in F17 e17) (sqrt_in F17 e17) /\ c17 3 <> f0 /\
  monic (map fofz h59 : list F17) 3 /\ (exists j : F17, is_root (map fofz h59) j) /\ ~ is_root (map fofz h59) (f0 : F17).
Proof.
  destruct (Zp_instance 17 lt17 prime17) as [L O]. split; [exact L|]. split; [exact O|]. split.
  { assert (forallb (fun c : F17 => feqb (fofz (zval 17 c)) c) e17 = true) as H by (vm_compute; reflexivity).
    intros c. rewrite forallb_forall in H. apply (fl_eqb F17 L). apply H, zp_elems_in. }
  split; [apply roots_in; [exact L|apply zp_elems_in]|].
  split. { intros H. apply (f_equal (zval 17)) in H. vm_compute in H. discriminate H. }
  split. { split; [reflexivity|]. apply zval_inj. vm_compute. reflexivity. }
  split. { exists (c17 2). apply zval_inj. vm_compute. reflexivity. }
  intros H. apply (f_equal (zval 17)) in H. vm_compute in H. discriminate H.
Qed.

(** D = 11 has class number one *)
Lemma class_one : forall (K : fld) to_mpz is_sqr sqrt nqr0 x src src2 fuel2, fld_laws K ->
  gendparam isprime nextprime (d_rest K to_mpz is_sqr sqrt isprime nextprime nqr0 [32768; 1] x src src2 fuel2) 100 11 = UB.
Proof.
  intros K to_mpz is_sqr sqrt nqr0 x src src2 fuel2 HK. unfold gendparam. change ((11 <=? 0) || (11 mod 4 =? 1) || (11 mod 4 =? 2)) with false. cbv iota.
  assert (cm_search_d isprime nextprime (fun _ _ => 1) 100 11 500 = Ok ([{| cm_q := 5; cm_n := 3; cm_h := 1; cm_r := 3; cm_k := 6; cm_D := 11 |}], 1)) as -> by (vm_compute; reflexivity).
  cbn [bind generate_all]. unfold generate, d_rest. rewrite (cm_linear K HK). reflexivity.
Qed.
(** D * 3 overflows *)
Lemma large_D : forall rest a b co nq, rest bad_d = Ok (a, b, co, nq) -> exists text, gendparam isprime nextprime rest 100 1431655963 = Ok [text] /\
  forall bl junk, (forall n, List.length (junk n) = n) -> exists v, param_init_set_str bl junk (text ++ [0]) = Ok {| ret := 0; ptyp := Some TD; vals := v |} /\
  ~ cm_equation (v (chars "q")) (v (chars "n")) 1431655963.
Proof.
  intros rest a b co nq ER. set (u := d_values bad_d a b co nq).
  assert (forall key, has_key D (u (chars "k")) key true -> int32 (u key)) as I32.
  { intros key [(s & Hs & ->)|(? & _)]; [|discriminate]. cbn [plain_keys In] in Hs.
    repeat (destruct Hs as [Hs|Hs]; [try discriminate; injection Hs as <-; change (u (chars "k")) with 6; unfold int32; lia|]). destruct Hs. }
  assert (D = D -> 0 <= u (chars "k") < 202) as KR by (intros _; change (u (chars "k")) with 6; lia).
  destruct (round_trip Memory.Plain (fun n => repeat ([], []) n) (fun n => repeat_length _ n) D u [] I32 KR) as (text & _ & O1 & _).
  exists text. split.
  - unfold gendparam. change ((1431655963 <=? 0) || (1431655963 mod 4 =? 1) || (1431655963 mod 4 =? 2)) with false. cbv iota.
    pose proof bad_d_found as BF. unfold stop in BF. rewrite BF. cbn [bind generate_all]. unfold generate. rewrite ER. cbn [bind]. fold u. cbn [code] in O1. rewrite O1. reflexivity.
  - intros bl junk HJ. destruct (round_trip bl junk HJ D u [] I32 KR) as (text' & v & O1' & O2 & _ & V). assert (text' = text) as -> by congruence.
    exists v. split; [exact O2|]. rewrite (V _ false (plain D _ "q"%string false ltac:(cbn; auto))), (V _ false (plain D _ "n"%string false ltac:(cbn; auto))). exact bad_d_bad.
Qed.
