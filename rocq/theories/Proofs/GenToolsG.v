(** The program gengparam. *)
From Coq Require Import ZArith Znumtheory List Bool String Lia.
From Verif.Base Require Import Outcome Algebra Slots.
From Verif.Spec Require Import ParamText FiniteField Polynomials Roots Extension Quadratic Twist Curve HashToCurve CurveChoice CMCurves PairingValue PairingValueD GenTools.
From Verif.Model Require Import CurveCodec Pairing PairingA PairingD Mnt CurveGen Param GenTools GenToolsD GenToolsG.
From Verif.Proofs Require Import ParamFacts MntMain ParamMain FieldFacts CurveGenOrders CurveGenMain CurveGenCases PairingDFacts PairingDApi GenToolsFacts.
Import ListNotations.
Open Scope Z_scope.

Lemma g_works : forall (K : fld) m (c a b : K) q r, type_g K m c a b q r ->
  let w := const K 5 m c in forall P Q, torsion K a b r P -> on_twist K 5 m c a b Q ->
  exists z : Quad (Ext K 5 m) w, fpow z r = f1 /\ forall i k, let P' := pzmul K a i P in let Q' := pzmul (Ext K 5 m) (fmul (fmul (const K 5 m a) w) w) k Q in
    P' = None \/ Q' = None \/ fpow z ((i * k) mod r) <> f1 -> pairing_apply (g_pairing K 5 m w a r q MillerAffine) P' Q' = Ok (fpow z ((i * k) mod r)).
Proof.
  intros K m c a b q r T w P Q HP HQ. exists (dg_value K 5 m c a q r P Q).
  split; [exact (dg_value_r K 5 m c a b q r (proj1 T) P Q HP HQ)|]. intros i k P' Q'.
  unfold P', Q', w. rewrite <- (dg_bilinear K 5 m c a b q r (proj1 T) i k P Q HP HQ). intros OV.
  apply (g_apply K m c a b q r T); [apply (dg_mul1 K 5 m c a b q r (proj1 T)); exact HP|apply (dg_mul2 K 5 m c a b q r (proj1 T)); exact HQ|exact OV].
Qed.
Lemma generate_g_in : forall rest l ts, generate_g_all rest l = Ok ts -> forall t, In t ts -> exists c, In c l /\ generate_g rest c = Ok t.
Proof.
  intros rest l. induction l as [|c l IH]; intros ts H t I; cbn [generate_g_all] in H. { injection H as <-. destruct I. }
  destruct (generate_g rest c) as [t0| | |] eqn:E; try discriminate. cbn [bind] in H.
  destruct (generate_g_all rest l) as [ts0| | |] eqn:E2; try discriminate. cbn [bind] in H. injection H as <-.
  destruct I as [->|I]; [exists c; cbn; auto|]. destruct (IH _ eq_refl t I) as (c' & I' & E'). exists c'. cbn. auto.
Qed.
Lemma coeff_has_g : forall k i s, 0 <= i < 5 -> chars s = chars "coeff" ++ mpz_out_str i -> has_key G k (chars s) false.
Proof. intros k i s Hi E. right. split; [reflexivity|]. exists i, (mpz_out_str i). split; [exact Hi|]. split; [apply out_decimal|exact E]. Qed.
Lemma r_odd_g : forall q r, prime r -> (r | Phi10 q) -> 2 < r.
Proof.
  intros q r PR HD. pose proof (prime_ge_2 r PR). destruct (Z.eq_dec r 2) as [->|]; [|lia]. exfalso.
  apply Z.mod_divide in HD; [|lia]. unfold Phi10 in HD.
  destruct (Z.Even_or_Odd q) as [[k K]|[k K]]; rewrite K in HD.
  - replace ((2 * k) ^ 4 - (2 * k) ^ 3 + (2 * k) ^ 2 - 2 * k + 1) with (1 + (8 * k ^ 4 - 4 * k ^ 3 + 2 * k ^ 2 - k) * 2) in HD by ring. rewrite Z_mod_plus_full in HD. discriminate.
  - replace ((2 * k + 1) ^ 4 - (2 * k + 1) ^ 3 + (2 * k + 1) ^ 2 - (2 * k + 1) + 1) with (1 + (k * (2 * k + 1) ^ 3 + k * (2 * k + 1)) * 2) in HD by ring. rewrite Z_mod_plus_full in HD. discriminate.
Qed.
Lemma monic5 : forall (K : fld) (m : list K), monic m 5 -> exists x y z u w, m = [x; y; z; u; w; f1].
Proof.
  intros K m [L C]. do 7 (destruct m as [|? m]; try discriminate). unfold coef in C. cbn in C. subst. do 5 eexists. reflexivity.
Qed.

Theorem gengparam_ok : forall isprime nextprime rest fuel dd ts, exact_primes isprime nextprime ->
  (forall n, isprime n = true -> prime n) ->
  gengparam isprime nextprime rest fuel dd = Ok ts ->
  forall text, In text ts -> forall bl junk t, (forall n, List.length (junk n) = n) ->
  exists v, param_init_set_str bl junk (text ++ 0 :: t) = Ok {| ret := 0; ptyp := Some TG; vals := v |} /\
  let q := v (chars "q") in let r := v (chars "r") in let n := v (chars "n") in
  prime q /\ prime r /\ order_splits n (v (chars "h")) r /\ (r | Phi10 q) /\ (exists x, q = freeman_q x /\ n = freeman_q x + 1 - freeman_t x) /\
  v (chars "nk") = curve_order_extn q (q + 1 - n) 10 /\ v (chars "hk") * (r * r) = v (chars "nk") /\
  forall (K : fld) to_mpz is_sqr sqrt nqr0 hilbert d x src src2 fuel2, 3 < q -> 0 <= n -> fld_laws K -> has_order K q -> (forall c : K, fofz (to_mpz c) = c) ->
  good_roots K is_sqr sqrt -> nqr0 <> f0 -> 0 <= x ->
  monic (map fofz hilbert : list K) d -> (2 <= d)%nat -> (exists j : K, is_root (map fofz hilbert) j) -> ~ is_root (map fofz hilbert) (f0 : K) ->
  (forall c, cm_q c = q -> rest c = d_rest K to_mpz is_sqr sqrt isprime nextprime nqr0 hilbert x src src2 fuel2 c) ->
  let a : K := fofz (v (chars "a")) in let b : K := fofz (v (chars "b")) in let c : K := fofz (v (chars "nqr")) in
  let m : list K := [fofz (v (chars "coeff0")); fofz (v (chars "coeff1")); fofz (v (chars "coeff2")); fofz (v (chars "coeff3")); fofz (v (chars "coeff4")); f1] in
  let w := const K 5 m c in c <> f0 -> forall P Q, torsion K a b r P -> on_twist K 5 m c a b Q ->
  exists z : Quad (Ext K 5 m) w, fpow z r = f1 /\ forall i k, let P' := pzmul K a i P in let Q' := pzmul (Ext K 5 m) (fmul (fmul (const K 5 m a) w) w) k Q in
    P' = None \/ Q' = None \/ fpow z ((i * k) mod r) <> f1 -> pairing_apply (g_pairing K 5 m w a r q MillerAffine) P' Q' = Ok (fpow z ((i * k) mod r)).
Proof.
  intros ip np rest fuel dd ts XP HP H text IT bl junk t HJ. unfold gengparam in H.
  destruct ((dd <=? 0) || negb ((dd mod 120 =? 43) || (dd mod 120 =? 67))) eqn:ED; [discriminate|].
  assert (0 <= dd) as D0. { apply orb_false_iff in ED. destruct ED as [ED _]. apply Z.leb_gt in ED. lia. }
  destruct (cm_search_g ip np (fun _ _ => 1) fuel dd 500) as [[hist found]| | |] eqn:ES; try discriminate. cbn [bind] in H.
  destruct (generate_g_all rest hist) as [ts'| | |] eqn:EG; try discriminate. cbn [bind] in H.
  destruct (found =? 0); [discriminate|]. injection H as ->.
  destruct (generate_g_in rest hist ts EG text IT) as (c & IC & GC).
  pose proof (search_g_sound ip np _ fuel dd 500 hist found D0 ES) as FA. rewrite Forall_forall in FA.
  destruct (FA c IC) as (S1 & S2 & S3 & S4 & S5 & S6 & x0 & V0 & S7 & S8 & _). clear FA.
  unfold generate_g in GC. destruct (rest c) as [[[[a b] co] nq]| | |] eqn:Er; try discriminate. cbn [bind] in GC.
  set (u := g_values c a b co nq) in *.
  assert (forall key, has_key G (u (chars "k")) key true -> int32 (u key)) as I32.
  { intros key [(s & Hs & ->)|(? & _)]; [|discriminate]. cbn [plain_keys In] in Hs. repeat (destruct Hs as [Hs|Hs]; [discriminate|]). destruct Hs. }
  destruct (round_trip bl junk HJ G u t I32 ltac:(discriminate)) as (text' & v & O1 & O2 & _ & V).
  cbn [code] in O1, O2. rewrite GC in O1. injection O1 as <-. exists v. split; [exact O2|]. cbv zeta.
  assert (forall s int, In (s, int) (plain_keys G) -> v (chars s) = u (chars s)) as W by (intros s' int HI; exact (V _ int (plain G _ s' int HI))).
  assert (v (chars "coeff0") = u (chars "coeff0")) as W0 by (apply (V _ false), (coeff_has_g _ 0 "coeff0"); [lia|vm_compute; reflexivity]).
  assert (v (chars "coeff1") = u (chars "coeff1")) as W1 by (apply (V _ false), (coeff_has_g _ 1 "coeff1"); [lia|vm_compute; reflexivity]).
  assert (v (chars "coeff2") = u (chars "coeff2")) as W2 by (apply (V _ false), (coeff_has_g _ 2 "coeff2"); [lia|vm_compute; reflexivity]).
  assert (v (chars "coeff3") = u (chars "coeff3")) as W3 by (apply (V _ false), (coeff_has_g _ 3 "coeff3"); [lia|vm_compute; reflexivity]).
  assert (v (chars "coeff4") = u (chars "coeff4")) as W4 by (apply (V _ false), (coeff_has_g _ 4 "coeff4"); [lia|vm_compute; reflexivity]).
  rewrite W0, W1, W2, W3, W4.
  rewrite (W "q"%string false), (W "r"%string false), (W "n"%string false), (W "h"%string false), (W "a"%string false), (W "b"%string false), (W "nqr"%string false), (W "nk"%string false), (W "hk"%string false) by (cbn; auto 12).
  change (u (chars "q")) with (cm_q c). change (u (chars "r")) with (cm_r c). change (u (chars "n")) with (cm_n c). change (u (chars "h")) with (cm_h c).
  change (u (chars "nk")) with (extension_order (cm_q c) (cm_n c) (cm_k c)). change (u (chars "hk")) with (extension_cofactor (cm_q c) (cm_n c) (cm_r c) (cm_k c)).
  rewrite S5. change (u (chars "a")) with a. change (u (chars "b")) with b. change (u (chars "nqr")) with nq.
  change (u (chars "coeff0")) with (nth 0 co 0). change (u (chars "coeff1")) with (nth 1 co 0). change (u (chars "coeff2")) with (nth 2 co 0).
  change (u (chars "coeff3")) with (nth 3 co 0). change (u (chars "coeff4")) with (nth 4 co 0).
  assert (prime (cm_q c)) as PQ by auto. assert (prime (cm_r c)) as PR by auto.
  split; [exact PQ|]. split; [exact PR|]. split; [exact S1|]. split; [exact S6|]. split; [exists x0; auto|].
  split; [apply extension_order_is|]. split.
  { apply freeman_cofactor; [pose proof (prime_ge_2 _ PR); lia|exists (cm_h c); exact S1|exact S6]. }
  intros K to_mpz is_sqr sqrt nqr0 hil d x src src2 fuel2 Q3 N0 HK HO TM GR NQ X0 MH D2 RT NR ER.
  specialize (ER c eq_refl). rewrite Er in ER. unfold d_rest in ER. rewrite S5 in ER. change (Z.to_nat (Z.quot 10 2)) with 5%nat in ER.
  destruct (cm_curve K (cm_q c) is_sqr sqrt nqr0 hil (cm_n c) x src) as [[[a' b'] src']| | |] eqn:EC; try discriminate. cbn [bind] in ER.
  destruct (extension_gen K (cm_q c) ip np fuel2 5 src2) as [[[m c'] src2']| | |] eqn:EX; try discriminate. cbn [bind] in ER.
  injection ER as -> -> -> ->. rewrite !TM. intros C0.
  assert (type_g K m c' a' b' (cm_q c) (cm_r c)) as T.
  { apply (g_generated K HK (cm_q c) PQ Q3 HO ip np (proj1 XP) (proj2 XP) is_sqr sqrt GR (cm_r c) fuel2 src2 m c' src2' PR (r_odd_g _ _ PR S6)) with (nqr := nqr0) (coeffs := hil) (d := d) (N := cm_n c) (x := x) (src2 := src) (src3 := src'); auto.
    destruct S6 as [k S6]. exists k. unfold Phi10 in S6. rewrite <- S6. ring. }
  destruct (monic5 K m (dg_monic _ _ _ _ _ _ _ _ (proj1 T))) as (y0 & y1 & y2 & y3 & y4 & ->). cbn [firstn map nth]. rewrite !TM. apply g_works. exact T.
Qed.

(** a linear class polynomial *)
Lemma g_class_one : forall (K : fld) isprime nextprime fuel dd c hist found to_mpz is_sqr sqrt nqr0 j x src src2 fuel2, fld_laws K ->
  0 < dd -> dd mod 120 = 43 \/ dd mod 120 = 67 -> cm_search_g isprime nextprime (fun _ _ => 1) fuel dd 500 = Ok (c :: hist, found) ->
  gengparam isprime nextprime (d_rest K to_mpz is_sqr sqrt isprime nextprime nqr0 [j; 1] x src src2 fuel2) fuel dd = UB.
Proof.
  intros K ip np fuel dd c hist found to_mpz is_sqr sqrt nqr0 j x src src2 fuel2 HK D0 DM ES. unfold gengparam.
  replace ((dd <=? 0) || negb ((dd mod 120 =? 43) || (dd mod 120 =? 67))) with false by (destruct (Z.leb_spec dd 0); [lia|]; destruct DM as [-> | ->]; reflexivity).
  rewrite ES. cbn [bind generate_g_all]. unfold generate_g, d_rest. rewrite (cm_linear K HK). reflexivity.
Qed.
Lemma run283 : gengparam isprime nextprime (fun _ => Ok (1, 2, [3; 4; 5; 6; 7], 8)) 100 283 = Ok [flat_map (fun s => chars s ++ [10])
    ["type g"; "q 8443"; "n 8261"; "h 11"; "r 751"; "a 1"; "b 2"; "nk 1840635918747630433569010157734276062607"; "hk 3263533076621549312091663237714607"; "coeff0 3"; "coeff1 4"; "coeff2 5"; "coeff3 6"; "coeff4 7"; "nqr 8"]%string].
Proof. vm_compute. reflexivity. Qed.
