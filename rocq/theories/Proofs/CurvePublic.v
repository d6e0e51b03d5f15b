(** The curve theorems in the form used by Properties/Curve.v. *)
From Coq Require Import ZArith List Bool Lia.
From Verif.Base Require Import Outcome Algebra Slots.
From Verif.Spec Require Import FiniteField Curve CurveCalls HashToCurve.
From Verif.Model Require Import Tonelli Curve CurveCodec.
From Verif.Proofs Require Import FieldFacts RootFacts SlotFacts CurveGroup CurveFacts CurveBatch CodecFacts.
Import ListNotations.
Open Scope Z_scope.

Section P.
Variable K : fld.
Hypothesis HK : fld_laws K.
Variables a b : K.
Lemma closed_pub : f2 K <> f0 -> forall P Q, on_curve K a b P -> on_curve K a b Q ->
  on_curve K a b (padd K a P Q) /\ on_curve K a b (pneg P).
Proof. intros C2 P Q HP HQ. split; [apply (add_on K HK a b C2); auto | apply (neg_on K HK); auto]. Qed.
Hypothesis EL : elliptic K a b.
Lemma group_pub : forall P Q R, on_curve K a b P -> on_curve K a b Q -> on_curve K a b R ->
  padd K a (padd K a P Q) R = padd K a P (padd K a Q R) /\ padd K a P Q = padd K a Q P /\
  padd K a None P = P /\ padd K a P (pneg P) = None.
Proof.
  destruct EL as (C2 & SM). intros P Q R HP HQ HR.
  split; [apply (add_assoc K HK a b C2 SM); auto | split; [apply add_comm; auto | split; [apply add_0_l | apply add_neg_r; auto]]].
Qed.
Lemma run_pub : forall quotient h (st : cst K) v, (forall n, quotient = Some n -> 0 <= n) -> scalars_ok h ->
  (forall n, cval st (Reg n) = v n) -> (forall n, on_curve K a b (v n)) ->
  c_run K a quotient st h = Ok (prun K a quotient v h) /\
  forall P, In (inr P) (prun K a quotient v h) -> on_curve K a b P.
Proof.
  destruct EL as (C2 & SM). intros quotient hs st v HQ HS R A. split.
  - exact (run_ok K HK a b C2 SM quotient hs st v HQ HS (fun n => eq_sym (R n)) A).
  - exact (run_on K HK a b C2 quotient hs v A).
Qed.
Lemma scalar_pub : forall P Q m n, on_curve K a b P -> on_curve K a b Q -> 0 <= m -> 0 <= n ->
  pzmul K a (m + n) P = padd K a (pzmul K a m P) (pzmul K a n P) /\
  pzmul K a (m * n) P = pzmul K a m (pzmul K a n P) /\
  pzmul K a n (padd K a P Q) = padd K a (pzmul K a n P) (pzmul K a n Q) /\
  forall r, 0 < r -> pzmul K a r P = None -> pzmul K a n P = pzmul K a (n mod r) P.
Proof.
  destruct EL as (C2 & SM). intros P Q m n HP HQ Hm Hn.
  split; [apply (zmul_add K HK a b C2 SM); auto | ].
  split; [apply (zmul_mul K HK a b C2 SM); auto | ].
  split; [apply (zmul_dist K HK a b C2 SM); auto | ].
  intros r Hr E. apply (zmul_mod K HK a b C2 SM); auto.
Qed.
End P.

Section Codec.
Variable K : fld.
Hypothesis HK : fld_laws K.
Variables (a b : K) (blen : nat) (enc : K -> list Z) (dec : list Z -> K).
Hypothesis CD : is_code K blen enc dec.
Lemma bytes_pub : forall (st st1 : cst K) o o' P, cval st o = Some P -> on_curve K a b (Some P) ->
  length (curve_to_bytes K enc st o) = (2 * blen)%nat /\
  exists st', curve_from_bytes K a b blen dec o' (curve_to_bytes K enc st o) st1 = Ok st' /\ cval st' o' = Some P /\
    forall p, p <> o' -> cval st' p = cval st1 p.
Proof.
  intros st st1 o o' [u v] V H. split; [apply (to_bytes_len K blen enc (proj1 CD)) | ].
  apply (bytes_round_trip K HK a b blen enc dec (proj1 CD) (proj2 CD) o o' st st1 u v V H).
Qed.
Lemma bytes_any_pub : forall (st : cst K) o data, (2 * blen <= length data)%nat ->
  exists st', curve_from_bytes K a b blen dec o data st = Ok st' /\ on_curve K a b (cval st' o) /\
    forall p, p <> o -> cval st' p = cval st p.
Proof.
  intros st o data L. destruct (from_bytes_any K HK a b blen enc dec (proj1 CD) (proj2 CD) o data st L) as (st' & E & O & F & _).
  exists st'. auto.
Qed.
Variables (sign : K -> Z) (is_sqr : K -> bool) (sqrt : K -> res K).
Hypothesis SG : is_sign K sign.
Hypothesis GR : good_roots K is_sqr sqrt.
Lemma compressed_pub : forall (st st1 : cst K) o o' P, cval st o = Some P -> on_curve K a b (Some P) ->
  length (to_bytes_compressed K enc sign st o) = (blen + 1)%nat /\
  exists st', from_bytes_compressed K a b blen dec sign sqrt o' (to_bytes_compressed K enc sign st o) st1 = Ok st' /\
    cval st' o' = Some P /\ forall p, p <> o' -> cval st' p = cval st1 p.
Proof.
  intros st st1 o o' [u v] V H. split; [apply (to_compressed_len K blen enc sign (proj1 CD)) | ].
  apply (compressed_round_trip K HK a b blen enc dec sign sqrt (proj1 CD) (proj2 CD) (proj1 SG) (proj2 SG) (proj2 GR) o o' st st1 u v V H).
Qed.
Lemma x_only_pub : forall (st st1 : cst K) o o' P, cval st o = Some P -> on_curve K a b (Some P) ->
  length (to_bytes_x_only K enc st o) = blen /\
  exists st', from_bytes_x_only K a b blen dec sqrt o' (to_bytes_x_only K enc st o) st1 = Ok st' /\
    (cval st' o' = Some P \/ cval st' o' = pneg (Some P)) /\ forall p, p <> o' -> cval st' p = cval st1 p.
Proof.
  intros st st1 o o' [u v] V H. split; [apply (to_x_len K blen enc (proj1 CD)) | ].
  apply (x_only_round_trip K HK a b blen enc dec sqrt (proj1 CD) (proj2 CD) (proj2 GR) o o' st st1 u v V H).
Qed.
End Codec.

Section H.
Variable K : fld.
Hypothesis HK : fld_laws K.
Variables a b : K.
Hypothesis EL : elliptic K a b.
Variables (sign : K -> Z) (hash : list Z -> K).
Hypothesis SG : is_sign K sign.
Lemma hash_pub : forall is_sqr sqrt cofac data n Y, good_roots K is_sqr sqrt -> (forall c, cofac = Some c -> 0 <= c) ->
  first_square K a b n (hash data) -> fmul Y Y = rhs K a b (orbit K n (hash data)) -> 0 <= sign Y ->
  forall fuel, curve_from_hash K a b sign is_sqr sqrt hash fuel cofac data =
    if (n <? fuel)%nat then Ok (cleared K a cofac (Some (orbit K n (hash data), Y))) else OutOfFuel.
Proof. exact (from_hash_ok K HK a b EL sign hash (proj1 SG) (proj2 SG)). Qed.
Lemma hash_sound_pub : forall is_sqr sqrt cofac data fuel P, good_roots K is_sqr sqrt -> (forall c, cofac = Some c -> 0 <= c) ->
  curve_from_hash K a b sign is_sqr sqrt hash fuel cofac data = Ok P ->
  on_curve K a b P /\ exists R, on_curve K a b R /\ P = cleared K a cofac R.
Proof. exact (from_hash_sound K HK a b EL sign hash (proj1 SG) (proj2 SG)). Qed.
(** two non-residues used by the square root *)
Lemma tonelli_good : forall q, has_order K q -> Z.odd q = true -> forall nqr is_sqr, ~ is_square nqr ->
  (forall x, is_sqr x = true <-> is_square x) -> good_roots K is_sqr (element_tonelli K q nqr).
Proof.
  intros q Hq Oq nqr is_sqr N I. split; auto. intros x H. apply (tonelli_correct K HK q Hq Oq); auto.
Qed.
Lemma hash_choice_pub : forall q, has_order K q -> Z.odd q = true -> forall is_sqr, (forall x, is_sqr x = true <-> is_square x) ->
  forall nqr1 nqr2, ~ is_square nqr1 -> ~ is_square nqr2 -> forall cofac, (forall c, cofac = Some c -> 0 <= c) ->
  forall data fuel, curve_from_hash K a b sign is_sqr (element_tonelli K q nqr1) hash fuel cofac data =
                    curve_from_hash K a b sign is_sqr (element_tonelli K q nqr2) hash fuel cofac data.
Proof.
  intros q Hq Oq is_sqr I nqr1 nqr2 N1 N2 cofac HC data fuel.
  pose proof (tonelli_good q Hq Oq nqr1 is_sqr N1 I) as G1. pose proof (tonelli_good q Hq Oq nqr2 is_sqr N2 I) as G2.
  destruct (hash_loop K a b is_sqr fuel (hash data)) as [r | | | ] eqn:L.
  - destruct (hash_loop_inv K HK a b is_sqr I _ _ _ L) as (n & _ & S & N).
    destruct (sign_root K HK a b sign (proj1 SG) _ S) as (Y & E & SY).
    rewrite (hash_pub is_sqr _ cofac data n Y G1 HC (conj S N) E SY), (hash_pub is_sqr _ cofac data n Y G2 HC (conj S N) E SY). auto.
  - unfold curve_from_hash. rewrite L. reflexivity.
  - unfold curve_from_hash. rewrite L. reflexivity.
  - unfold curve_from_hash. rewrite L. reflexivity.
Qed.
End H.

Lemma trace_int : forall alpha beta n, 1 <= n -> trace_n (alpha * beta) (alpha + beta) n = alpha ^ n + beta ^ n.
Proof.
  intros al be n Hn. unfold trace_n.
  assert (G : forall m i c1 c2, 0 <= i -> c1 = al ^ (i + 1) + be ^ (i + 1) -> c2 = al ^ i + be ^ i ->
    trace_loop m (al * be) (al + be) c1 c2 = al ^ (i + 1 + Z.of_nat m) + be ^ (i + 1 + Z.of_nat m)).
  { induction m as [ | m IH]; intros i c1 c2 Hi E1 E2; cbn [trace_loop].
    - rewrite Z.add_0_r. auto.
    - rewrite (IH (i + 1)); [ | lia | | auto].
      + replace (i + 1 + 1 + Z.of_nat m) with (i + 1 + Z.of_nat (S m)) by lia. auto.
      + rewrite E1, E2. rewrite !(Z.pow_add_r _ (i + 1) 1), !(Z.pow_add_r _ i 1) by lia. rewrite !Z.pow_1_r. ring. }
  rewrite (G _ 0); [ | lia | cbn; lia | cbn; lia]. replace (0 + 1 + Z.of_nat (Z.to_nat (n - 1))) with n by lia. auto.
Qed.
Lemma order_extn_pub : forall (K : fld), fld_laws K -> forall (q t : Z) (alpha beta : K),
  fadd alpha beta = fofz t -> fmul alpha beta = fofz q -> forall k, 1 <= k ->
  fofz (curve_order_extn q t k) = fsub (fadd (fofz (q ^ k)) f1) (fadd (fpow alpha k) (fpow beta k)).
Proof.
  intros K HK q t al be ES EP k Hk. unfold curve_order_extn. unfold Z.sub.
  rewrite (fofz_add K HK), (fofz_opp K HK), (fofz_add K HK), (trace_ok K HK q t al be ES EP) by auto.
  destruct (fl_field K HK) as [[A1 A2 A3 A4 A5 A6 A7 A8 A9] F1 F2 F3]. rewrite A8.
  reflexivity.
Qed.
