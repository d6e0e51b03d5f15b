(** The programs of example/ over type A1: the first argument of each pairing
    has to be an input of the pairing. *)
From Coq Require Import ZArith Znumtheory List Bool Lia.
From Verif.Base Require Import Outcome Gmp Algebra Slots.
From Verif.Spec Require Import FiniteField Quadratic Curve Tate PairingValue HashToCurve.
From Verif.Model Require Import GenericPow Curve CurveCodec GT Pairing PairingA PairingA1 Examples.
From Verif.Proofs Require Import GmpFacts FieldFacts QuadFacts ZpField CurveGroup CurveFacts BilinearZ Twisted TwistedValue PairingA1Facts PairingA1Witness
  ExampleFacts ExampleBls.
From Verif.Model Require Import Pairing.
Import ListNotations.
Local Open Scope Z_scope.

Section A1.
Variable K : fld.
Variables p n l : Z.
Hypothesis TA : type_a1 K p n l.
Variable m : a_method.
Local Notation v := (fopp f1 : K).
Local Notation L := (Quad K v).
Local Notation G := (torsion K f1 f0 n).
Local Notation inp := (a1_input K n).
Local Notation val := (type_a_value K p n).
Local Notation pr := (pairing_apply (a1_pairing K n l m)).
Local Notation pz := (pzmul K f1).
Local Notation add := (padd K f1).
Let HK := t1_field _ _ _ _ TA.
Let HL : fld_laws L := Quad_laws K HK v (vns1 K p n l TA).
Let HE := ell1 K p n l TA.
Let N3 := t1_n _ _ _ _ TA.
Let NO := t1_odd _ _ _ _ TA.
Let R1 : 1 < n. Proof. lia. Qed.
Let RP : 0 < n. Proof. lia. Qed.
Let PV : forall P Q, G P -> G Q -> inp P -> pr P Q = Ok (val P Q).
Proof. intros P Q HP [HQ _] D. apply (a1_apply K p n l TA); auto. Qed.
Let A1 : forall P P' Q, G P -> G P' -> G Q -> val (add P P') Q = fmul (val P Q) (val P' Q).
Proof. intros P P' Q HP HP' [HQ _]. apply (a1_add1 K p n l TA); auto. Qed.
Let A2 : forall P Q Q', G P -> G Q -> G Q' -> val P (add Q Q') = fmul (val P Q) (val P Q').
Proof. intros P Q Q' HP [HQ _] [HQ' _]. apply (a1_add2 K p n l TA); auto. Qed.
Let AM : forall i k P Q, G P -> G Q -> val (pz i P) (pz k Q) = fpow (val P Q) ((i * k) mod n).
Proof. intros i k P Q HP [HQ _]. apply (a1_bilinear K p n l TA); auto. Qed.
Let AR : forall P Q, G P -> G Q -> fpow (val P Q) n = f1.
Proof. intros P Q HP [HQ _]. apply (a1_value_r K p n l TA); auto. Qed.

(** multiples of a point of order n by integers coprime to n *)
Lemma coprime_exact : forall P x, G P -> exact_order K f1 n P -> 0 <= x -> Z.gcd x n = 1 -> exact_order K f1 n (pz x P).
Proof.
  intros P x GP (E0 & E1) Hx GC. pose proof (t_mul K HK f1 f0 HE n RP x P GP) as [_ T]. split; [exact T | ]. intros k Hk E.
  pose proof (t_mul K HK f1 f0 HE n RP k P GP) as [O' T'].
  apply (coprime_finite K HK f1 f0 HE n RP (pz k P) O' T' x (E1 k Hk) Hx GC).
  rewrite <- (zmul_mul K HK f1 f0 (proj1 HE) (proj2 HE)) in E by (try apply GP; lia).
  rewrite <- (zmul_mul K HK f1 f0 (proj1 HE) (proj2 HE)) by (try apply GP; lia). rewrite Z.mul_comm. exact E.
Qed.
Lemma exact_inp : forall P, on_curve K f1 f0 P -> exact_order K f1 n P -> inp P.
Proof. intros P O E. split; [split; auto; apply E | ]. intros _. apply (exact_regular K f1 n N3 NO). auto. Qed.
Lemma coprime_input : forall P x, on_curve K f1 f0 P -> exact_order K f1 n P -> 0 <= x -> Z.gcd x n = 1 -> inp (pz x P).
Proof.
  intros P x O E Hx GC. assert (GP : G P) by (split; auto; apply E). apply exact_inp; [ | apply coprime_exact; auto].
  apply (t_mul K HK f1 f0 HE n RP x P GP).
Qed.
Lemma neg_input : forall P, inp P -> inp (pneg P).
Proof.
  intros P (GP & RG). split; [apply (t_neg K HK f1 f0 HE n RP); auto | ]. intros N. assert (N' : P <> None) by (intros ->; apply N; reflexivity).
  assert (B : forall k, pz k P <> None -> pz k (pneg P) <> None).
  { intros k H E. apply H. rewrite <- (neg_neg K HK P). apply (order_neg K HK f1 f0 HE); auto. apply (neg_on K HK f1 f0). apply GP. }
  intros i Hi k Hk. destruct (RG N' i Hi Hk) as (R2 & R3 & R4). split; [auto | ]. split; auto.
Qed.

Theorem a1_bls : forall blen enc dec sign is_sqr sqrt, is_code K blen enc dec -> is_sign K sign -> good_roots K is_sqr sqrt ->
  forall st0 g x hh rs, inp hh -> on_curve K f1 f0 g -> inp rs -> 0 <= x -> pz x hh <> None -> inp (pz x hh) ->
  bls K K L f1 f0 f1 blen enc dec sign sqrt pr st0 g x hh rs = Ok (true, true, feqb (val rs g) (fpow (val hh g) x)).
Proof.
  intros blen enc dec sign is_sqr sqrt C S R st0 g x hh rs Hh Hg Hs Hx N D.
  apply (bls_def K K L HK HK HL f1 f0 f1 f0 HE HE n RP (on_curve K f1 f0)) with (is_sqr := is_sqr) (def := fun P _ => inp P); auto.
  - intros k Q O. apply (pzmul_on K HK f1 f0 (proj1 HE)). auto.
  - intros P Q HP HQ D'. apply (a1_apply K p n l TA); auto.
  - intros i k P Q HP HQ. apply (a1_bilinear K p n l TA); auto.
  - intros P Q HP HQ. apply (a1_value_r K p n l TA); auto.
  - apply Hh.
  - apply Hs.
  - apply neg_input. auto.
Qed.
Variable to_mpz : L -> Z.
Theorem a1_joux : forall P x y z, G P -> 0 <= x -> 0 <= y -> 0 <= z -> inp (pz x P) -> inp (pz y P) ->
  joux K L f1 pr P x y z = let k := fpow (val P P) (x * y * z) in Ok (k, k, k).
Proof. intros. apply (joux_ok K L HK HL f1 f0 HE n R1 pr val inp PV AM AR P x y z); auto. Qed.
Theorem a1_hess : forall P Qid P1 s k hm, G P -> inp Qid -> inp P1 -> 0 <= s -> 0 <= k ->
  let v := (hm * to_mpz (fpow (val P1 P) k)) mod n in let u := add (pz v (pz s Qid)) (pz k P1) in inp u ->
  hess K L f1 n pr to_mpz P Qid P1 s k hm = Ok (v, u, v, true).
Proof. intros P Qid P1 s k hm HP HQ H1 S Kk w u D. apply (hess_ok K L HK HL f1 f0 HE n R1 pr val inp PV A1 A2 AM AR to_mpz); auto; [apply HQ | apply H1]. Qed.
Theorem a1_paterson : forall P Qid s k h2 h3, G Qid -> 0 <= s -> 0 <= k -> 0 <= h2 -> (forall R, 0 <= h3 R) -> inp P ->
  (Z.gcd k n = 1 -> inp (pz s P) -> inp (pz k P) -> exists R S, paterson K L f1 n pr P Qid s k h2 h3 = Ok (R, S, true) /\ G R /\ G S) /\
  (Z.gcd k n <> 1 -> paterson K L f1 n pr P Qid s k h2 h3 = UB).
Proof.
  intros P Qid s k h2 h3 HQ S Kk HH H3 D. pose proof (proj1 D) as HP. split; intros NK.
  - intros D2 D3. apply (paterson_ok K L HK HL f1 f0 HE n R1 pr val inp PV A2 AM AR); auto.
  - apply (paterson_zero K L HK f1 f0 HE n R1 pr); auto.
Qed.
Theorem a1_yuanli : forall P Qa Qb s x y, G P -> G Qa -> G Qb -> 0 <= s -> 0 <= x -> 0 <= y ->
  inp (add (pz x (pz s P)) (pz s Qa)) -> inp (add (pz x P) Qa) -> inp (pz y (pz x P)) ->
  exists k, yuanli K L f1 pr P Qa Qb s x y = Ok (k, k, true) /\
  k = fmul (fpow (val P (add Qa Qb)) (x * y)) (fpow (val (add (pz x P) Qa) (add (pz y P) Qb)) s).
Proof. intros. apply (yuanli_ok K L HK HL f1 f0 HE n R1 pr val inp PV A1 A2 AM AR); auto. Qed.
Theorem a1_zhangkim : forall P Qid s rr x y hm, G P -> inp Qid -> 0 <= s -> 0 <= rr -> 0 <= x -> 0 <= y ->
  let t := add (pz y Qid) (add (pz rr P) (pz x P)) in let c := (hm * to_mpz (val t (pz s P))) mod n in
  let S := add (add (pz ((c + y) mod n) (pz s Qid)) (pz rr (pz s P))) (pz x (pz s P)) in inp t -> inp S ->
  zhangkim K L f1 n pr to_mpz P Qid s rr x y hm = Ok (S, c, c, true).
Proof.
  intros P Qid s rr x y hm HP HQ S R X Y t c S0 D1 D2. apply (zhangkim_ok K L HK HL f1 f0 HE n R1 pr val inp PV A1 AM AR to_mpz); auto. apply HQ.
Qed.
Theorem a1_zss : forall P x hm, inp P -> 0 <= x -> 0 <= hm ->
  (Z.gcd (hm + x) n = 1 -> inp (add (pz hm P) (pz x P)) -> exists S, zss K L f1 n pr P x hm = Ok (S, true) /\ G S) /\
  (Z.gcd (hm + x) n <> 1 -> zss K L f1 n pr P x hm = UB).
Proof.
  intros P x hm D X HH. pose proof (proj1 D) as HP. split; intros N.
  - intros D1. apply (zss_ok K L HK HL f1 f0 HE n R1 pr val inp PV A1 AM AR); auto.
  - apply (zss_zero K L HK f1 f0 HE n R1 pr); auto.
Qed.
End A1.

(** p = 59, n = 15: joux.c with the secret 5, which is not 0, and zss.c with
    H(m) + x = 3 *)
Lemma a1_shared_factor_w : exists (K : fld) p n l (P : point K), type_a1 K p n l /\ on_curve K f1 f0 P /\ exact_order K f1 n P /\
  forall m, let pr := pairing_apply (a1_pairing K n l m) in
  joux K (Quad K (fopp f1)) f1 pr P 5 1 1 = UB /\ zss K (Quad K (fopp f1)) f1 n pr P 1 2 = UB.
Proof.
  exists F59, 59, 15, 4, P59. split; [exact type_a1_59 | ]. split; [exact (proj1 (proj1 P59_input)) | ]. split; [exact P59_exact | ].
  intros []; split; vm_compute; reflexivity.
Qed.
