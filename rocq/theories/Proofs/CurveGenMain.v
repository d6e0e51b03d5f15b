(** Generated parameters meet the requirements of the pairings; small cases. *)
From Coq Require Import ZArith Znumtheory List Bool Lia Arith Ring Field.
From Verif.Base Require Import Outcome Array Algebra Slots.
From Verif.Spec Require Import FiniteField Polynomials Extension Quadratic Roots Curve CurveCalls HashToCurve CurveChoice Twist PairingValueD PairingValueF.
From Verif.Model Require Import GenericPow IntText Poly PolyTests Curve CurveCodec CurveGen.
From Verif.Proofs Require Import FieldFacts SlotFacts PowFacts CurveGroup CurveFacts CodecFacts ZpField RootFacts ExtFacts PolymodFacts ExtFrobenius QuadFacts Frobenius FieldChar PolyAlgebra PolyTestsFacts PolySearchWitness CurveGenFacts CurveGenOrders CurveGenF CurveWitness IntTextWitness.
From Verif.Model Require Import CurveGen.
Import ListNotations.
Open Scope Z_scope.

Section D.
Variable K : fld.
Hypothesis HK : fld_laws K.
Variable q : Z.
Hypothesis Pq : prime q.
Hypothesis Q3 : 3 < q.
Hypothesis HO : has_order K q.
Variables (isprime : Z -> bool) (nextprime : Z -> Z).
Hypothesis Hip : forall m, 1 <= m -> isprime m = true <-> prime m.
Hypothesis Hnp : forall p, prime p -> p < nextprime p /\ prime (nextprime p) /\ forall q, prime q -> p < q -> nextprime p <= q.
Variables (is_sqr : K -> bool) (sqrt : K -> res K).
Hypothesis GR : good_roots K is_sqr sqrt.
Lemma q_nat : Z.of_nat (Z.to_nat q ^ 1) = q. Proof. rewrite Nat.pow_1_r. lia. Qed.
Lemma q_nat0 : Z.of_nat (Z.to_nat q) = q. Proof. lia. Qed.
Lemma HO' : has_order K (Z.of_nat (Z.to_nat q ^ 1)). Proof. rewrite q_nat. auto. Qed.
Lemma Pp' : prime (Z.of_nat (Z.to_nat q)). Proof. rewrite q_nat0. auto. Qed.
Lemma q_odd : Z.odd q = true.
Proof.
  destruct (Z.odd q) eqn:E; auto. exfalso. rewrite <- Z.negb_even in E. apply negb_false_iff, Z.even_spec in E. destruct E as (k & E).
  destruct (prime_divisors q Pq 2) as [H | [H | [H | H]]]; try lia. exists k. lia.
Qed.
Lemma const_square : forall n (m : list K) c, monic m n -> (0 < n)%nat -> is_square c -> is_square (const K n m c).
Proof.
  intros n m c Hm Hn (y & E). destruct (Nat.eq_dec n 1) as [-> | ].
  - exists (const K 1 m y). change (const K 1 m y) with (cvec K 1 m y). change (const K 1 m c) with (cvec K 1 m c). rewrite (cvec_mul K HK 1 m Hm Hn).
    apply vec_ext. intros i Hi. rewrite vcoef_mk. unfold cvec. rewrite !vcoef_mk. destruct (Nat.ltb_spec i 1); [ | lia]. replace i with 0%nat by lia. cbn. auto.
  - exists (const K n m y). rewrite <- E. symmetry. apply (em_mul _ _ _ (cvec_embedding K HK n m Hm ltac:(lia))).
Qed.
Theorem dg_generated : forall n r fuel src m c src', (2 <= n)%nat -> Nat.odd n = true -> prime r -> 2 < r -> (r | q ^ Z.of_nat n + 1) ->
  extension_gen K q isprime nextprime fuel n src = Ok (m, c, src') -> c <> f0 ->
  forall nqr coeffs d N x src2 a b src3, nqr <> f0 -> 0 <= N -> 0 <= x -> monic (map fofz coeffs : list K) d -> (2 <= d)%nat ->
  (exists j : K, is_root (map fofz coeffs) j) -> ~ is_root (map fofz coeffs) (f0 : K) ->
  cm_curve K q is_sqr sqrt nqr coeffs N x src2 = Ok (a, b, src3) ->
  type_dg K n m c a b q r.
Proof.
  intros n r fuel src m c src' Hn On Pr R2 Dv H Nc nqr coeffs d N x src2 a b src3 Nv HN Hx Mh Hd EX NR H2.
  rewrite <- q_nat in H. destruct (gen_sound K HK (Z.to_nat q) 1 Pp' HO' ltac:(rewrite q_nat; exact q_odd) isprime nextprime Hip Hnp n ltac:(lia) fuel src) as [(f & c' & s & E & Mf & If & S) | E];
   rewrite E in H; [ | discriminate]. inversion H; subst f c' s. destruct S as [S | S]; [contradiction | ].
  rewrite <- q_nat in H2. destruct (cm_sound K HK (Z.to_nat q) 1 Pp' HO' (f2_nz K HK q Pq HO ltac:(lia)) (f3_nz K HK q Pq HO Q3) is_sqr sqrt GR coeffs d Mh Hd nqr N x src2 a b src3 Nv HN Hx H2)
    as [(j & R & _ & _ & EL) | (NE & _)]; [ | contradiction].
  constructor; auto; [ | apply EL; intros ->; contradiction]. intro SQ. apply S. apply const_square; auto. lia.
Qed.
Theorem d_generated : forall r fuel src m c src', prime r -> 2 < r -> (r | q * q - q + 1) ->
  extension_gen K q isprime nextprime fuel 3 src = Ok (m, c, src') -> c <> f0 ->
  forall nqr coeffs d N x src2 a b src3, nqr <> f0 -> 0 <= N -> 0 <= x -> monic (map fofz coeffs : list K) d -> (2 <= d)%nat ->
  (exists j : K, is_root (map fofz coeffs) j) -> ~ is_root (map fofz coeffs) (f0 : K) ->
  cm_curve K q is_sqr sqrt nqr coeffs N x src2 = Ok (a, b, src3) ->
  type_d K 3 m c a b q r.
Proof.
  intros r fuel src m c src' Pr R2 (k & Dv) H Nc nqr coeffs d N x src2 a b src3 Nv HN Hx Mh Hd EX NR H2. split; [ | intros _; exists k; auto].
  apply (dg_generated 3 r fuel src m c src' ltac:(lia) eq_refl Pr R2) with (nqr := nqr) (coeffs := coeffs) (d := d) (N := N) (x := x) (src2 := src2) (src3 := src3); auto.
  exists (k * (q + 1)). replace (k * (q + 1) * r) with ((q + 1) * (k * r)) by ring. rewrite <- Dv. change (Z.of_nat 3) with 3. ring.
Qed.
Theorem g_generated : forall r fuel src m c src', prime r -> 2 < r -> (r | 1 - q + q * q - q * q * q + q * q * q * q) ->
  extension_gen K q isprime nextprime fuel 5 src = Ok (m, c, src') -> c <> f0 ->
  forall nqr coeffs d N x src2 a b src3, nqr <> f0 -> 0 <= N -> 0 <= x -> monic (map fofz coeffs : list K) d -> (2 <= d)%nat ->
  (exists j : K, is_root (map fofz coeffs) j) -> ~ is_root (map fofz coeffs) (f0 : K) ->
  cm_curve K q is_sqr sqrt nqr coeffs N x src2 = Ok (a, b, src3) ->
  type_g K m c a b q r.
Proof.
  intros r fuel src m c src' Pr R2 (k & Dv) H Nc nqr coeffs d N x src2 a b src3 Nv HN Hx Mh Hd EX NR H2. split; [ | exists k; auto].
  apply (dg_generated 5 r fuel src m c src' ltac:(lia) eq_refl Pr R2) with (nqr := nqr) (coeffs := coeffs) (d := d) (N := N) (x := x) (src2 := src2) (src3 := src3); auto.
  exists (k * (q + 1)). replace (k * (q + 1) * r) with ((q + 1) * (k * r)) by ring. rewrite <- Dv. change (Z.of_nat 5) with 5. ring.
Qed.
End D.

Section F.
Variable K : fld.
Hypothesis HK : fld_laws K.
Variable q : Z.
Hypothesis Pq : prime q.
Hypothesis Q3 : 3 < q.
Hypothesis HO : has_order K q.
Variables (isprime : Z -> bool) (nextprime : Z -> Z).
Hypothesis Hip : forall m, 1 <= m -> isprime m = true <-> prime m.
Hypothesis Hnp : forall p, prime p -> p < nextprime p /\ prime (nextprime p) /\ forall q, prime q -> p < q -> nextprime p <= q.
Variable beta : K.
Hypothesis Nb : ~ is_square beta.
Local Notation L := (F2 K beta).
Variables (is_sqr : L -> bool) (sqrt : L -> res L).
Hypothesis GR : good_roots L is_sqr sqrt.
Let HL : fld_laws L := Quad_laws K HK beta Nb.
Lemma L_order : has_order L (Z.of_nat (Z.to_nat q ^ 2)).
Proof. rewrite Nat2Z.inj_pow, Z2Nat.id by lia. change (Z.of_nat 2) with 2. rewrite Z.pow_2_r. apply (Quad_order K beta q HO). Qed.
Theorem f_generated : forall r b t x src alpha src', prime r -> 2 < r -> (r | q ^ 4 - q ^ 2 + 1) -> b <> f0 -> 0 <= x ->
  0 <= q ^ 12 + 1 - trace_n q t 12 ->
  sextic_gen L (q * q) isprime nextprime is_sqr sqrt (low K beta b) q t r x src = Ok (alpha, src') ->
  type_f K beta alpha b q r.
Proof.
  intros r b t x src alpha src' Pr R2 Dv Nzb Hx Hn H.
  assert (C2 : f2 K <> f0) by (apply (f2_nz K HK q Pq HO); lia). assert (C3 : f3 K <> f0) by (apply (f3_nz K HK q Pq HO); lia).
  assert (EL : elliptic K f0 b) by (apply (elliptic_b K HK C2 C3); auto).
  assert (I : irreducible (CurveGen.sextic L alpha)).
  { assert (QQ : q * q = Z.of_nat (Z.to_nat q ^ 2)) by (rewrite Nat2Z.inj_pow, Z2Nat.id by lia; change (Z.of_nat 2) with 2; ring). rewrite QQ in H.
    apply (sextic_ok L HL (Z.to_nat q) 2 ltac:(rewrite Z2Nat.id by lia; exact Pq) L_order isprime nextprime Hip Hnp) in H; auto.
    - tauto.
    - intro Z. apply C2. exact (f_equal fst Z).
    - intro Z. apply C3. exact (f_equal fst Z).
    - intro Z. apply Nzb. exact (f_equal fst Z).
    - apply Z.div_pos; nia. }
  constructor; auto.
Qed.
End F.
