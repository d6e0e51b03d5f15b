(** Type F: the coefficient b and the sextic polynomial. *)
From Coq Require Import ZArith Znumtheory List Bool Lia Arith Ring Field.
From Verif.Base Require Import Outcome Array Algebra Slots.
From Verif.Spec Require Import FiniteField Polynomials Extension Roots Curve CurveCalls HashToCurve CurveChoice.
From Verif.Model Require Import GenericPow IntText Poly PolyTests Curve CurveCodec CurveGen.
From Verif.Proofs Require Import FieldFacts SlotFacts PowFacts PowHom CurveGroup CurveFacts CodecFacts ExtFacts PolyTestsFacts CurveGenFacts CurveGenOrders SexticExt SexticFive.
Import ListNotations.
Open Scope Z_scope.

Section F.
Variable K : fld.
Hypothesis HK : fld_laws K.
Add Field KFgf : (fl_field K HK).
Hypothesis C2 : f2 K <> f0.
Hypothesis C3 : f3 K <> f0.
Variables (is_sqr : K -> bool) (sqrt : K -> res K).
Hypothesis GR : good_roots K is_sqr sqrt.
Notation test_order := (test_order K is_sqr sqrt).
Notation f_curve_loop := (f_curve_loop K is_sqr sqrt).

Lemma elliptic_b : forall b : K, b <> f0 -> elliptic K f0 b.
Proof.
  intros b N. split; auto. intro Z. assert (Z' : fmul (fmul (fmul (f3 K) (f3 K)) (f3 K)) (fmul b b) = f0) by (rewrite <- Z; ring).
  revert Z'. repeat apply (f_mul_nz K HK); auto.
Qed.
Theorem f_curve_sound : forall r xs src b xs' src', 0 <= r -> Forall (Z.le 0) xs -> f_curve_loop r xs src = Ok (b, xs', src') ->
  b = f0 \/ exists G x, In x xs /\ on_curve K f0 b G /\ G <> None /\ (pzmul K f0 x G = None \/ order_r K f0 b r (pzmul K f0 x G)).
Proof.
  intros r xs. induction xs as [ | x xs IH]; intros src b xs' src' Hr HX H; [discriminate | ].
  destruct src as [ | b0 src]; [discriminate | ]. cbn [CurveGen.f_curve_loop] in H. inversion HX as [ | ? ? Hx HXs]; subst.
  destruct (f_eq_dec K HK b0 f0) as [-> | N].
  - destruct (test_order f0 f0 r x src) as [[[] s] | | | ]; cbn [bind] in H; try discriminate; [inversion H; auto | ].
    destruct (IH _ _ _ _ Hr HXs H) as [Z | (G & y & I & R)]; auto. right. exists G, y. split; [right; auto | auto].
  - pose proof (elliptic_b b0 N) as EL.
    destruct (test_ok K HK is_sqr sqrt GR f0 b0 EL r x src Hr Hx) as [(G & s & D & O & NG & E) | (_ & E)]; rewrite E in H; cbn [bind] in H; [ | discriminate].
    destruct (pzmul K f0 r (pzmul K f0 x G)) as [P | ] eqn:T.
    + destruct (IH _ _ _ _ Hr HXs H) as [Z | (G' & y & I & R)]; auto. right. exists G', y. split; [right; auto | auto].
    + inversion H; subst. right. exists G, x. split; [left; auto | ]. split; auto. split; auto.
      destruct (pzmul K f0 x G) as [P | ] eqn:E2; [right | left; auto]. split; [ | split; auto; discriminate].
      rewrite <- E2. destruct EL as (C2' & SM). apply (pzmul_on K HK f0 b C2'); auto.
Qed.
(** a draw of 0 accepts any b *)
Theorem f_curve_zero : forall r xs b src G src', 0 <= r -> b <> f0 -> draw_point K is_sqr sqrt f0 b src = Ok (G, src') ->
  f_curve_loop r (0 :: xs) (b :: src) = Ok (b, xs, src').
Proof.
  intros r xs b src G src' Hr N D. cbn [CurveGen.f_curve_loop].
  destruct (test_ok K HK is_sqr sqrt GR f0 b (elliptic_b b N) r 0 src Hr ltac:(lia)) as [(G' & s & D' & O & NG & E) | (E & _)]; [ | congruence].
  rewrite E. cbn [bind]. change (pzmul K f0 0 G') with (None : point K). rewrite pzmul_0. congruence.
Qed.
(** a curve with the right order is accepted at once *)
Theorem f_curve_accepts : forall r x xs b src G src', 0 <= r -> 0 <= x -> b <> f0 -> killed K f0 b r -> draw_point K is_sqr sqrt f0 b src = Ok (G, src') ->
  f_curve_loop r (x :: xs) (b :: src) = Ok (b, xs, src').
Proof.
  intros r x xs b src G src' Hr Hx N KL D. cbn [CurveGen.f_curve_loop]. pose proof (elliptic_b b N) as EL.
  destruct (test_ok K HK is_sqr sqrt GR f0 b EL r x src Hr Hx) as [(G' & s & D' & O & NG & E) | (E & _)]; [ | congruence].
  rewrite E. cbn [bind]. rewrite KL; [congruence | ]. destruct EL as (C2' & SM). apply (pzmul_on K HK f0 b C2'); auto.
Qed.
End F.

Section S.
Variable L : fld.
Hypothesis HL : fld_laws L.
Add Field LFgf : (fl_field L HL).
Variables (p e : nat).
Hypothesis Pp : prime (Z.of_nat p).
Hypothesis HO : has_order L (Z.of_nat (p ^ e)).
Notation order := (Z.of_nat (p ^ e)).
Variables (isprime : Z -> bool) (nextprime : Z -> Z).
Hypothesis Hip : forall m, 1 <= m -> isprime m = true <-> prime m.
Hypothesis Hnp : forall p, prime p -> p < nextprime p /\ prime (nextprime p) /\ forall q, prime q -> p < q -> nextprime p <= q.
Hypothesis C2 : f2 L <> f0.
Hypothesis C3 : f3 L <> f0.
Variables (is_sqr : L -> bool) (sqrt : L -> res L).
Hypothesis GR : good_roots L is_sqr sqrt.
Notation sextic_loop := (sextic_loop L order isprime nextprime).
Notation sextic_gen := (sextic_gen L order isprime nextprime is_sqr sqrt).

Lemma sextic_draw : forall alpha src,
  (irreducible (sextic L alpha) /\ sextic_loop (alpha :: src) = Ok (alpha, src)) \/
  (~ irreducible (sextic L alpha) /\ sextic_loop (alpha :: src) = sextic_loop src).
Proof.
  intros alpha src. cbn [CurveGen.sextic_loop].
  destruct (is_irred_ok L HL p e Pp HO isprime nextprime Hip Hnp (sextic L alpha) 6) as (b & E & B); [split; reflexivity | lia | ].
  rewrite E. cbn [bind]. destruct b; [left | right]; split; auto; [apply B; auto | intro Q; apply B in Q; discriminate].
Qed.
Lemma sextic_sound : forall src, (exists alpha src', sextic_loop src = Ok (alpha, src') /\ irreducible (sextic L alpha)) \/ sextic_loop src = OutOfFuel.
Proof.
  intro src. induction src as [ | alpha src IH]; [right; auto | ].
  destruct (sextic_draw alpha src) as [(I & E) | (_ & E)]; rewrite E; auto. left. eauto.
Qed.
Definition fifth (x : L) : L := fmul x (fmul x (fmul x (fmul x x))).
Lemma pow5 : forall x : L, generic_pow_mpz (mul_monoid L) x 5 = Ok (fifth x).
Proof.
  intro x. rewrite (generic_pow_spec (mul_monoid L) (mul_monoid_laws L HL)) by lia. f_equal. unfold zpow, fifth. change (Z.to_nat 5) with 5%nat. cbn [npow mmul mone mul_monoid]. change (@eq L (fmul x (fmul x (fmul x (fmul x (fmul x f1))))) (fmul x (fmul x (fmul x (fmul x x))))). ring.
Qed.
Theorem sextic_ok : forall b q t r x src alpha' src', b <> f0 -> 0 <= x -> 0 <= (q ^ 12 + 1 - trace_n q t 12) / (r * r) ->
  sextic_gen b q t r x src = Ok (alpha', src') ->
  irreducible (sextic L alpha') /\
  exists alpha G, irreducible (sextic L alpha) /\ on_curve L f0 (fopp (fmul b alpha)) G /\ G <> None /\
  let P := pzmul L f0 ((q ^ 12 + 1 - trace_n q t 12) / (r * r)) (pzmul L f0 x G) in
  (P <> None /\ alpha' = alpha) \/ (P = None /\ alpha' = fifth alpha).
Proof.
  intros b q t r x src alpha' src' Nb Hx Hz H. unfold CurveGen.sextic_gen in H.
  destruct (sextic_sound src) as [(alpha & s & E & I) | E]; rewrite E in H; cbn [bind] in H; [ | discriminate].
  unfold fix_twist in H. set (z1 := (q ^ 12 + 1 - trace_n q t 12) / (r * r)) in *. cbv zeta in H.
  assert (Na : alpha <> f0) by exact (alpha_nz L HL alpha I).
  assert (EL : elliptic L f0 (fopp (fmul b alpha))) by (apply (elliptic_b L HL C2 C3); apply (f_opp_nz L HL), (f_mul_nz L HL); auto).
  destruct (test_ok L HL is_sqr sqrt GR _ _ EL z1 x s Hz Hx) as [(G & s' & D & O & NG & E') | (_ & E')]; rewrite E' in H; cbn [bind] in H; [ | discriminate].
  destruct (pzmul L f0 z1 (pzmul L f0 x G)) as [P | ] eqn:T; cbn [bind] in H.
  - inversion H; subst. split; auto. exists alpha', G. split; auto. split; auto. split; auto. left. split; auto. rewrite T. discriminate.
  - rewrite pow5 in H. cbn [bind] in H. inversion H; subst. split; [apply (five_irreducible L HL alpha I) | ].
    exists alpha, G. split; auto.
Qed.
(** a point of order r on the twist that is kept *)
Theorem kept_order : forall b q t r alpha G x, let E' := fopp (fmul b alpha) in let n12 := q ^ 12 + 1 - trace_n q t 12 in
  elliptic L f0 E' -> 0 < r -> 0 <= n12 -> 0 <= x -> n12 / (r * r) * (r * r) = n12 -> killed L f0 E' n12 -> on_curve L f0 E' G ->
  pzmul L f0 (n12 / (r * r)) (pzmul L f0 x G) <> None -> exists Q, order_r L f0 E' r Q.
Proof.
  intros b q t r alpha G x E' n12 EL Hr Hn Hx Ex KL O N. destruct EL as (C2' & SM).
  set (z1 := n12 / (r * r)) in *. set (P := pzmul L f0 x G) in *. assert (Hz : 0 <= z1) by (apply Z.div_pos; nia).
  assert (OP : on_curve L f0 E' P) by (apply (pzmul_on L HL f0 E' C2'); auto).
  assert (OQ : on_curve L f0 E' (pzmul L f0 z1 P)) by (apply (pzmul_on L HL f0 E' C2'); auto).
  assert (R2 : pzmul L f0 r (pzmul L f0 r (pzmul L f0 z1 P)) = None).
  { rewrite <- (zmul_mul L HL f0 E' C2' SM (pzmul L f0 z1 P) r r) by (auto; lia). rewrite <- (zmul_mul L HL f0 E' C2' SM P (r * r) z1) by (auto; nia).
    replace (r * r * z1) with n12 by lia. apply KL; auto. }
  destruct (pzmul L f0 r (pzmul L f0 z1 P)) as [Q | ] eqn:T.
  - exists (Some Q). split; [rewrite <- T; apply (pzmul_on L HL f0 E' C2'); auto | split; [discriminate | auto]].
  - exists (pzmul L f0 z1 P). split; auto.
Qed.
End S.
