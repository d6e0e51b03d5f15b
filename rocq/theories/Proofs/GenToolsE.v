(** The program geneparam. *)
From Coq Require Import ZArith Znumtheory List Bool String Lia.
From Verif.Base Require Import Outcome Algebra Slots.
From Verif.Spec Require Import ParamText ParamEqs FiniteField Curve HashToCurve PairingValue PairingValueE GenTools.
From Verif.Model Require Import Pairing PairingA PairingE CurveGen Param ParamGen GenTools.
From Verif.Proofs Require Import ParamGenFacts ParamMain CurveFacts BilinearZ FieldChar PairingEApi CurveGenCases GenToolsFacts.
Import ListNotations.
Open Scope Z_scope.

Lemma torsion_mul : forall K : fld, fld_laws K -> forall a b : K, elliptic K a b -> forall r, 0 <= r -> forall i P, torsion K a b r P -> torsion K a b r (pzmul K a i P).
Proof.
  intros K HK a b HE r R0. destruct HE as [C2 NS] eqn:EHE.
  assert (forall i P, 0 <= i -> torsion K a b r P -> torsion K a b r (pzmul K a i P)) as Pos.
  { intros i P I0 [ON T]. split; [apply (pzmul_on K HK a b C2); exact ON|].
    rewrite <- (zmul_mul K HK a b C2 NS P r i ON R0 I0), Z.mul_comm, (zmul_mul K HK a b C2 NS P i r ON I0 R0), T. apply pzmul_0. }
  intros i P T. destruct (Z.le_gt_cases 0 i) as [L|L]; [apply Pos; auto|].
  split; [apply (pzmul_on K HK a b C2); exact (proj1 T)|].
  destruct i as [|p|p]; try lia. change (pzmul K a (Zneg p) P) with (pneg (pzmul K a (Zpos p) P)).
  destruct (Pos (Zpos p) P ltac:(lia) T) as [ON' T'].
  apply (order_neg K HK a b (conj C2 NS)); assumption.
Qed.

Lemma e_gen_bits : forall isprime fuel rbits rands hs p, rand_ok rands -> 4 <= rbits -> e_gen isprime fuel rbits rands hs = Ok p ->
  2 ^ (rbits - 1) - 1 <= a_r p < 2 ^ rbits /\ rbits - 1 <= exp2 (a_s p) <= rbits.
Proof.
  intros ip. induction fuel as [|k IH]; intros rbits rands hs p HR B H; [discriminate|]. cbn [e_gen] in H.
  destruct (solinas_gen rbits rands) as [[[s r] rest]| | |] eqn:E; try discriminate. cbn [bind] in H.
  pose proof (solinas_bits _ _ _ _ _ HR B E) as Bt. apply solinas_ok in E; auto. destruct E as (E1 & E2 & E3 & E4).
  destruct (ip r) eqn:P; [|eapply IH; eauto].
  destruct (e_inner ip 10 r hs) as [[o hs']| | |] eqn:E; try discriminate. cbn [bind] in H. destruct o as [[h q]|]; [|eapply IH; eauto].
  injection H as <-. cbn [a_s a_r]. auto.
Qed.
Lemma e_int32 : forall p a b, int32 (exp2 (a_s p)) -> int32 (exp1 (a_s p)) -> int32 (sign1 (a_s p)) -> int32 (sign0 (a_s p)) ->
  forall key, has_key E (e_values p a b (chars "k")) key true -> int32 (e_values p a b key).
Proof.
  intros p a b H1 H2 H3 H4 key [(s & Hs & ->)|(? & _)]; [|discriminate]. cbn [plain_keys In] in Hs.
  repeat (destruct Hs as [Hs|Hs]; [injection Hs as <-; try discriminate; cbv [e_values a_values key_is]; assumption|]). destruct Hs.
Qed.

Lemma e_works : forall (K : fld) (a b : K) q r e2 e1 s1 s0, type_e K a b q r e2 e1 s1 s0 ->
  forall R, e_shift K a b r R -> (forall k, 0 < k < 5 -> pzmul K a (k * r) R <> None) -> forall m,
  bilinear_on K a b r (pairing_apply (e_pairing_rec K a {| ee2 := e2; ee1 := e1; es1 := s1; es0 := s0 |} q r R m)).
Proof.
  intros K a b q r e2 e1 s1 s0 T R SH R5 m P Q HP HQ. exists (e_value K a q r R P Q).
  split; [exact (e_apply K a b q r e2 e1 s1 s0 T R SH m P Q HP HQ)|].
  split; [exact (e_value_r K a b q r e2 e1 s1 s0 T R SH P Q HP HQ)|].
  intros i k. rewrite <- (e_bilinear K a b q r e2 e1 s1 s0 T R SH R5 i k P Q HP HQ).
  assert (0 <= r) as R0 by (pose proof (te_big _ _ _ _ _ _ _ _ _ T); lia).
  apply (e_apply K a b q r e2 e1 s1 s0 T R SH m); apply (torsion_mul K (te_field _ _ _ _ _ _ _ _ _ T) a b (te_curve _ _ _ _ _ _ _ _ _ T) r R0); assumption.
Qed.

Theorem geneparam_ok : forall isprime rest fuel rbits rands hs text,
  (forall n, isprime n = true -> prime n) -> rand_ok rands -> 4 <= rbits < 2 ^ 31 ->
  geneparam isprime rest fuel rbits rands hs = Ok text ->
  forall bl junk t, (forall n, List.length (junk n) = n) ->
  exists v, param_init_set_str bl junk (text ++ 0 :: t) = Ok {| ret := 0; ptyp := Some TE; vals := v |} /\
  let q := v (chars "q") in let r := v (chars "r") in
  prime q /\ prime r /\ 2 ^ (rbits - 1) - 1 <= r < 2 ^ rbits /\ q = v (chars "h") * r ^ 2 + 1 /\
  forall (K : fld) to_mpz is_sqr sqrt nqr x src, fld_laws K -> has_order K q -> (forall c : K, fofz (to_mpz c) = c) ->
  good_roots K is_sqr sqrt -> nqr <> f0 -> 0 <= x -> rest q (q - 1) = e_rest K to_mpz is_sqr sqrt nqr (q - 1) x src ->
  let a : K := fofz (v (chars "a")) in let b : K := fofz (v (chars "b")) in
  elliptic K a b /\ forall R, e_shift K a b r R -> (forall k, 0 < k < 5 -> pzmul K a (k * r) R <> None) -> forall m,
  bilinear_on K a b r (pairing_apply (e_pairing_rec K a
    {| ee2 := v (chars "exp2"); ee1 := v (chars "exp1"); es1 := v (chars "sign1"); es0 := v (chars "sign0") |} q r R m)).
Proof.
  intros ip rest fuel rbits rands hs text HP HR B H bl junk t HJ. unfold geneparam in H.
  destruct (e_gen ip fuel rbits rands hs) as [p| | |] eqn:Eg; try discriminate. cbn [bind] in H.
  destruct (rest (a_q p) (a_r p * a_r p * a_h p)) as [[a b]| | |] eqn:Er; try discriminate. cbn [bind] in H.
  destruct (e_gen_ok _ _ _ _ _ _ HR Eg) as ((S1 & S2 & S3 & S4 & S5) & X & Q & (s & Hs) & P1 & P2).
  destruct (e_gen_bits _ _ _ _ _ _ HR (proj1 B) Eg) as (BR & BE). specialize (X ltac:(lia)).
  assert (forall key, has_key E (e_values p a b (chars "k")) key true -> int32 (e_values p a b key)) as I32.
  { apply e_int32; unfold int32; lia. }
  destruct (round_trip bl junk HJ E (e_values p a b) t I32 ltac:(discriminate)) as (text' & v & O1 & O2 & _ & V).
  cbn [code] in O1, O2. rewrite H in O1. injection O1 as <-. exists v. split; [exact O2|]. cbv zeta.
  assert (forall s int, In (s, int) (plain_keys E) -> v (chars s) = e_values p a b (chars s)) as W by (intros s' int HI; exact (V _ int (plain E _ s' int HI))).
  rewrite (W "q"%string false), (W "r"%string false), (W "h"%string false), (W "a"%string false), (W "b"%string false),
    (W "exp2"%string true), (W "exp1"%string true), (W "sign1"%string true), (W "sign0"%string true) by (cbn; auto 12).
  change (e_values p a b (chars "q")) with (a_q p). change (e_values p a b (chars "r")) with (a_r p). change (e_values p a b (chars "h")) with (a_h p).
  change (e_values p a b (chars "a")) with a. change (e_values p a b (chars "b")) with b.
  change (e_values p a b (chars "exp2")) with (exp2 (a_s p)). change (e_values p a b (chars "exp1")) with (exp1 (a_s p)).
  change (e_values p a b (chars "sign1")) with (sign1 (a_s p)). change (e_values p a b (chars "sign0")) with (sign0 (a_s p)).
  assert (2 ^ 3 <= 2 ^ (rbits - 1)) as P3 by (apply Z.pow_le_mono_r; lia). change (2 ^ 3) with 8 in P3.
  assert (prime (a_q p)) as PQ by auto. assert (prime (a_r p)) as PR by auto.
  split; [exact PQ|]. split; [exact PR|]. split; [exact BR|]. split; [exact Q|].
  intros K to_mpz is_sqr sqrt nqr x src HK HO TM GR NQ X0 ER.
  assert (3 < a_q p) as Q3. { pose proof (prime_ge_2 _ PQ). assert (a_h p <> 0) as HN by (intros HN; rewrite HN in Q; lia). nia. }
  replace (a_r p * a_r p * a_h p) with (a_q p - 1) in Er by (rewrite Q; ring). rewrite Er in ER. unfold e_rest in ER.
  destruct (e_curve K is_sqr sqrt nqr (a_q p - 1) x src) as [[[a' b'] src']| | |] eqn:EC; try discriminate. cbn [bind] in ER. injection ER as -> ->.
  rewrite !TM. assert (elliptic K a' b') as EL.
  { destruct (e_choice K HK (f2_nz K HK _ PQ HO ltac:(lia)) (f3_nz K HK _ PQ HO Q3) is_sqr sqrt GR nqr (a_q p - 1) x src a' b' src' NQ ltac:(lia) X0 EC) as [[? _]|[? _]]; assumption. }
  split; [exact EL|]. intros R SH R5 m. apply (e_works K a' b'); auto.
  constructor; auto; try lia. exists (a_h p * a_r p). rewrite Q. ring.
Qed.
