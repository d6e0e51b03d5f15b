(** The double-and-add Miller loop computes Miller's function, up to a factor
    in the subfield. *)
From Coq Require Import ZArith List Bool Lia Ring Field Znumtheory.
From Verif.Base Require Import Outcome Array Algebra Slots Gmp.
From Verif.Spec Require Import Curve CurveCalls Tate Quadratic Twist FiniteField PairingValue.
From Verif.Model Require Import Curve Lucas Pairing PairingA Miller.
From Verif.Proofs Require Import PowFacts FieldFacts SlotFacts QuadFacts CurveGroup CurveFacts LineAlgebra TateFacts Bilinear Embed Frobenius
  Twisted ArrayFacts CurveBatch PairingABatch.
Import ListNotations.

(** ** batch operations on arrays of points *)
Section Batch.
Variable K : fld.
Hypothesis HK : fld_laws K.
Variable a : K.
Hypothesis C2 : f2 K <> f0.
Local Notation dbl V := (padd K a V V).
Local Notation pairs s n := (map (fun i => (i, i)) (seq s n)).
Lemma seq_pairs_a : forall n s v k, seq_double K a v (pairs s n) k = if (s <=? k) && (k <? s + n) then dbl (v k) else v k.
Proof.
  induction n; intros s v k; cbn [seq map seq_double].
  - destruct (Nat.leb_spec s k), (Nat.ltb_spec k (s + 0)); cbn [andb]; auto; lia.
  - rewrite IHn. unfold setp. destruct (Nat.eqb_spec k s) as [-> | N].
    + destruct (Nat.leb_spec (S s) s), (Nat.leb_spec s s), (Nat.ltb_spec s (s + S n)), (Nat.ltb_spec s (S s + n)); cbn [andb]; auto; lia.
    + destruct (Nat.leb_spec (S s) k), (Nat.leb_spec s k), (Nat.ltb_spec k (s + S n)), (Nat.ltb_spec k (S s + n)); cbn [andb]; auto; lia.
Qed.
Lemma multi_double_points_ok : forall Vs, Vs <> [] -> (forall V, In V Vs -> exists x y, V = Some (x, y) /\ y <> f0) ->
  multi_double_points K a Vs = Ok (map (fun V => dbl V) Vs).
Proof.
  intros Vs N H. unfold multi_double_points.
  match goal with |- context [multi_double K a ?l _] => replace l with (map reg2 (pairs 0 (length Vs))) by (rewrite map_map; reflexivity) end.
  destruct (multi_double_ok K HK a C2 (pairs 0 (length Vs)) (load_all K Vs) (fun i => nth i Vs None)) as (st & -> & R).
  - destruct Vs; [congruence | discriminate].
  - apply rep_load.
  - apply ind_pairs.
  - rewrite map_map. cbn [fst]. rewrite map_id. apply seq_NoDup.
  - intros c p I. apply in_map_iff in I. destruct I as (i & E & I). injection E as <- <-. apply in_seq in I.
    destruct (H (nth i Vs None)) as (u & w & E & NW); [apply nth_In; lia | ]. unfold load_all. cbn. unfold point in *. rewrite E. auto.
  - intros c p I. apply in_map_iff in I. destruct I as (i & E & I). injection E as <- <-. auto.
  - cbn [bind]. f_equal. rewrite <- (map_seq_nth (fun V => dbl V) None Vs). apply map_ext_in. intros i I. apply in_seq in I. rewrite <- R, seq_pairs_a.
    unfold point in *. destruct (Nat.leb_spec 0 i), (Nat.ltb_spec i (0 + length Vs)); cbn [andb]; auto; lia.
Qed.
Local Notation triples N s n := (map (fun i => (i, (i, (N + i)%nat))) (seq s n)).
Lemma ind_triples : forall N n s, (s + n <= N)%nat -> independent (map add_inputs (triples N s n)).
Proof.
  intros N. induction n; intros s H; cbn [seq map independent add_inputs fst snd]; auto. split; [ | apply IHn; lia].
  intros d ps H0 I. apply in_map_iff in H0. destruct H0 as ((c & (p & q)) & E & H0). apply in_map_iff in H0. destruct H0 as (i & E2 & H0). injection E2 as <- <- <-.
  unfold add_inputs in E. cbn in E. injection E as <- <-. apply in_seq in H0. destruct I as [I | [I | []]]; lia.
Qed.
Lemma seq_triples : forall N n s v k, (s + n <= N)%nat -> seq_add K a v (triples N s n) k = if (s <=? k) && (k <? s + n) then padd K a (v k) (v (N + k)%nat) else v k.
Proof.
  intros N. induction n; intros s v k H; cbn [seq map seq_add].
  - destruct (Nat.leb_spec s k), (Nat.ltb_spec k (s + 0)); cbn [andb]; auto; lia.
  - rewrite IHn by lia. unfold setp. destruct (Nat.eqb_spec k s) as [-> | NE].
    + destruct (Nat.leb_spec (S s) s), (Nat.leb_spec s s), (Nat.ltb_spec s (s + S n)), (Nat.ltb_spec s (S s + n)); cbn [andb]; auto; lia.
    + destruct (Nat.leb_spec (S s) k), (Nat.leb_spec s k), (Nat.ltb_spec k (s + S n)), (Nat.ltb_spec k (S s + n)); cbn [andb]; auto; try lia.
      destruct (Nat.eqb_spec (N + k) s); auto; lia.
Qed.
Lemma multi_add_points_ok : forall Vs Ps, Vs <> [] -> length Vs = length Ps ->
  (forall i, (i < length Vs)%nat -> exists x1 y1 x2 y2, nth i Vs None = Some (x1, y1) /\ nth i Ps None = Some (x2, y2) /\ x1 <> x2) ->
  multi_add_points K a Vs Ps = Ok (map (fun i => padd K a (nth i Vs None) (nth i Ps None)) (seq 0 (length Vs))).
Proof.
  intros Vs Ps N EL H. unfold multi_add_points. set (n := length Vs) in *.
  match goal with |- context [multi_add K a ?l _] => replace l with (map reg3 (triples n 0 n)) by (rewrite map_map; reflexivity) end.
  assert (N1 : forall i, (i < n)%nat -> nth i (Vs ++ Ps) None = nth i Vs None) by (intros; apply app_nth1; auto).
  assert (N2 : forall i, (i < n)%nat -> nth (n + i) (Vs ++ Ps) None = nth i Ps None) by (intros i Hi; rewrite app_nth2 by (unfold n; lia); f_equal; unfold n; lia).
  destruct (multi_add_ok K HK a C2 (triples n 0 n) (load_all K (Vs ++ Ps)) (fun i => nth i (Vs ++ Ps) None)) as (st & EQ & R).
  - unfold n. destruct Vs; [congruence | discriminate].
  - apply rep_load.
  - apply ind_triples. lia.
  - intros c p q I. apply in_map_iff in I. destruct I as (i & E & I). injection E as <- <- <-. apply in_seq in I.
    destruct (H i ltac:(lia)) as (x1 & y1 & x2 & y2 & E1 & E2 & NX). unfold load_all. cbn [sl fst snd]. unfold point in *.
    rewrite N1, N2, E1, E2 by lia. exact NX.
  - match goal with |- bind ?x _ = _ => replace x with (Ok st) by (symmetry; exact EQ) end. cbn [bind]. f_equal. apply map_ext_in. intros i I. apply in_seq in I. rewrite <- R, seq_triples by lia.
    destruct (Nat.leb_spec 0 i), (Nat.ltb_spec i (0 + n)); cbn [andb]; try lia. rewrite N1, N2 by lia. reflexivity.
Qed.
End Batch.

(** ** the bits of the order *)
Section Bits.
Variable r : Z.
Hypothesis R3 : (2 < r)%Z.
Hypothesis RO : Z.odd r = true.
Definition kk (m : nat) : nat := Z.to_nat (r / 2 ^ Z.of_nat m).
Lemma kk_nonneg : forall m, (0 <= r / 2 ^ m)%Z.
Proof. intros. destruct (Z_lt_ge_dec m 0); [rewrite Z.pow_neg_r by lia; rewrite Zdiv_0_r; lia | ]. apply Z.div_pos; [lia | ]. apply Z.pow_pos_nonneg; lia. Qed.
Lemma kk_0 : kk 0 = Z.to_nat r. Proof. unfold kk. change (2 ^ Z.of_nat 0)%Z with 1%Z. rewrite Z.div_1_r. reflexivity. Qed.
Lemma kk_step : forall m, kk m = (2 * kk (S m) + (if Z.testbit r (Z.of_nat m) then 1 else 0))%nat.
Proof.
  intros m. unfold kk. assert (0 < 2 ^ Z.of_nat m)%Z by (apply Z.pow_pos_nonneg; lia).
  assert (E : (r / 2 ^ Z.of_nat (S m) = (r / 2 ^ Z.of_nat m) / 2)%Z).
  { rewrite Z.div_div by lia. f_equal. rewrite Nat2Z.inj_succ, Z.pow_succ_r by lia. lia. }
  rewrite E. pose proof (kk_nonneg (Z.of_nat m)) as NN. set (u := (r / 2 ^ Z.of_nat m)%Z) in *.
  pose proof (Z.div_mod u 2 ltac:(lia)) as DM. assert (B : (u mod 2 = if Z.testbit r (Z.of_nat m) then 1 else 0)%Z).
  { destruct (Z.testbit r (Z.of_nat m)) eqn:T; [apply Z.testbit_true | apply Z.testbit_false]; auto; lia. }
  assert (0 <= u / 2)%Z by (apply Z.div_pos; lia). destruct (Z.testbit r (Z.of_nat m)); lia.
Qed.
Lemma kk_1 : (2 * kk 1 + 1)%nat = Z.to_nat r.
Proof. rewrite <- kk_0, (kk_step 0). change (Z.of_nat 0) with 0%Z. rewrite Z.bit0_odd, RO. reflexivity. Qed.
Lemma log_pos : (1 <= Z.log2 r)%Z. Proof. change 1%Z with (Z.log2 2). apply Z.log2_le_mono. lia. Qed.
Lemma start_log : Z.of_nat (S (start_bit r)) = Z.log2 r.
Proof.
  unfold start_bit, sizeinbase2. destruct (Z.eqb_spec r 0); [lia | ]. rewrite Z.abs_eq by lia. pose proof log_pos.
  rewrite Z.gtb_ltb. destruct (Z.ltb_spec 2 (Z.log2 r + 1)); lia.
Qed.
Lemma kk_start : kk (S (start_bit r)) = 1%nat.
Proof.
  unfold kk. rewrite start_log. pose proof (Z.log2_spec r ltac:(lia)) as (A & B). rewrite Z.pow_succ_r in B by (pose proof log_pos; lia).
  assert (r / 2 ^ Z.log2 r = 1)%Z; [ | lia]. symmetry. apply Z.div_unique with (r := (r - 2 ^ Z.log2 r)%Z); lia.
Qed.
Lemma kk_mono : forall m, (kk (S m) <= kk m)%nat. Proof. intros. rewrite (kk_step m). lia. Qed.
Lemma kk_pos : forall m, (m <= start_bit r)%nat -> (1 <= kk (S m))%nat.
Proof. intros m H. rewrite <- kk_start. induction H; [auto | ]. etransitivity; [apply kk_mono | auto]. Qed.
End Bits.

Section S.
Variables K M : fld.
Hypothesis HK : fld_laws K.
Hypothesis HM : fld_laws M.
Variable h : K -> M.
Hypothesis Hh : embedding K M h.
Variable v : M.
Hypothesis Hv : ~ is_square v.
Variables a b : K.
Hypothesis HE : elliptic K a b.
Variable r : Z.
Hypothesis R3 : (2 < r)%Z.
Hypothesis RO : Z.odd r = true.
Let RP : (0 < r)%Z. Proof. lia. Qed.
Let C2 : f2 K <> f0 := proj1 HE.
Let SM := proj2 HE.
Local Notation L := (Quad M v).
Let HL : fld_laws L := Quad_laws M HM v Hv.
Add Field LFmf : (fl_field L HL).
Local Notation sim := (sim M v).
Local Notation up' := (epoint (up K M h v)).
Local Notation onK := (on_curve K a b).
Local Notation mul := (pmul K a).
Local Notation G2 := (Twisted.G2 K M h v a b).

Lemma L1 : forall x : L, fmul x f1 = x. Proof. intros. ring. Qed.
Lemma L3 : forall x y z : L, fmul (fmul x y) z = fmul x (fmul y z). Proof. intros. ring. Qed.
Lemma L4 : forall x y z w : L, fmul (fmul x y) (fmul z w) = fmul (fmul x z) (fmul y w). Proof. intros. ring. Qed.
Lemma sim_eq : forall x x' y : L, x = x' -> sim x' y -> sim x y. Proof. intros x x' y ->. auto. Qed.
Lemma L5 : forall u w t e : L, fmul (fmul (fmul u w) (fmul u w)) (fmul t e) = fmul (fmul (fmul u u) t) (fmul (fmul w w) e). Proof. intros. ring. Qed.

Section P.
Variable P : point K.
Hypothesis OP : onK P.
Hypothesis TP : pzmul K a r P = None.
Hypothesis RG : regular K a r P.
Lemma pz_nat : forall n, pzmul K a (Z.of_nat n) P = mul n P.
Proof. intros [ | n]; [reflexivity | ]. cbn [Z.of_nat pzmul]. rewrite SuccNat2Pos.id_succ. reflexivity. Qed.
Lemma mul_plus' : forall m n, mul (m + n)%nat P = padd K a (mul m P) (mul n P).
Proof. intros. apply (Twisted.mul_plus K M HK HM h Hh v Hv a b HE r RP RO P OP TP). Qed.
Lemma mul_on' : forall k, onK (mul k P). Proof. intros. apply (pmul_on K HK a b C2). auto. Qed.
Lemma mul_1 : mul 1 P = P. Proof. cbn [pmul]. apply (add_0_r K a). Qed.
Lemma zkk : forall m, Z.of_nat (kk r m) = (r / 2 ^ Z.of_nat m)%Z. Proof. intros. unfold kk. apply Z2Nat.id. apply kk_nonneg; auto. Qed.
Lemma reg_dbl : forall m, (m <= start_bit r)%nat -> mul (kk r (S m)) P <> None /\ mul (2 * kk r (S m))%nat P <> None.
Proof.
  intros m Hm. pose proof (kk_pos r R3 m Hm) as KP. destruct (RG (Z.of_nat (S m)) ltac:(lia)) as (A & B & _); [rewrite <- zkk; lia | ].
  rewrite <- zkk in A, B. rewrite pz_nat in A. replace (2 * Z.of_nat (kk r (S m)))%Z with (Z.of_nat (2 * kk r (S m))) in B by lia. rewrite pz_nat in B. auto.
Qed.
Lemma reg_tan : forall m, (m <= start_bit r)%nat -> exists x y, mul (kk r (S m)) P = Some (x, y) /\ y <> f0.
Proof.
  intros m Hm. destruct (reg_dbl m Hm) as (A & B). destruct (mul (kk r (S m)) P) as [[x y] | ] eqn:E; [ | congruence]. exists x, y. split; auto.
  intro Y. apply B. replace (2 * kk r (S m))%nat with (kk r (S m) + kk r (S m))%nat by lia. rewrite mul_plus', E, Y. cbn [padd]. rewrite !(feqb_refl K HK). reflexivity.
Qed.
Lemma reg_line : forall m, (S m <= start_bit r)%nat -> Z.testbit r (Z.of_nat (S m)) = true ->
  exists x1 y1 x2 y2, mul (2 * kk r (S (S m)))%nat P = Some (x1, y1) /\ P = Some (x2, y2) /\ x1 <> x2 /\ mul (2 * kk r (S (S m)) + 1)%nat P <> None.
Proof.
  intros m Hm T. destruct (reg_dbl (S m) Hm) as (A & B). destruct (reg_dbl m ltac:(lia)) as (A' & _). pose proof (kk_pos r R3 (S m) Hm) as KP.
  assert (EK : kk r (S m) = (2 * kk r (S (S m)) + 1)%nat) by (rewrite (kk_step r R3 (S m)), T; reflexivity). rewrite EK in A'.
  assert (A2 : mul (2 * kk r (S (S m)) - 1)%nat P <> None).
  { destruct (RG (Z.of_nat (S m)) ltac:(lia)) as (_ & _ & B'); [rewrite <- zkk; lia | ]. rewrite <- zkk in B'.
    replace (Z.of_nat (kk r (S m)) - 2)%Z with (Z.of_nat (2 * kk r (S (S m)) - 1)) in B' by lia. rewrite pz_nat in B'. apply B'; [ | lia].
    rewrite EK. replace (Z.of_nat (2 * kk r (S (S m)) + 1)) with (2 * Z.of_nat (kk r (S (S m))) + 1)%Z by lia. apply Z.odd_spec. eexists. reflexivity. }
  set (k := kk r (S (S m))) in *. destruct (mul (2 * k)%nat P) as [[x1 y1] | ] eqn:E1; [ | congruence].
  assert (EP : exists x2 y2, P = Some (x2, y2)) by (destruct P as [[x2 y2] | ]; [eauto | exfalso; apply A; clear; induction k; cbn [pmul]; [reflexivity | rewrite IHk; reflexivity]]).
  destruct EP as (x2 & y2 & EP). exists x1, y1, x2, y2. repeat split; auto. intro EX. subst x2.
  assert (ON1 := mul_on' (2 * k)%nat). rewrite E1 in ON1. assert (ON2 := OP). rewrite EP in ON2.
  destruct (same_x K HK a b x1 y1 y2 ON1 ON2) as [EY | EY].
  - apply A2. subst y2. assert (DIF : padd K a (mul (2 * k - 1)%nat P) P = P).
    { transitivity (padd K a (mul (2 * k - 1)%nat P) (mul 1 P)); [rewrite mul_1; reflexivity | ]. rewrite <- mul_plus'. replace (2 * k - 1 + 1)%nat with (2 * k)%nat by lia. rewrite E1, EP. reflexivity. }
    assert (CR : padd K a (padd K a (mul (2 * k - 1)%nat P) P) (pneg P) = mul (2 * k - 1)%nat P).
    { rewrite (add_assoc K HK a b C2 SM), (add_neg_r K HK a C2), (add_0_r K a); auto using mul_on'. apply (neg_on K HK a b). auto. }
    rewrite <- CR, DIF. apply (add_neg_r K HK a C2).
  - apply A'. rewrite mul_plus', mul_1, E1, EP, EY. change (Some (x1, fopp y2)) with (pneg (Some (x1, y2))). rewrite (add_comm K HK a). apply (add_neg_r K HK a C2).
Qed.

Variables X Y : M.
Local Notation R := (Some (((X, f0) : L), ((f0, Y) : L))).
Hypothesis GR : G2 R.
Local Notation mil n := (miller L (up K M h v a) n (up' P) R).
Local Notation lv abc := (let '(ca, cb, cc) := abc in lineval K M h v ca cb cc X Y).
(* one doubling, one addition *)
Lemma tan_step : forall m f abc, (m <= start_bit r)%nat -> sim f (fmul (mil (kk r (S m))) (mil (kk r (S m)))) ->
  is_line K a (mul (kk r (S m)) P) (mul (kk r (S m)) P) abc -> sim (fmul f (lv abc)) (mil (2 * kk r (S m))%nat).
Proof.
  intros m f [[ca cb] cc] Hm F IL. destruct (reg_dbl m Hm) as (_ & N). set (k := kk r (S m)) in *. replace (2 * k)%nat with (k + k)%nat in * by lia.
  eapply (sim_trans M HM v Hv); [ | apply (mil_line K M HK HM h Hh v Hv a b HE r RP RO P OP TP X Y GR (mil k) (mil k) k k ca cb cc); auto; apply (sim_refl M HM v Hv)].
  apply (sim_mul M HM v Hv); auto. apply (sim_refl M HM v Hv).
Qed.
Lemma line_step' : forall m f abc, (S m <= start_bit r)%nat -> Z.testbit r (Z.of_nat (S m)) = true -> sim f (mil (2 * kk r (S (S m)))%nat) ->
  is_line K a (mul (2 * kk r (S (S m)))%nat P) P abc -> sim (fmul f (lv abc)) (mil (kk r (S m))).
Proof.
  intros m f [[ca cb] cc] Hm T F IL. destruct (reg_line m Hm T) as (x1 & y1 & x2 & y2 & _ & _ & _ & N).
  assert (EK : kk r (S m) = (2 * kk r (S (S m)) + 1)%nat) by (rewrite (kk_step r R3 (S m)), T; reflexivity). rewrite EK.
  set (k := (2 * kk r (S (S m)))%nat) in *. replace (fmul f (lineval K M h v ca cb cc X Y)) with (fmul (fmul f f1) (lineval K M h v ca cb cc X Y)) by (rewrite L1; reflexivity).
  apply (mil_line K M HK HM h Hh v Hv a b HE r RP RO P OP TP X Y GR); auto.
  - apply (mil_one K M HM h v Hv a P X Y).
  - rewrite mul_1. auto.
Qed.
Lemma last_step : forall f, sim f (mil (2 * kk r 1)%nat) -> sim f (mil (Z.to_nat r)).
Proof.
  intros f F. rewrite <- (kk_1 r R3 RO). rewrite <- (L1 f).
  apply (mil_vertical K M HK HM h Hh v Hv a b HE r RP RO P OP TP X Y GR); auto.
  - apply (mil_one K M HM h v Hv a P X Y).
  - rewrite (kk_1 r R3 RO), <- pz_nat, Z2Nat.id by lia. exact TP.
Qed.
Lemma mil_start : sim f1 (fmul (mil (kk r (S (start_bit r)))) (mil (kk r (S (start_bit r))))).
Proof.
  rewrite (kk_start r R3). assert (M1 := mil_one K M HM h v Hv a P X Y). assert (G := sim_mul M HM v Hv _ _ _ _ M1 M1).
  rewrite L1 in G. exact G.
Qed.
End P.

(** the affine loop *)
Section A.
Variable E : Type.
Variables Ex Ey : E -> M.
Variable tangent : K -> K -> coeffs K.
Variable line : K -> K -> K -> K -> coeffs K.
Variable ev : coeffs K -> E -> L.
Hypothesis Htan : forall x y, y <> f0 -> is_line K a (Some (x, y)) (Some (x, y)) (tangent x y).
Hypothesis Hline : forall x1 y1 x2 y2, x1 <> x2 -> is_line K a (Some (x1, y1)) (Some (x2, y2)) (line x1 y1 x2 y2).
Hypothesis Hev : forall ca cb cc Q, ev (ca, cb, cc) Q = lineval K M h v ca cb cc (Ex Q) (Ey Q).
Lemma Hev' : forall abc Q, ev abc Q = (let '(ca, cb, cc) := abc in lineval K M h v ca cb cc (Ex Q) (Ey Q)).
Proof. intros [[ca cb] cc] Q. apply Hev. Qed.
Definition gd (pq : point K * E) : Prop :=
  onK (fst pq) /\ pzmul K a r (fst pq) = None /\ regular K a r (fst pq) /\ G2 (Some (((Ex (snd pq), f0) : L), ((f0, Ey (snd pq)) : L))).
Definition mil1 (k : nat) (pq : point K * E) : L :=
  miller L (up K M h v a) k (up' (fst pq)) (Some (((Ex (snd pq), f0) : L), ((f0, Ey (snd pq)) : L))).
Local Notation bits := (miller_bits K L E a tangent line ev r).
Lemma bits_ok : forall P Q, gd (P, Q) -> forall m f, (m <= start_bit r)%nat -> sim f (fmul (mil1 (kk r (S m)) (P, Q)) (mil1 (kk r (S m)) (P, Q))) ->
  exists f', bits m P Q f (mul (kk r (S m)) P) = Ok f' /\ sim f' (mil1 (Z.to_nat r) (P, Q)).
Proof.
  intros P Q (OP & TP & RG & GR). cbn [fst snd] in *. induction m; intros f Hm F; cbn [miller_bits]; unfold do_tangent.
  - destruct (reg_tan P OP TP RG 0 Hm) as (x & y & EQ & NY). rewrite EQ. cbn [coords bind]. eexists. split; [reflexivity | ].
    apply (last_step P OP TP (Ex Q) (Ey Q) GR). rewrite Hev'. apply (tan_step P OP TP RG (Ex Q) (Ey Q) GR); auto. rewrite EQ. apply Htan. auto.
  - destruct (reg_tan P OP TP RG (S m) Hm) as (x & y & EQ & NY). rewrite EQ. cbn [coords bind].
    assert (F1 : sim (fmul f (ev (tangent x y) Q)) (mil1 (2 * kk r (S (S m)))%nat (P, Q))).
    { rewrite Hev'. apply (tan_step P OP TP RG (Ex Q) (Ey Q) GR); auto. rewrite EQ. apply Htan. auto. }
    rewrite (double_value_ok K HK a C2), (mul_value_ok K HK a C2). cbn [bind].
    replace (padd K a (Some (x, y)) (Some (x, y))) with (mul (2 * kk r (S (S m)))%nat P).
    2: { replace (2 * kk r (S (S m)))%nat with (kk r (S (S m)) + kk r (S (S m)))%nat by lia. rewrite (mul_plus' P OP TP), EQ. reflexivity. }
    unfold mpz_tstbit. destruct (Z.testbit r (Z.of_nat (S m))) eqn:T.
    + destruct (reg_line P OP TP RG m Hm T) as (x1 & y1 & x2 & y2 & E1 & E2 & NX & NN).
      assert (EK : kk r (S m) = (2 * kk r (S (S m)) + 1)%nat) by (rewrite (kk_step r R3 (S m)), T; reflexivity).
      unfold do_line. assert (CZ : coords K (mul (2 * kk r (S (S m)))%nat P) = Ok (x1, y1)) by (rewrite E1; reflexivity).
      assert (CP : coords K P = Ok (x2, y2)) by (rewrite E2; reflexivity). rewrite CZ, CP. cbn [bind]. rewrite (mul_value_ok K HK a C2). cbn [bind].
      replace (padd K a (mul (2 * kk r (S (S m)))%nat P) P) with (mul (kk r (S m)) P) by (rewrite EK, (mul_plus' P OP TP), (mul_1 P); reflexivity).
      assert (F2 : sim (fmul (fmul f (ev (tangent x y) Q)) (ev (line x1 y1 x2 y2) Q)) (mil1 (kk r (S m)) (P, Q))).
      { rewrite (Hev' (line _ _ _ _)). apply (line_step' P OP TP RG (Ex Q) (Ey Q) GR); auto. rewrite E1, E2. apply Hline. auto. }
      apply IHm; [lia | ]. apply (sim_mul M HM v Hv); exact F2.
    + cbn [bind]. assert (EK : kk r (S m) = (2 * kk r (S (S m)))%nat) by (rewrite (kk_step r R3 (S m)), T; lia). rewrite <- EK in *.
      apply IHm; [lia | ]. apply (sim_mul M HM v Hv); exact F1.
Qed.
Theorem miller_affine_ok : forall P Q, gd (P, Q) ->
  exists f, miller_affine K L E a tangent line ev r P Q = Ok f /\ sim f (mil1 (Z.to_nat r) (P, Q)).
Proof.
  intros P Q GD. unfold miller_affine. destruct (bits_ok P Q GD (start_bit r) f1 (le_n _)) as (f & EF & F).
  - apply (mil_start P (Ex Q) (Ey Q)).
  - rewrite (kk_start r R3), mul_1 in EF. exists f. auto.
Qed.
Lemma mil1_nz : forall k pq, gd pq -> mil1 k pq <> f0.
Proof.
  intros k [P Q] (OP & TP & RG & GR). cbn [fst snd] in *. apply (mil_nz' K M HK HM h Hh v Hv a b HE r RP RO P OP TP (Ex Q) (Ey Q) GR).
Qed.

(** products *)
Fixpoint PM (k : nat) (l : list (point K * E)) : L := match l with [] => f1 | pq :: l' => fmul (mil1 k pq) (PM k l') end.
Lemma PM_nz : forall k l, Forall gd l -> PM k l <> f0.
Proof. intros k l H. induction H; cbn [PM]; [apply (f_1_neq_0 L HL) | apply (f_mul_nz L HL); auto using mil1_nz]. Qed.
Local Notation Zs k l := (map (fun pq => mul k (fst pq)) l).
Lemma sim_1 : sim f1 f1. Proof. apply (sim_refl M HM v Hv). Qed.
Lemma tangents_ok : forall m l, (m <= start_bit r)%nat -> Forall gd l ->
  exists e, (forall f, do_tangents K L E tangent ev (Zs (kk r (S m)) l) (map snd l) f = Ok (fmul f e)) /\
  sim (fmul (fmul (PM (kk r (S m)) l) (PM (kk r (S m)) l)) e) (PM (2 * kk r (S m))%nat l).
Proof.
  intros m l Hm H. induction H as [ | [P Q] l GD H IH].
  - exists f1. cbn [map do_tangents PM]. split; [intros; rewrite L1; auto | ]. eapply sim_eq; [ | apply sim_1]. rewrite !L1. reflexivity.
  - destruct IH as (e & IH1 & IH2). destruct GD as (OP & TP & RG & GR). cbn [map do_tangents fst snd PM] in *. unfold do_tangent.
    destruct (reg_tan P OP TP RG m Hm) as (x & y & EQ & NY). rewrite EQ. cbn [coords bind].
    assert (F1 : sim (fmul (fmul (mil1 (kk r (S m)) (P, Q)) (mil1 (kk r (S m)) (P, Q))) (ev (tangent x y) Q)) (mil1 (2 * kk r (S m))%nat (P, Q))).
    { rewrite Hev'. apply (tan_step P OP TP RG (Ex Q) (Ey Q) GR); auto. apply (sim_refl M HM v Hv). rewrite EQ. apply Htan. auto. }
    exists (fmul (ev (tangent x y) Q) e). split.
    + intros f. rewrite IH1. rewrite L3. reflexivity.
    + eapply sim_eq; [ | apply (sim_mul M HM v Hv _ _ _ _ F1 IH2)]. apply L5.
Qed.
Lemma lines_ok : forall m l, (S m <= start_bit r)%nat -> Z.testbit r (Z.of_nat (S m)) = true -> Forall gd l ->
  exists e, (forall f, do_lines K L E line ev (Zs (2 * kk r (S (S m)))%nat l) (map fst l) (map snd l) f = Ok (fmul f e)) /\
  sim (fmul (PM (2 * kk r (S (S m)))%nat l) e) (PM (kk r (S m)) l).
Proof.
  intros m l Hm T H. induction H as [ | [P Q] l GD H IH].
  - exists f1. cbn [map do_lines PM]. split; [intros; rewrite L1; auto | ]. eapply sim_eq; [ | apply sim_1]. apply L1.
  - destruct IH as (e & IH1 & IH2). destruct GD as (OP & TP & RG & GR). cbn [map do_lines fst snd PM] in *. unfold do_line.
    destruct (reg_line P OP TP RG m Hm T) as (x1 & y1 & x2 & y2 & E1 & E2 & NX & NN). assert (CZ : coords K (mul (2 * kk r (S (S m)))%nat P) = Ok (x1, y1)) by (rewrite E1; reflexivity).
    assert (CP : coords K P = Ok (x2, y2)) by (rewrite E2; reflexivity). 
    assert (F1 : sim (fmul (mil1 (2 * kk r (S (S m)))%nat (P, Q)) (ev (line x1 y1 x2 y2) Q)) (mil1 (kk r (S m)) (P, Q))).
    { rewrite (Hev' (line _ _ _ _)). apply (line_step' P OP TP RG (Ex Q) (Ey Q) GR); auto. apply (sim_refl M HM v Hv). rewrite E1, E2. apply Hline. auto. }
    exists (fmul (ev (line x1 y1 x2 y2) Q) e). split.
    + intros f. rewrite CZ, CP. cbn [bind]. rewrite IH1. rewrite L3. reflexivity.
    + eapply sim_eq; [ | apply (sim_mul M HM v Hv _ _ _ _ F1 IH2)]. apply L4.
Qed.
Lemma mdp : forall m l, (m <= start_bit r)%nat -> Forall gd l -> l <> [] -> multi_double_points K a (Zs (kk r (S m)) l) = Ok (Zs (2 * kk r (S m))%nat l).
Proof.
  intros m l Hm H NE. rewrite (multi_double_points_ok K HK a C2).
  - f_equal. rewrite map_map. apply map_ext_in. intros pq I. apply (proj1 (Forall_forall _ _) H) in I. destruct I as (OP & TP & RG & GR).
    rewrite <- (mul_plus' (fst pq) OP TP). f_equal. lia.
  - destruct l; [congruence | discriminate].
  - intros V I. apply in_map_iff in I. destruct I as (pq & <- & I). apply (proj1 (Forall_forall _ _) H) in I. destruct I as (OP & TP & RG & GR).
    apply (reg_tan _ OP TP RG m Hm).
Qed.
Lemma map_nth2 : forall (A B : Type) (f : A -> B) l (d : A) (d' : B) i, (i < length l)%nat -> nth i (map f l) d' = f (nth i l d).
Proof. intros. rewrite (nth_indep _ d' (f d)) by (rewrite map_length; auto). apply map_nth. Qed.
Lemma map_nth_seq : forall (A B : Type) (f : A -> B) l (d : A), map (fun i => f (nth i l d)) (seq 0 (length l)) = map f l.
Proof. intros. apply map_seq_nth. Qed.
Lemma map_p : forall m l, (S m <= start_bit r)%nat -> Z.testbit r (Z.of_nat (S m)) = true -> Forall gd l -> l <> [] ->
  multi_add_points K a (Zs (2 * kk r (S (S m)))%nat l) (map fst l) = Ok (Zs (kk r (S m)) l).
Proof.
  intros m l Hm T H NE. destruct l as [ | pq0 l0] eqn:EL; [congruence | ]. rewrite <- EL in *. clear NE.
  assert (EK : kk r (S m) = (2 * kk r (S (S m)) + 1)%nat) by (rewrite (kk_step r R3 (S m)), T; reflexivity).
  rewrite (multi_add_points_ok K HK a C2).
  - f_equal. rewrite map_length. rewrite <- (map_nth_seq _ _ (fun pq => mul (kk r (S m)) (fst pq)) l pq0).
    apply map_ext_in. intros i I. apply in_seq in I. rewrite (map_nth2 _ _ (fun pq => mul (2 * kk r (S (S m)))%nat (fst pq)) l pq0), (map_nth2 _ _ fst l pq0) by lia.
    assert (GD : gd (nth i l pq0)) by (apply (proj1 (Forall_forall _ _) H); apply nth_In; lia). destruct GD as (OP & TP & _).
    rewrite EK, (mul_plus' _ OP TP), mul_1. reflexivity.
  - rewrite EL. discriminate.
  - rewrite !map_length. reflexivity.
  - intros i Hi. rewrite map_length in Hi. rewrite (map_nth2 _ _ (fun pq => mul (2 * kk r (S (S m)))%nat (fst pq)) l pq0), (map_nth2 _ _ fst l pq0) by lia.
    assert (GD : gd (nth i l pq0)) by (apply (proj1 (Forall_forall _ _) H); apply nth_In; lia). destruct GD as (OP & TP & RG & _).
    destruct (reg_line _ OP TP RG m Hm T) as (x1 & y1 & x2 & y2 & E1 & E2 & NX & NN). exists x1, y1, x2, y2. auto.
Qed.
Lemma PM_last : forall l f, Forall gd l -> sim f (PM (2 * kk r 1)%nat l) -> sim f (PM (Z.to_nat r) l).
Proof.
  intros l f H F. eapply (sim_trans M HM v Hv); [exact F | ]. clear F. induction H as [ | [P Q] l GD H IH]; cbn [PM]; [apply sim_1 | ].
  apply (sim_mul M HM v Hv); auto. destruct GD as (OP & TP & RG & GR). apply (last_step P OP TP (Ex Q) (Ey Q) GR). apply (sim_refl M HM v Hv).
Qed.
Lemma millers_bits_ok : forall l, Forall gd l -> l <> [] -> forall m f, (m <= start_bit r)%nat -> sim f (fmul (PM (kk r (S m)) l) (PM (kk r (S m)) l)) ->
  exists f', millers_bits K L E a tangent line ev r m (map fst l) (map snd l) f (Zs (kk r (S m)) l) = Ok f' /\ sim f' (PM (Z.to_nat r) l).
Proof.
  intros l GD NE. induction m; intros f Hm F; cbn [millers_bits].
  - destruct (tangents_ok 0 l Hm GD) as (e & -> & T). cbn [bind]. eexists. split; [reflexivity | ]. apply PM_last; auto.
    eapply (sim_trans M HM v Hv); [ | exact T]. apply (sim_mul M HM v Hv); [exact F | apply (sim_refl M HM v Hv)].
  - destruct (tangents_ok (S m) l Hm GD) as (e & -> & T). cbn [bind]. rewrite mdp by auto. cbn [bind].
    assert (F1 : sim (fmul f e) (PM (2 * kk r (S (S m)))%nat l)).
    { eapply (sim_trans M HM v Hv); [ | exact T]. apply (sim_mul M HM v Hv); [exact F | apply (sim_refl M HM v Hv)]. }
    unfold mpz_tstbit. destruct (Z.testbit r (Z.of_nat (S m))) eqn:TB.
    + destruct (lines_ok m l Hm TB GD) as (e' & -> & T'). cbn [bind]. rewrite map_p by auto. cbn [bind]. apply IHm; [lia | ].
      assert (F2 : sim (fmul (fmul f e) e') (PM (kk r (S m)) l)).
      { eapply (sim_trans M HM v Hv); [ | exact T']. apply (sim_mul M HM v Hv); [exact F1 | apply (sim_refl M HM v Hv)]. }
      apply (sim_mul M HM v Hv); exact F2.
    + cbn [bind]. assert (EK : kk r (S m) = (2 * kk r (S (S m)))%nat) by (rewrite (kk_step r R3 (S m)), TB; lia). rewrite <- EK in *.
      apply IHm; [lia | ]. apply (sim_mul M HM v Hv); exact F1.
Qed.
Theorem millers_affine_ok : forall l, Forall gd l -> l <> [] ->
  exists f, millers_affine K L E a tangent line ev r (map fst l) (map snd l) = Ok f /\ sim f (PM (Z.to_nat r) l).
Proof.
  intros l GD NE. unfold millers_affine. destruct (millers_bits_ok l GD NE (start_bit r) f1 (le_n _)) as (f & EF & F).
  - rewrite (kk_start r R3). clear NE. assert (S : sim f1 (PM 1 l)).
    { induction GD as [ | [P Q] l GD H IH]; cbn [PM]; [apply sim_1 | ]. eapply sim_eq; [symmetry; apply L1 | ]. apply (sim_mul M HM v Hv); auto.
      apply (mil_one K M HM h v Hv a P (Ex Q) (Ey Q)). }
    eapply sim_eq; [symmetry; apply L1 | ]. apply (sim_mul M HM v Hv); auto.
  - rewrite (kk_start r R3) in EF. replace (Zs 1 l) with (map fst l) in EF by (apply map_ext; intros; symmetry; apply mul_1). exists f. auto.
Qed.
End A.
End S.
