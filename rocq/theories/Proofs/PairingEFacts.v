(** Both Miller methods of type E compute the same value. *)
From Coq Require Import ZArith List Bool Lia Ring Field Znumtheory.
From Verif.Base Require Import Outcome Array Algebra Slots Gmp.
From Verif.Spec Require Import Curve Tate FiniteField PairingValue PairingValueE.
From Verif.Model Require Import GenericPow Curve Pairing PairingA PairingE.
From Verif.Proofs Require Import PowFacts FieldFacts SlotFacts CurveGroup CurveFacts LineAlgebra TateFacts Bilinear BilinearZ
  Twisted ArrayFacts Outside.
From Verif.Proofs Require PairingAFacts.
Import ListNotations.

Section L.
Variable K : fld.
Hypothesis HK : fld_laws K.
Hypothesis C2 : f2 K <> f0.
Add Field KFel : (fl_field K HK).
Local Notation "0" := f0. Local Notation "1" := f1.
Local Notation "x + y" := (fadd x y). Local Notation "x - y" := (fsub x y). Local Notation "x * y" := (fmul x y). Local Notation "- x" := (fopp x).
Local Notation "x / y" := (fdiv x y).
Variable a : K.
Lemma e_tangent_line : forall x y, y <> 0 -> is_line K a (Some (x, y)) (Some (x, y)) (e_tangent K a x y).
Proof.
  intros x y N. unfold is_line, e_tangent, slope. rewrite (feqb_refl K HK), (fofz_3 K HK). cbv zeta.
  assert (E : y + y = f2 K * y) by (unfold f2; ring). assert (N2 : f2 K * y <> 0) by (apply (f_mul_nz K HK); auto).
  rewrite E. set (t := f2 K * y) in *. split; [auto | ]. split; field; auto.
Qed.
Lemma e_proj_line : forall X Y z, z <> 0 -> Y <> 0 ->
  let P := Some (X / (z * z), Y / (z * z * z)) in is_line K a P P (e_tangent_proj K a (X, Y, z, z * z)).
Proof.
  intros X Y z Nz N. cbv zeta. unfold is_line, e_tangent_proj, slope. rewrite (feqb_refl K HK). cbv zeta.
  assert (E : Y + Y = f2 K * Y) by (unfold f2; ring). assert (N2 : f2 K * Y <> 0) by (apply (f_mul_nz K HK); auto).
  rewrite E. assert (E2 : f2 K * (Y / (z * z * z)) = (f2 K * Y) / (z * z * z)) by (field; auto). rewrite E2. set (t := f2 K * Y) in *. unfold f3.
  split; [repeat apply (f_mul_nz K HK); auto | ]. split; field; repeat split; auto.
Qed.
Lemma e_chord_line : forall x1 y1 x2 y2, x1 <> x2 -> is_line K a (Some (x1, y1)) (Some (x2, y2)) (e_line K (x1, y1) (x2, y2)).
Proof.
  intros x1 y1 x2 y2 N. unfold is_line, e_line, slope. rewrite (feqb_false K HK) by auto.
  assert (N2 : x2 - x1 <> 0) by (intro E; apply N; symmetry; apply (f_sub_0 K HK); auto).
  split; auto. split; field; auto.
Qed.
Definition eaff (v : ejac K) : point K := let '(X, Y, z, _) := v in Some (X / (z * z), Y / (z * z * z)).
Definition ejac_ok (v : ejac K) : Prop := let '(_, _, z, z2) := v in z <> 0 /\ z2 = z * z.
Lemma e_proj_double_ok : forall v, ejac_ok v -> (let '(_, Y, _, _) := v in Y <> 0) ->
  ejac_ok (e_proj_double K a v) /\ eaff (e_proj_double K a v) = padd K a (eaff v) (eaff v).
Proof.
  intros [[[X Y] z] z2] (Nz & ->) NY. unfold e_proj_double. cbv zeta.
  assert (E : Y * z + Y * z = f2 K * Y * z) by (unfold f2; ring). assert (N2 : f2 K * Y * z <> 0) by (repeat apply (f_mul_nz K HK); auto).
  split; [split; [rewrite E; auto | auto] | ].
  unfold eaff. cbn [padd]. rewrite !(feqb_refl K HK). cbn [negb andb].
  assert (NY3 : Y / (z * z * z) <> 0).
  { intro F. apply NY. transitivity (Y / (z * z * z) * (z * z * z)); [field; auto | ]. rewrite F. ring. }
  rewrite (feqb_false K HK) by auto. cbn [negb]. unfold third. rewrite E. unfold f3. unfold f2 in *.
  f_equal. f_equal; field; repeat split; auto.
Qed.
Lemma e_to_affine_ok : forall w, ejac_ok w -> exists x y, e_to_affine K w = Ok (x, y, 1, 1) /\ eaff w = Some (x, y) /\ eaff (x, y, 1, 1) = Some (x, y).
Proof.
  intros [[[x y] z] z2] (Nz & ->). unfold e_to_affine. rewrite (finvert_ok K HK) by auto. cbn [bind]. cbv zeta.
  eexists. eexists. split; [reflexivity | ]. split; cbn [eaff]; f_equal; f_equal; field; auto. all: split; auto; apply (f_1_neq_0 K HK).
Qed.
Lemma ejac1 : forall x y : K, ejac_ok (x, y, 1, 1).
Proof. intros. split; [apply (f_1_neq_0 K HK) | ring]. Qed.

(** a numerator and denominator in a given ratio *)
Definition rat (f : frac K) (x y : K) : Prop := fst f <> 0 /\ snd f <> 0 /\ fst f * y = snd f * x.
Lemma rat_1 : rat (1, 1) 1 1.
Proof. repeat split; cbn; try ring; apply (f_1_neq_0 K HK). Qed.
Lemma rat_mul : forall f x y f' x' y', rat f x y -> rat f' x' y' -> rat (fst f * fst f', snd f * snd f') (x * x') (y * y').
Proof.
  intros f x y f' x' y' (N1 & N2 & E) (N3 & N4 & E'). repeat split; cbn [fst snd]; try (apply (f_mul_nz K HK); auto).
  transitivity ((fst f * y) * (fst f' * y')); [ring | ]. rewrite E, E'. ring.
Qed.
Lemma rat_cancel : forall f x y c, c <> 0 -> rat f (x * c) (y * c) -> rat f x y.
Proof.
  intros f x y c N (N1 & N2 & E). repeat split; auto. transitivity ((fst f * (y * c)) / c); [field; auto | ]. rewrite E. field. auto.
Qed.
Lemma rat_div : forall f x y, y <> 0 -> rat f x y -> exists vd, finvert (snd f) = Ok vd /\ fst f * vd = x / y.
Proof.
  intros f x y N (N1 & N2 & E). rewrite (finvert_ok K HK) by auto. eexists. split; [reflexivity | ].
  transitivity ((fst f * y) * finv (snd f) / y); [field; auto | ]. rewrite E. field. auto.
Qed.
End L.

Section E.
Variable K : fld.
Hypothesis HK : fld_laws K.
Add Field KFe : (fl_field K HK).
Local Notation "0" := f0. Local Notation "1" := f1.
Local Notation "x + y" := (fadd x y). Local Notation "x - y" := (fsub x y). Local Notation "x * y" := (fmul x y). Local Notation "- x" := (fopp x).
Local Notation "x / y" := (fdiv x y).
Variables a b : K.
Hypothesis HE : elliptic K a b.
Let C2 : f2 K <> 0 := proj1 HE.
Let SM := proj2 HE.
Variable r : Z.
Hypothesis Pr : prime r.
Hypothesis R5 : (5 < r)%Z.
Variables (e2 e1 s1 s0 : Z).
Hypothesis E12 : (0 <= e1 < e2)%Z.
Hypothesis S1 : s1 = 1%Z \/ s1 = (-1)%Z.
Hypothesis S0 : s0 = 1%Z \/ s0 = (-1)%Z.
Hypothesis RE : (r = 2 ^ e2 + s1 * 2 ^ e1 + s0)%Z.
Local Notation on := (on_curve K a b).
Local Notation add := (padd K a).
Local Notation mul := (pmul K a).
Local Notation step := (miller_step K a).
Local Notation G := (torsion K a b r).
Local Notation out := (out K a b G).
Local Notation info := {| ee2 := e2; ee1 := e1; es1 := s1; es0 := s0 |}.
Lemma rpos : (0 < r)%Z. Proof. lia. Qed.
Lemma tor_sub : subgroup K a b G.
Proof.
  split.
  - intros P []; auto.
  - split; [exact Logic.I | apply pzmul_0].
  - intros P Q [O1 T1] [O2 T2]. split; [apply (onadd K HK a b HE); auto | ]. rewrite (zmul_dist K HK a b C2 SM) by (auto; lia). rewrite T1, T2. reflexivity.
  - intros P [O T]. split; [apply (neg_on K HK a b); auto | ]. apply (order_neg K HK a b HE); auto.
Qed.
Lemma shift_out : forall R, e_shift K a b r R -> out R.
Proof. intros R [O N]. split; auto. intros [_ T]. auto. Qed.
Let onadd := onadd K HK a b HE.
Let gon := sg_on K a b G tor_sub.
Let mulG := mul_G1 K a b G tor_sub.
Hint Resolve onadd gon mulG : sg.

Variable P : point K.
Hypothesis GP : G P.
Hypothesis NP : P <> None.
Lemma pz_nat : forall n, pzmul K a (Z.of_nat n) P = mul n P.
Proof. intros [ | n]; [reflexivity | ]. cbn [Z.of_nat pzmul]. rewrite SuccNat2Pos.id_succ. reflexivity. Qed.
Lemma mulp : forall m n, mul (m + n)%nat P = add (mul m P) (mul n P).
Proof. intros. apply (mul_add K HK a b HE G tor_sub); auto. Qed.
Lemma gcd_finite : forall k, Z.gcd (Z.of_nat k) r = 1%Z -> mul k P <> None.
Proof. intros k GC. rewrite <- pz_nat. destruct GP as [O T]. apply (coprime_finite K HK a b HE r rpos P O T); auto. lia. Qed.
Lemma not_div_finite : forall k, (0 <= k)%Z -> ~ (r | k)%Z -> pzmul K a k P <> None.
Proof.
  intros k Hk ND. destruct GP as [O T]. apply (coprime_finite K HK a b HE r rpos P O T); auto; try lia.
  apply Zgcd_1_rel_prime. apply rel_prime_sym. apply prime_rel_prime; auto.
Qed.
Lemma pow2_finite : forall n, mul (2 ^ n)%nat P <> None. Proof. intros. apply gcd_finite. apply (PairingAFacts.pow2_coprime r Pr R5). Qed.
Lemma double_pow : forall k x y, mul k P = Some (x, y) -> mul (2 * k)%nat P <> None -> y <> 0.
Proof.
  intros k x y E N Y. apply N. replace (2 * k)%nat with (k + k)%nat by lia. rewrite mulp, E. rewrite Y. cbn [padd]. rewrite !(feqb_refl K HK). reflexivity.
Qed.
Local Notation A := (Z.to_nat e1).
Local Notation B := (Z.to_nat e2).
Local Notation V := (mul (2 ^ B)%nat P).
Local Notation W := (mul (2 ^ A)%nat P).
Lemma l1 : loop1 info = A. Proof. reflexivity. Qed.
Lemma l2 : (A + loop2 info = B)%nat. Proof. unfold loop2. cbn [ee1 ee2]. rewrite Z.max_r by lia. lia. Qed.
Lemma zA : Z.of_nat (2 ^ A) = (2 ^ e1)%Z. Proof. rewrite Nat2Z.inj_pow, Z2Nat.id by lia. reflexivity. Qed.
Lemma zB : Z.of_nat (2 ^ B) = (2 ^ e2)%Z. Proof. rewrite Nat2Z.inj_pow, Z2Nat.id by lia. reflexivity. Qed.
Definition last : nat := Z.to_nat (r - s0).
Lemma A_lt_B : (2 ^ A < 2 ^ B)%nat. Proof. apply Nat.pow_lt_mono_r; lia. Qed.
Lemma last_finite : mul last P <> None.
Proof.
  rewrite <- pz_nat. apply not_div_finite; [lia | ]. unfold last. rewrite Z2Nat.id by (destruct S0 as [-> | ->]; lia).
  intros (c & D). assert (DD : (r | s0)%Z) by (exists (1 - c)%Z; lia). apply Zdivide_bounds in DD; [ | destruct S0; lia]. destruct S0 as [-> | ->]; cbn in DD; lia.
Qed.
Lemma distinct_x : forall x1 y1 x2 y2, V = Some (x1, y1) -> W = Some (x2, y2) -> x1 <> x2.
Proof.
  intros x1 y1 x2 y2 EV EW E. assert (ON1 := gon _ (mulG (2 ^ B)%nat P GP)). assert (ON2 := gon _ (mulG (2 ^ A)%nat P GP)). rewrite EV in ON1. rewrite EW in ON2.
  subst x2. pose proof A_lt_B as LT. pose proof zA as ZA. pose proof zB as ZB.
  assert (SUM : add V W = mul (2 ^ B + 2 ^ A)%nat P) by (rewrite <- mulp; reflexivity).
  assert (DIF : add (mul (2 ^ B - 2 ^ A)%nat P) W = V) by (rewrite <- mulp; f_equal; lia).
  pose proof (PairingAFacts.last_distinct r Pr R5 e2 e1 s1 s0 E12 S1 S0 RE) as LD.
  assert (NS : mul (2 ^ B + 2 ^ A)%nat P <> None).
  { rewrite <- pz_nat. rewrite Nat2Z.inj_add, ZA, ZB. destruct S1 as [E1 | E1].
    - replace (2 ^ e2 + 2 ^ e1)%Z with (Z.of_nat last) by (unfold last; rewrite Z2Nat.id by (destruct S0; lia); rewrite RE, E1; lia). rewrite pz_nat. apply last_finite.
    - apply not_div_finite; [nia | ]. intros D. apply LD. rewrite E1. replace (2 ^ e2 - -1 * 2 ^ e1)%Z with (2 ^ e2 + 2 ^ e1)%Z by lia. auto. }
  assert (ND : mul (2 ^ B - 2 ^ A)%nat P <> None).
  { rewrite <- pz_nat. rewrite Nat2Z.inj_sub, ZA, ZB by lia. destruct S1 as [E1 | E1].
    - apply not_div_finite; [lia | ]. intros D. apply LD. rewrite E1, Z.mul_1_l. auto.
    - replace (2 ^ e2 - 2 ^ e1)%Z with (Z.of_nat last) by (unfold last; rewrite Z2Nat.id by (destruct S0; lia); rewrite RE, E1; lia). rewrite pz_nat. apply last_finite. }
  destruct (same_x K HK a b x1 y1 y2 ON1 ON2) as [EY | EY].
  - subst y2. apply ND. rewrite EV, EW in DIF.
    assert (CR : add (add (mul (2 ^ B - 2 ^ A)%nat P) (Some (x1, y1))) (pneg (Some (x1, y1))) = mul (2 ^ B - 2 ^ A)%nat P).
    { rewrite (assoc K HK a b HE), (add_neg_r K HK a C2), (add_0_r K a); auto with sg. apply (neg_on K HK a b). auto. }
    rewrite <- CR, DIF. apply (add_neg_r K HK a C2).
  - apply NS. rewrite <- SUM, EV, EW, EY. change (Some (x1, fopp y2)) with (pneg (Some (x1, y2))). rewrite (add_comm K HK a). apply (add_neg_r K HK a C2).
Qed.

Variables num den : K * K.
Hypothesis ON : out (Some num).
Hypothesis OD : out (Some den).
Local Notation mil n X := (miller K a n P (Some X)).
Local Notation ratn f n := (rat K f (mil n num) (mil n den)).
Lemma m1 : forall x : K, 1 * x = x. Proof. intros. ring. Qed.
Lemma off_x : forall x y X, G (Some (x, y)) -> out (Some X) -> fst X - x <> 0.
Proof.
  intros x y [u w] HG HO F. apply (out_off K HK a b G tor_sub _ _ HG HO). symmetry. apply (f_sub_0 K HK). auto.
Qed.
Lemma eval_step : forall U U' xs ys abc X, is_line K a U U' abc -> U <> None -> add U U' = Some (xs, ys) -> G (Some (xs, ys)) -> out (Some X) ->
  exists cb, cb <> 0 /\ forall X', out (Some X') -> e_eval K abc X' = cb * (step U U' (Some X') * (fst X' - xs)).
Proof.
  intros U U' xs ys [[ca cb] cc] X IL NU ES HG HX. destruct U as [[x1 y1] | ]; [ | congruence]. destruct U' as [[x2 y2] | ]; [ | destruct IL].
  destruct IL as (N & -> & ->). exists cb. split; auto. intros X' HX'. pose proof (off_x xs ys X' HG HX') as D. destruct X' as [u w]. unfold e_eval, miller_step. rewrite ES. cbn [fst snd] in *. field. auto.
Qed.
(* one line and one vertical, both scaled *)
Lemma rat_step : forall f x y U U' xs ys abc c, rat K f x y -> is_line K a U U' abc -> G U -> G U' -> U <> None -> add U U' = Some (xs, ys) -> c <> 0 ->
  rat K (fst f * e_eval K abc num * (c * (fst den - xs)), snd f * e_eval K abc den * (c * (fst num - xs)))
    (x * step U U' (Some num)) (y * step U U' (Some den)).
Proof.
  intros f x y U U' xs ys abc c (N1 & N2 & E) IL HU HU' NU ES NC.
  assert (HS : G (Some (xs, ys))) by (rewrite <- ES; apply (sg_add K a b G tor_sub); auto).
  destruct (eval_step U U' xs ys abc num IL NU ES HS ON) as (cb & NB & EV). rewrite !EV by auto.
  pose proof (off_x xs ys num HS ON) as D1. pose proof (off_x xs ys den HS OD) as D2.
  assert (Z1 := o_step_nz K HK a b HE G tor_sub U U' (Some num) HU HU' ON). assert (Z2 := o_step_nz K HK a b HE G tor_sub U U' (Some den) HU HU' OD).
  repeat split; cbn [fst snd]; repeat apply (f_mul_nz K HK); auto.
  transitivity ((fst f * y) * (cb * step U U' (Some num) * (fst num - xs) * (c * (fst den - xs)) * step U U' (Some den))); [ring | ]. rewrite E. ring.
Qed.
Lemma rat_double : forall f n xs ys abc c, ratn f n -> is_line K a (mul n P) (mul n P) abc -> mul n P <> None -> mul (2 * n)%nat P = Some (xs, ys) -> c <> 0 ->
  ratn (fst f * fst f * e_eval K abc num * (c * (fst den - xs)), snd f * snd f * e_eval K abc den * (c * (fst num - xs))) (2 * n)%nat.
Proof.
  intros f n xs ys abc c F IL NU E2 NC. replace (2 * n)%nat with (n + n)%nat in * by lia. rewrite !(o_mil_add K HK a b HE G tor_sub n n P) by auto.
  apply (rat_step (fst f * fst f, snd f * snd f) _ _ (mul n P) (mul n P) xs ys abc c); auto. 2:{ rewrite <- mulp. auto. }
  apply (rat_mul K HK); auto.
Qed.
Lemma e_affine_ok : forall n i f U, ratn f (2 ^ i)%nat -> U = mul (2 ^ i)%nat P ->
  exists f', e_affine_loop K a num den n f U = Ok (f', mul (2 ^ (i + n))%nat P) /\ ratn f' (2 ^ (i + n))%nat.
Proof.
  induction n; intros i f U F EU; cbn [e_affine_loop].
  - exists f. replace (i + 0)%nat with i by lia. subst U. auto.
  - destruct U as [[x y] | ] eqn:E; [ | exfalso; apply (pow2_finite i); auto]. cbn [coords bind].
    assert (N2 : mul (2 * 2 ^ i)%nat P <> None) by (change (2 * 2 ^ i)%nat with (2 ^ S i)%nat; apply pow2_finite).
    assert (NY : y <> 0) by (apply (double_pow (2 ^ i)%nat x y); auto).
    rewrite (double_value_ok K HK a C2), (mul_value_ok K HK a C2). cbn [bind].
    assert (E2 : add (Some (x, y)) (Some (x, y)) = mul (2 * 2 ^ i)%nat P) by (replace (2 * 2 ^ i)%nat with (2 ^ i + 2 ^ i)%nat by lia; rewrite mulp, <- EU; reflexivity).
    rewrite E2. destruct (mul (2 * 2 ^ i)%nat P) as [[xs ys] | ] eqn:E3; [ | congruence]. cbn [coords bind].
    replace (i + S n)%nat with (S i + n)%nat by lia. apply IHn; [ | symmetry; exact E3].
    change (2 ^ S i)%nat with (2 * 2 ^ i)%nat. unfold swap, e_vertical, e_times. cbn [fst snd].
    pose proof (rat_double f (2 ^ i)%nat xs ys (e_tangent K a x y) 1 F) as H. rewrite <- EU in H.
    specialize (H (e_tangent_line K HK C2 a x y NY) ltac:(discriminate) E3 (f_1_neq_0 K HK)). rewrite !m1 in H. exact H.
Qed.
Lemma e_proj_ok : forall n i f w, ejac_ok K w -> ratn f (2 ^ i)%nat -> eaff K w = mul (2 ^ i)%nat P ->
  exists f' w', e_proj_loop K a num den n f w = (f', w') /\ ejac_ok K w' /\ eaff K w' = mul (2 ^ (i + n))%nat P /\ ratn f' (2 ^ (i + n))%nat.
Proof.
  induction n; intros i f w J F EU; cbn [e_proj_loop].
  - exists f, w. replace (i + 0)%nat with i by lia. auto.
  - assert (N2 : mul (2 * 2 ^ i)%nat P <> None) by (change (2 * 2 ^ i)%nat with (2 ^ S i)%nat; apply pow2_finite).
    destruct w as [[[x y] z] z2] eqn:EW. assert (J' := J). destruct J' as (Nz & Ez).
    assert (NY : y <> 0).
    { intro Z. apply (double_pow (2 ^ i)%nat (x / (z * z)) (y / (z * z * z))); auto. rewrite Z. field. auto. }
    destruct (e_proj_double_ok K HK C2 a (x, y, z, z2) J NY) as (J2 & A2).
    assert (E2 : eaff K (e_proj_double K a (x, y, z, z2)) = mul (2 ^ S i)%nat P).
    { rewrite A2, EU. change (2 ^ S i)%nat with (2 * 2 ^ i)%nat. replace (2 * 2 ^ i)%nat with (2 ^ i + 2 ^ i)%nat by lia. rewrite mulp. reflexivity. }
    destruct (e_proj_double K a (x, y, z, z2)) as [[[x' y'] z'] z2'] eqn:ED. cbv zeta.
    replace (i + S n)%nat with (S i + n)%nat by lia. apply IHn; auto.
    change (2 ^ S i)%nat with (2 * 2 ^ i)%nat in *. unfold swap, e_vertical_proj, e_times. cbn [fst snd].
    cbn [eaff] in E2. destruct J2 as (Nz' & Ez').
    pose proof (rat_double f (2 ^ i)%nat (x' / (z' * z')) (y' / (z' * z' * z')) (e_tangent_proj K a (x, y, z, z2)) (z' * z') F) as H. rewrite <- EU, Ez in H. rewrite Ez.
    specialize (H (e_proj_line K HK C2 a x y z Nz NY)).
    specialize (H ltac:(discriminate) (eq_sym E2) ltac:(apply (f_mul_nz K HK); auto)). rewrite Ez'.
    replace (z' * z' * (fst den - x' / (z' * z'))) with (fst den * (z' * z') - x') in H by (field; auto).
    replace (z' * z' * (fst num - x' / (z' * z'))) with (fst num * (z' * z') - x') in H by (field; auto). exact H.
Qed.
Lemma step_inv : forall x y X, on (Some (x, y)) -> step (Some (x, y)) (pneg (Some (x, y))) (Some X) = fst X - x.
Proof. intros x y [u w] O. unfold miller_step. cbn [pneg]. pose proof (add_neg_r K HK a C2 (Some (x, y))) as E. cbn [pneg] in E. rewrite E. reflexivity. Qed.
(* f_{last} from f_{2^B}, f_{2^A} *)
Lemma line_last : forall f g x1 y1 x2 y2 xl yl, ratn f (2 ^ B)%nat -> ratn g (2 ^ A)%nat -> V = Some (x1, y1) -> W = Some (x2, y2) ->
  mul last P = Some (xl, yl) ->
  forall f1' Z1 B', (f1', Z1) = e_middle K num den info g (x2, y2) -> coords K Z1 = Ok B' ->
  add (Some (x1, y1)) Z1 = Some (xl, yl) /\
  ratn (fst f * fst f1' * e_eval K (e_line K (x1, y1) B') num * (fst den - xl), snd f * snd f1' * e_eval K (e_line K (x1, y1) B') den * (fst num - xl)) last.
Proof.
  intros f g x1 y1 x2 y2 xl yl F H EV EW EL f1' Z1 B' EM EB.
  assert (LD := distinct_x _ _ _ _ EV EW). assert (LF := last_finite). pose proof A_lt_B as LT. pose proof zA as ZA. pose proof zB as ZB.
  assert (GV := mulG (2 ^ B)%nat P GP). assert (GW := mulG (2 ^ A)%nat P GP). assert (GL := mulG last P GP). rewrite EV in GV. rewrite EW in GW. rewrite EL in GL.
  assert (GN := sg_neg K a b G tor_sub _ GW). unfold e_middle in EM. cbn [es1] in EM.
  destruct S1 as [E1 | E1]; rewrite E1 in EM; cbn [Z.ltb Z.compare fst snd] in EM.
  - assert (L : last = (2 ^ B + 2 ^ A)%nat) by (unfold last; rewrite RE, E1; lia).
    injection EM as -> ->. injection EB as <-.
    assert (ES : add (Some (x1, y1)) (Some (x2, y2)) = Some (xl, yl)) by (rewrite <- EV, <- EW, <- mulp, <- L; auto). split; auto.
    rewrite L, !(o_mil_add K HK a b HE G tor_sub) by auto. rewrite EV, EW.
    pose proof (rat_step (fst f * fst g, snd f * snd g) _ _ _ _ xl yl _ 1 (rat_mul K HK _ _ _ _ _ _ F H) (e_chord_line K HK a x1 y1 x2 y2 LD) GV GW ltac:(discriminate) ES (f_1_neq_0 K HK)) as Q.
    rewrite !m1 in Q. exact Q.
  - assert (L : (2 ^ B = last + 2 ^ A)%nat) by (unfold last; rewrite RE, E1; lia).
    injection EM as -> ->. injection EB as <-. change (Some (x2, - y2)) with (pneg (Some (x2, y2))) in *.
    assert (ES : add (Some (x1, y1)) (pneg (Some (x2, y2))) = Some (xl, yl)).
    { rewrite <- EV, L, mulp, <- EW, (assoc K HK a b HE), (add_neg_r K HK a C2), (add_0_r K a); auto; try apply gon; auto. apply (sg_neg K a b G tor_sub). auto. }
    split; auto.
    assert (H' : rat K (snd g * (fst den - x2), fst g * (fst num - x2)) (mil (2 ^ A)%nat den * (fst den - x2)) (mil (2 ^ A)%nat num * (fst num - x2))).
    { destruct H as (N1 & N2 & E). pose proof (off_x x2 y2 num GW ON) as D1. pose proof (off_x x2 y2 den GW OD) as D2.
      repeat split; cbn [fst snd]; try (apply (f_mul_nz K HK); auto). transitivity ((snd g * mil (2 ^ A)%nat num) * ((fst den - x2) * (fst num - x2))); [ring | ]. rewrite <- E. ring. }
    pose proof (rat_step (fst f * (snd g * (fst den - x2)), snd f * (fst g * (fst num - x2))) _ _ (Some (x1, y1)) (pneg (Some (x2, y2))) xl yl _ 1 (rat_mul K HK _ _ _ _ _ _ F H')
      (e_chord_line K HK a x1 y1 x2 (- y2) LD) GV GN ltac:(discriminate) ES (f_1_neq_0 K HK)) as Q.
    rewrite !m1 in Q. unfold swap, e_vertical. cbn [fst snd] in *.
    assert (CO : forall X, out (Some X) -> mil (2 ^ B)%nat X * step (Some (x1, y1)) (pneg (Some (x2, y2))) (Some X) = mil last X * (mil (2 ^ A)%nat X * (fst X - x2))).
    { intros X HX. rewrite L, (o_mil_add K HK a b HE G tor_sub) by auto. rewrite EL, EW.
      pose proof (o_cocycle K HK a b HE G tor_sub (Some (xl, yl)) (Some (x2, y2)) (pneg (Some (x2, y2))) (Some X) GL GW GN HX) as CC.
      rewrite <- EL, <- EW, <- mulp, <- L, EV, EW, EL in CC. rewrite (add_neg_r K HK a C2), step_B0, step_inv in CC by (apply gon; auto).
      transitivity (mil last X * mil (2 ^ A)%nat X * (step (Some (xl, yl)) (Some (x2, y2)) (Some X) * step (Some (x1, y1)) (pneg (Some (x2, y2))) (Some X))); [ring | ]. rewrite CC. ring. }
    apply (rat_cancel K HK) with (c := mil (2 ^ A)%nat num * (fst num - x2) * (mil (2 ^ A)%nat den * (fst den - x2))).
    { pose proof (off_x x2 y2 num GW ON) as D1. pose proof (off_x x2 y2 den GW OD) as D2. repeat apply (f_mul_nz K HK); auto; apply (o_mil_nz K HK a b HE G tor_sub); auto. }
    replace (mil last num * (mil (2 ^ A)%nat num * (fst num - x2) * (mil (2 ^ A)%nat den * (fst den - x2))))
      with (mil (2 ^ B)%nat num * (mil (2 ^ A)%nat den * (fst den - x2)) * step (Some (x1, y1)) (pneg (Some (x2, y2))) (Some num)).
    2:{ transitivity ((mil (2 ^ B)%nat num * step (Some (x1, y1)) (pneg (Some (x2, y2))) (Some num)) * (mil (2 ^ A)%nat den * (fst den - x2))); [ring | ]. rewrite CO by auto. ring. }
    replace (mil last den * (mil (2 ^ A)%nat num * (fst num - x2) * (mil (2 ^ A)%nat den * (fst den - x2))))
      with (mil (2 ^ B)%nat den * (mil (2 ^ A)%nat num * (fst num - x2)) * step (Some (x1, y1)) (pneg (Some (x2, y2))) (Some den)).
    2:{ transitivity ((mil (2 ^ B)%nat den * step (Some (x1, y1)) (pneg (Some (x2, y2))) (Some den)) * (mil (2 ^ A)%nat num * (fst num - x2))); [ring | ]. rewrite CO by auto. ring. }
    exact Q.
Qed.
Lemma last_r : forall f Px Py, P = Some (Px, Py) -> ratn f last -> ratn (if (s0 >? 0)%Z then e_vertical K num den f Px else f) (Z.to_nat r).
Proof.
  intros f Px Py EP F. destruct GP as [OP TP]. assert (TR : mul (Z.to_nat r) P = None) by (rewrite <- pz_nat, Z2Nat.id by lia; auto).
  destruct S0 as [E | E]; rewrite E; cbn [Z.gtb Z.compare].
  - assert (L : Z.to_nat r = S last) by (unfold last; rewrite E; lia).
    destruct (mul last P) as [[xl yl] | ] eqn:EL; [ | destruct (last_finite EL)].
    assert (OL := gon _ (mulG last P GP)). rewrite EL in OL.
    assert (IS : add (Some (xl, yl)) (Some (Px, Py)) = None).
    { rewrite L in TR. cbn [pmul] in TR. rewrite (add_comm K HK a), EL, EP in TR. auto. }
    rewrite EP in OP. destruct (infinite_sum K HK a b xl yl Px Py OL OP IS) as [EX _]. subst xl.
    assert (MS : forall X, mil (Z.to_nat r) X = mil last X * (fst X - Px)).
    { intros X. rewrite L. cbn [miller]. rewrite EL, EP. f_equal. destruct X as [u w]. unfold miller_step. rewrite EP, IS in *. reflexivity. }
    rewrite !MS. unfold e_vertical. assert (GP' := GP). rewrite EP in GP'.
    apply (rat_mul K HK f _ _ (fst num - Px, fst den - Px)); auto. repeat split; cbn [fst snd]; try apply (off_x Px Py); auto. ring.
  - assert (L : last = S (Z.to_nat r)) by (unfold last; rewrite E; lia). rewrite L in F. cbn [miller] in F. rewrite TR in F. cbn [miller_step] in F.
    assert (S1' : forall x : K, x * 1 = x) by (intros; ring). rewrite !S1' in F. exact F.
Qed.
Local Notation value := (mil (Z.to_nat r) num / mil (Z.to_nat r) den).
Lemma den_nz : mil (Z.to_nat r) den <> 0. Proof. apply (o_mil_nz K HK a b HE G tor_sub); auto. Qed.
Lemma start : ratn (1, 1) (2 ^ 0)%nat.
Proof.
  cbn [Nat.pow miller pmul miller_step]. assert (E : (1 : K) * 1 = 1) by ring. rewrite !E. apply (rat_1 K HK).
Qed.
Lemma startP : P = mul (2 ^ 0)%nat P. Proof. cbn [Nat.pow pmul]. rewrite (add_0_r K a). reflexivity. Qed.
Lemma middle_fin : forall g Wc, exists f1' Z1 B', (f1', Z1) = e_middle K num den info g Wc /\ coords K Z1 = Ok B' /\ Z1 = Some B'.
Proof.
  intros g [x y]. unfold e_middle. destruct (es1 info <? 0)%Z; repeat eexists.
Qed.
Theorem affine_correct : e_miller_affine K a num den info P = Ok value.
Proof.
  unfold e_miller_affine. assert (EP : exists px py, P = Some (px, py)) by (destruct P as [[px py] | ]; [eauto | congruence]). destruct EP as (px & py & EP).
  rewrite EP at 1. cbn [coords bind]. rewrite l1.
  destruct (e_affine_ok A 0 (1, 1) P start startP) as (g & -> & F). cbn [bind]. change (0 + A)%nat with A in *.
  destruct W as [[x2 y2] | ] eqn:EW; [ | destruct (pow2_finite A EW)]. cbn [coords bind].
  destruct (e_affine_ok (loop2 info) A g W F eq_refl) as (f & LF & FF). rewrite EW, l2 in LF. rewrite l2 in FF.
  destruct (middle_fin g (x2, y2)) as (f1' & Z1 & B' & EM & EB & EZ). rewrite <- EM, LF. cbn [bind].
  destruct V as [[x1 y1] | ] eqn:EV; [ | destruct (pow2_finite B EV)].
  destruct (mul last P) as [[xl yl] | ] eqn:EL; [ | destruct (last_finite EL)].
  destruct (line_last f g x1 y1 x2 y2 xl yl FF F EV EW EL f1' Z1 B' EM EB) as (ES & RR).
  unfold e_final. cbn [coords bind]. rewrite EB. cbn [bind]. rewrite (mul_value_ok K HK a C2), ES. cbn [coords bind]. cbn [es0].
  unfold e_times.
  match goal with |- context [swap K (e_vertical K num den (swap K ?u) xl)] => change (swap K (e_vertical K num den (swap K u) xl)) with (fst u * (fst den - xl), snd u * (fst num - xl)) end.
  cbn [fst snd]. pose proof (last_r _ px py EP RR) as LR.
  destruct (rat_div K HK _ _ _ den_nz LR) as (vd & -> & VD). cbn [bind]. rewrite VD. reflexivity.
Qed.
Theorem proj_correct : e_miller_proj K a num den info P = Ok value.
Proof.
  unfold e_miller_proj. assert (EP : exists px py, P = Some (px, py)) by (destruct P as [[px py] | ]; [eauto | congruence]). destruct EP as (px & py & EP).
  rewrite EP at 1. cbn [coords bind]. rewrite l1.
  assert (SP : eaff K (px, py, 1, 1) = mul (2 ^ 0)%nat P).
  { rewrite <- startP, EP. cbn [eaff]. f_equal. assert (N := f_1_neq_0 K HK). f_equal; field; auto. }
  destruct (e_proj_ok A 0 (1, 1) (px, py, 1, 1) (ejac1 K HK px py) start SP) as (g & w & -> & J & EA & F). change (0 + A)%nat with A in *.
  destruct (e_to_affine_ok K HK w J) as (x2 & y2 & -> & EW & EW'). cbn [bind]. rewrite EA in EW.
  unfold e_middle_proj. cbn [es1].
  destruct (e_proj_ok (loop2 info) A g (x2, y2, 1, 1) (ejac1 K HK x2 y2) F ltac:(rewrite EW', EW; auto)) as (f & w' & LF & J' & EV & FF). rewrite l2 in EV, FF.
  destruct (e_to_affine_ok K HK w' J') as (x1 & y1 & TA & EV1 & _). rewrite EV in EV1.
  destruct (middle_fin g (x2, y2)) as (f1' & Z1 & B' & EM & EB & EZ).
  assert (SC : forall u v x : K, (u * (fst num * 1 - x), v * (fst den * 1 - x)) = (u * (fst num - x), v * (fst den - x))) by (intros; f_equal; ring).
  assert (EM' : (f1', Z1) = (if (s1 <? 0)%Z then (swap K (e_vertical_proj K num den g 1 x2), Some (x2, - y2)) else (g, Some (x2, y2)))).
  { rewrite EM. unfold e_middle. cbn [es1 fst snd]. unfold e_vertical_proj, e_vertical. rewrite SC. reflexivity. }
  rewrite <- EM', LF. rewrite TA. cbn [bind].
  destruct (mul last P) as [[xl yl] | ] eqn:EL; [ | destruct (last_finite EL)].
  destruct (line_last f g x1 y1 x2 y2 xl yl FF F EV1 EW EL f1' Z1 B' EM EB) as (ES & RR).
  unfold e_final_proj. rewrite EB. cbn [bind]. rewrite (mul_value_ok K HK a C2), ES. cbn [coords bind]. cbn [es0].
  unfold e_vertical_proj, e_times, swap. cbn [fst snd]. rewrite !SC. cbn [fst snd].
  replace (fst f * fst f1' * e_eval K (e_line K (x1, y1) B') num * (fst den * 1 - xl)) with (fst f * fst f1' * e_eval K (e_line K (x1, y1) B') num * (fst den - xl)) by ring.
  replace (snd f * snd f1' * e_eval K (e_line K (x1, y1) B') den * (fst num * 1 - xl)) with (snd f * snd f1' * e_eval K (e_line K (x1, y1) B') den * (fst num - xl)) by ring.
  pose proof (last_r _ px py EP RR) as LR. unfold e_vertical in LR. cbn [fst snd] in LR.
  destruct (rat_div K HK _ _ _ den_nz LR) as (vd & -> & VD). cbn [bind]. rewrite VD. reflexivity.
Qed.
End E.
