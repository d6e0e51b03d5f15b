(** The Lucas ladders raise elements of norm one to powers. *)
From Coq Require Import ZArith List Bool Lia Ring Field Znumtheory.
From Verif.Base Require Import Outcome Algebra Slots Gmp.
From Verif.Spec Require Import Quadratic FiniteField Curve Twist.
From Verif.Model Require Import Lucas.
From Verif.Proofs Require Import PowFacts FieldFacts SlotFacts QuadFacts Frobenius.

Section S.
Variable K : fld.
Hypothesis HK : fld_laws K.
Variable d : K.
Hypothesis Hd : ~ is_square d.
Hypothesis C2 : (fadd f1 f1 : K) <> f0.
Add Field KFlu : (fl_field K HK).
Local Notation "0" := f0. Local Notation "1" := f1.
Local Notation "x + y" := (fadd x y). Local Notation "x - y" := (fsub x y). Local Notation "x * y" := (fmul x y). Local Notation "- x" := (fopp x).
Local Notation "x / y" := (fdiv x y).
Local Notation L := (Quad K d).
Let HL : fld_laws L := Quad_laws K HK d Hd.
Add Field LFlu : (fl_field L HL).
Local Notation ML := (mul_monoid L).
Local Notation two := (fadd f1 f1 : K).

Section G.
Variables p s : K.
Hypothesis N1 : p * p - d * (s * s) = 1.
Let g : L := (p, s).
Definition gp (n : nat) : L := npow (g : ML) n.
Definition re n : K := fst (gp n).
Definition im n : K := snd (gp n).
Lemma gp_S : forall n, gp (S n) = (p * re n + d * (s * im n), p * im n + s * re n).
Proof. intros. unfold gp, re, im, gp. cbn [npow]. unfold g. cbn. unfold qmul. cbn [fst snd]. reflexivity. Qed.
Lemma gp_add : forall m n, gp (m + n) = (re m * re n + d * (im m * im n), re m * im n + im m * re n).
Proof. intros. unfold re, im, gp. rewrite (npow_add ML (mul_monoid_laws L HL)). reflexivity. Qed.
Lemma gp_norm : forall n, re n * re n - d * (im n * im n) = 1.
Proof.
  induction n.
  - unfold re, im, gp. cbn. ring.
  - unfold re at 1 2, im at 1 2. rewrite gp_S. cbn [fst snd]. transitivity ((p * p - d * (s * s)) * (re n * re n - d * (im n * im n))); [ring | ].
    rewrite N1, IHn. ring.
Qed.
Definition T (n : nat) : K := two * re n.
Lemma re_S : forall n, re (S n) = p * re n + d * (s * im n). Proof. intros. unfold re at 1. rewrite gp_S. reflexivity. Qed.
Lemma im_S : forall n, im (S n) = p * im n + s * re n. Proof. intros. unfold im at 1. rewrite gp_S. reflexivity. Qed.
Lemma T_double : forall n, T (n + n) = T n * T n - two.
Proof.
  intros. unfold T, re at 1. rewrite gp_add. cbn [fst]. pose proof (gp_norm n) as E.
  assert (E2 : d * (im n * im n) = re n * re n - 1) by (rewrite <- E; ring). rewrite E2. ring.
Qed.
Lemma T_odd : forall n, T (S (n + n)) = T n * T (S n) - two * p.
Proof.
  intros n. replace (S (n + n)) with (n + S n)%nat by lia. unfold T, re at 1. rewrite gp_add, re_S, im_S. cbn [fst].
  pose proof (gp_norm n) as E. 
  transitivity (two * re n * (two * (p * re n + d * (s * im n))) - two * (p * (re n * re n - d * (im n * im n)))); [ring | rewrite E; ring].
Qed.
Lemma loop_ok : forall k j m, (0 <= k)%Z -> Z.of_nat m = (k / 2 ^ (Z.of_nat j + 1))%Z ->
  lucas_loop K two (two * p) k j (T m) (T (S m)) = (T (2 * Z.to_nat (k / 2)), T (S (2 * Z.to_nat (k / 2)))).
Proof.
  intros k j. induction j; intros m Hk Hm; cbn [lucas_loop].
  - change (2 ^ (Z.of_nat 0 + 1))%Z with 2%Z in Hm. rewrite <- Hm, Nat2Z.id.
    replace (2 * m)%nat with (m + m)%nat by lia. rewrite T_double, T_odd. reflexivity.
  - assert (P2 : (0 < 2 ^ Z.of_nat (S j))%Z) by (apply Z.pow_pos_nonneg; lia).
    assert (D : (k / 2 ^ Z.of_nat (S j) = 2 * Z.of_nat m + Z.b2z (Z.testbit k (Z.of_nat (S j))))%Z).
    { rewrite Hm. rewrite Z.pow_add_r, <- Z.div_div by lia. change (2 ^ 1)%Z with 2%Z.
      rewrite (Z.testbit_spec' k) by lia. apply Z.div_mod. lia. }
    replace (Z.of_nat j + 1)%Z with (Z.of_nat (S j)) in IHj by lia.
    assert (ED : T m * T m - two = T (2 * m)%nat) by (replace (2 * m)%nat with (m + m)%nat by lia; rewrite T_double; reflexivity).
    assert (EO : T m * T (S m) - two * p = T (2 * m + 1)%nat) by (replace (2 * m + 1)%nat with (S (m + m)) by lia; rewrite T_odd; reflexivity).
    assert (EE : T (S m) * T (S m) - two = T (2 * m + 2)%nat) by (replace (2 * m + 2)%nat with (S m + S m)%nat by lia; rewrite T_double; reflexivity).
    destruct (Z.testbit k (Z.of_nat (S j))); cbn [Z.b2z] in D; rewrite EO.
    + rewrite EE. replace (2 * m + 2)%nat with (S (2 * m + 1)) by lia. apply IHj; lia.
    + rewrite ED. replace (2 * m + 1)%nat with (S (2 * m)) by lia. apply IHj; lia.
Qed.
Lemma loop_full : forall k, (0 < k)%Z ->
  lucas_loop K (fofz 2) (p + p) k (Z.to_nat (sizeinbase2 k - 1)) (fofz 2) (p + p) = (T (2 * Z.to_nat (k / 2)), T (S (2 * Z.to_nat (k / 2)))).
Proof.
  intros k Hk. rewrite (fofz_2 K). assert (E : p + p = two * p) by ring. rewrite E.
  assert (T0 : T 0 = two) by (unfold T, re, gp; cbn; ring). assert (T1 : T 1 = two * p) by (unfold T; rewrite re_S; unfold re, im, gp; cbn; ring).
  transitivity (lucas_loop K two (two * p) k (Z.to_nat (sizeinbase2 k - 1)) (T 0) (T 1)); [rewrite T0, T1; reflexivity | ].
  apply loop_ok; [lia | ]. unfold sizeinbase2. destruct (Z.eqb_spec k 0); [lia | ]. rewrite Z.abs_eq by lia.
  assert (0 <= Z.log2 k)%Z by apply Z.log2_nonneg. rewrite Z2Nat.id by lia. replace (Z.log2 k + 1 - 1 + 1)%Z with (Z.succ (Z.log2 k)) by lia.
  symmetry. apply Z.div_small. split; [lia | ]. apply Z.log2_spec. lia.
Qed.
Lemma d_nz : d <> 0. Proof. intros E. apply Hd. exists 0. rewrite E. ring. Qed.
Lemma im_0 : s = 0 -> forall n, im n = 0.
Proof. intros E n. induction n; [reflexivity | ]. rewrite im_S, IHn, E. ring. Qed.
Lemma frac_ok : forall inv0 j n num, (s <> 0 \/ inv0 = Ok j) -> num = two * two * d * s * im n ->
  (x <- div0 K inv0 num ((p + p) * (p + p) - fofz 2 - fofz 2) ;; Ok (x * s)) = Ok (im n).
Proof.
  intros inv0 j n num H ->. pose proof d_nz as DN.
  assert (E : (p + p) * (p + p) - fofz 2 - fofz 2 = two * two * d * (s * s)).
  { rewrite (fofz_2 K). transitivity (two * two * (p * p - 1)); [ring | ]. rewrite <- N1. ring. }
  rewrite E. unfold div0. destruct (f_eq_dec K HK s 0) as [Z | NZ].
  - destruct H as [H | ->]; [contradiction | ]. rewrite Z. replace (two * two * d * (0 * 0)) with (0 : K) by ring. rewrite (feqb_refl K HK). cbn.
    rewrite (im_0 Z). f_equal. ring.
  - rewrite (feqb_false K HK).
    + cbn [bind]. f_equal. assert (G : forall t i : K, t <> 0 -> t * t * d * s * i / (t * t * d * (s * s)) * s = i) by (intros; field; auto). apply G. exact C2.
    + repeat apply (f_mul_nz K HK); auto.
Qed.
Lemma re_half : forall n, lhalve K (T n) = re n.
Proof. intros. unfold lhalve, T. field. auto. Qed.
Lemma pair_gp : forall n, (re n, im n) = gp n.
Proof. intros. unfold re, im. destruct (gp n). reflexivity. Qed.
Lemma lucas_odd_ok : forall inv0 j k, (s <> 0 \/ inv0 = Ok j) -> (0 < k)%Z -> Z.even k = true -> lucas_odd K d inv0 g k = Ok (gp (Z.to_nat k)).
Proof.
  intros inv0 j k H Hk Ev. unfold lucas_odd, g. rewrite loop_full by auto.
  assert (E : (2 * Z.to_nat (k / 2))%nat = Z.to_nat k).
  { pose proof (Z.div_mod k 2 ltac:(lia)). rewrite Zmod_even, Ev in H0. assert (0 <= k / 2)%Z by (apply Z.div_pos; lia). lia. }
  rewrite E. set (n := Z.to_nat k).
  assert (F := frac_ok inv0 j n (T (S n) + T (S n) - T n * (p + p)) H).
  assert (N : T (S n) + T (S n) - T n * (p + p) = two * two * d * s * im n) by (unfold T; rewrite re_S; ring).
  specialize (F N). destruct (div0 K inv0 _ _); cbn in F |- *; try discriminate. injection F as F. rewrite F, re_half, pair_gp. reflexivity.
Qed.
Lemma lucas_even_ok : forall inv0 j k, (s <> 0 \/ inv0 = Ok j) -> (0 < k)%Z -> Z.odd k = true -> lucas_even_core K d inv0 g k = Ok (gp (Z.to_nat k)).
Proof.
  intros inv0 j k H Hk Od. unfold lucas_even_core, g. rewrite loop_full by auto.
  assert (E : S (2 * Z.to_nat (k / 2))%nat = Z.to_nat k).
  { pose proof (Z.div_mod k 2 ltac:(lia)). rewrite Zmod_odd, Od in H0. assert (0 <= k / 2)%Z by (apply Z.div_pos; lia). lia. }
  rewrite <- E. set (n := (2 * Z.to_nat (k / 2))%nat).
  assert (F := frac_ok inv0 j (S n) ((p + p) * T (S n) - (T n + T n)) H).
  assert (N : (p + p) * T (S n) - (T n + T n) = two * two * d * s * im (S n)).
  { unfold T. rewrite re_S, im_S. transitivity (two * two * (re n * (p * p - 1) + d * (p * (s * im n)))); [ring | ]. rewrite <- N1. ring. }
  specialize (F N). destruct (div0 K inv0 _ _); cbn in F |- *; try discriminate. injection F as F. rewrite F, re_half, pair_gp. reflexivity.
Qed.
End G.

Lemma zpow_npow : forall (x : L) k, (0 <= k)%Z -> fpow x k = npow (x : ML) (Z.to_nat k).
Proof. intros x k H. unfold fpow, zpow. reflexivity. Qed.
Theorem lucas_odd_correct : forall (x : L) inv0 j k, qnorm K d x = 1 -> (snd x <> 0 \/ inv0 = Ok j) -> (0 < k)%Z -> Z.even k = true ->
  lucas_odd K d inv0 x k = Ok (fpow x k).
Proof. intros [p s] inv0 j k N H Hk E. rewrite zpow_npow by lia. apply (lucas_odd_ok p s N inv0 j); auto. Qed.
Theorem lucas_even_core_correct : forall (x : L) inv0 j k, qnorm K d x = 1 -> (snd x <> 0 \/ inv0 = Ok j) -> (0 < k)%Z -> Z.odd k = true ->
  lucas_even_core K d inv0 x k = Ok (fpow x k).
Proof. intros [p s] inv0 j k N H Hk E. rewrite zpow_npow by lia. apply (lucas_even_ok p s N inv0 j); auto. Qed.
Theorem lucas_even_correct : forall (x : L) inv0 j k, qnorm K d x = 1 -> (snd x <> 0 \/ x = 1 \/ inv0 = Ok j) -> (0 < k)%Z -> Z.odd k = true ->
  lucas_even K d inv0 x k = Ok (fpow x k).
Proof.
  intros x inv0 j k N H Hk E. unfold lucas_even. destruct (feqb x 1) eqn:X.
  - apply (feqb_eq L HL) in X. rewrite X, zpow_npow by lia. f_equal. symmetry. apply (npow_one ML (mul_monoid_laws L HL)).
  - apply (lucas_even_core_correct x inv0 j); auto. destruct H as [H | [H | H]]; auto. apply (feqb_neq L HL) in X. contradiction.
Qed.

(** the quotient of an element by its conjugate has norm one *)
Lemma conj_quot : forall x : L, x <> 0 -> qnorm K d (fmul (qconj K d x) (finv x)) = 1.
Proof.
  intros [x y] NZ.
  assert (NN : qnorm K d (x, y) <> 0).
  { intros E. apply NZ. unfold qnorm in E. cbn [fst snd] in E.
    destruct (f_eq_dec K HK y 0) as [-> | Y].
    - assert (x * x = 0) by (transitivity (x * x - d * (0 * 0)); [ring | exact E]). destruct (f_integral K HK _ _ H) as [-> | ->]; reflexivity.
    - exfalso. apply Hd. exists (x / y). transitivity (x * x / (y * y)); [field; auto | ]. transitivity (d * (y * y) / (y * y)); [ | field; auto].
      f_equal. apply (f_sub_0 K HK). auto. }
  unfold qconj. cbn. unfold qnorm, qmul, qinv, qnorm in *. cbn [fst snd] in *.
  field. auto.
Qed.
Theorem tateexp_quot : forall (x : L) j k, x <> 0 -> (0 < k)%Z -> Z.even k = true ->
  a_tateexp K d (Ok j) x k = Ok (fpow (fmul (qconj K d x) (finv x)) k).
Proof.
  intros x j k NZ Hk E. unfold a_tateexp. rewrite (finvert_ok L HL) by auto. cbn [bind].
  apply (lucas_odd_correct (fmul (qconj K d x) (finv x)) (Ok j) j k); auto. apply conj_quot. auto.
Qed.
End S.

(** powers of fields *)
Section Q.
Variable K : fld.
Hypothesis HK : fld_laws K.
Add Field KFlq : (fl_field K HK).
Variables (p m : Z).
Hypothesis Pp : prime p.
Hypothesis P2 : (2 < p)%Z.
Hypothesis Hm : (0 <= m)%Z.
Hypothesis Hq : has_order K (p ^ m).
Variable d : K.
Hypothesis Hd : ~ is_square d.
Local Notation q := (p ^ m)%Z.
Local Notation L := (Quad K d).
Let HL : fld_laws L := Quad_laws K HK d Hd.
Add Field LFlq : (fl_field L HL).
Lemma q_pos : (1 <= q)%Z. Proof. assert (0 < q)%Z by (apply Z.pow_pos_nonneg; lia). lia. Qed.
Lemma q_nat : Z.of_nat (Z.to_nat p ^ Z.to_nat m)%nat = q.
Proof. rewrite Nat2Z.inj_pow, !Z2Nat.id by lia. reflexivity. Qed.
Lemma frob : forall x : L, fpow x q = qconj K d x.
Proof.
  intros x. unfold fpow, zpow. replace (Z.to_nat q) with (Z.to_nat p ^ Z.to_nat m)%nat by (rewrite <- q_nat, Nat2Z.id; reflexivity).
  apply (frob_conj K HK (Z.to_nat p) (Z.to_nat m)); auto.
  - rewrite Z2Nat.id by lia. auto.
  - rewrite q_nat. auto.
  - lia.
Qed.
Lemma fpow_add : forall (x : L) a b, (0 <= a)%Z -> (0 <= b)%Z -> fpow x (a + b) = fmul (fpow x a) (fpow x b).
Proof. intros. apply (zpow_add (mul_monoid L) (mul_monoid_laws L HL)); auto. Qed.
Lemma fpow_mul : forall (x : L) a b, (0 <= a)%Z -> (0 <= b)%Z -> fpow x (a * b) = fpow (fpow x a) b.
Proof. intros. apply (zpow_mul (mul_monoid L) (mul_monoid_laws L HL)); auto. Qed.
Lemma frob_1 : forall x : L, x <> f0 -> fpow x (q - 1) = fmul (qconj K d x) (finv x).
Proof.
  intros x NZ. pose proof q_pos. assert (E : fpow x q = fmul (fpow x (q - 1)) x).
  { replace q with ((q - 1) + 1)%Z at 1 by lia. rewrite fpow_add by lia. f_equal. change (fmul x (f1 : L) = x). ring. }
  rewrite <- frob, E. field. auto.
Qed.
Lemma fermatK : forall x : K, x <> f0 -> fpow x (q - 1) = f1.
Proof.
  intros x NZ. destruct Hq as (l & ND & IN & LEN). pose proof (fermat K HK l ND IN x NZ) as F. unfold fpow, zpow. rewrite <- F. f_equal. lia.
Qed.
Lemma fermatL : forall x : L, x <> f0 -> fpow x (q * q - 1) = f1.
Proof.
  intros x NZ. destruct (Quad_order K d q Hq) as (l & ND & IN & LEN). pose proof (fermat L HL l ND IN x NZ) as F. unfold fpow, zpow. rewrite <- F. f_equal. lia.
Qed.
Theorem tateexp_correct : forall (x : L) j k, (fadd f1 f1 : K) <> f0 -> x <> f0 -> (0 < k)%Z -> Z.even k = true ->
  a_tateexp K d (Ok j) x k = Ok (fpow x ((q - 1) * k)).
Proof.
  intros x j k C2 NZ Hk E. pose proof q_pos. rewrite (tateexp_quot K HK d Hd C2 x j k NZ Hk E). rewrite fpow_mul by lia. rewrite frob_1 by auto. reflexivity.
Qed.
(** a factor in the subfield disappears *)
Lemma low_killed : forall (c : K) (x : L) k, c <> f0 -> (0 <= k)%Z -> fpow (fmul (low K d c) x) ((q - 1) * k) = fpow x ((q - 1) * k).
Proof.
  intros c x k NC Hk. pose proof q_pos. assert (E : fpow (low K d c) (q - 1) = f1).
  { assert (NZ : low K d c <> f0) by (intro F; injection F; auto). rewrite frob_1 by auto.
    assert (EC : qconj K d (low K d c) = low K d c) by (unfold qconj, low; cbn; f_equal; ring). rewrite EC. field. auto. }
  rewrite !fpow_mul by lia. f_equal.
  assert (B : fpow (fmul (low K d c) x) (q - 1) = fmul (fpow (low K d c) (q - 1)) (fpow x (q - 1))) by (apply (zpow_mul_base (mul_monoid L) (mul_monoid_laws L HL) (mul_monoid_comm L HL))).
  rewrite B, E. ring.
Qed.
End Q.
