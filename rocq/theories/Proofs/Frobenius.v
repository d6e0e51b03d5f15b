(** The Frobenius map of a finite field, and conjugation in a quadratic
    extension. *)
From Coq Require Import ZArith Znumtheory List Bool Lia Ring Field Permutation.
From Verif.Base Require Import Outcome Algebra Slots.
From Verif.Spec Require Import FiniteField Quadratic.
From Verif.Proofs Require Import PowFacts FieldFacts SlotFacts QuadFacts.

(** * Binomial coefficients *)
Fixpoint bin (n k : nat) : nat :=
  match n, k with
  | _, O => 1
  | O, S _ => 0
  | S m, S j => bin m j + bin m (S j)
  end%nat.
Lemma bin_0 : forall n, bin n 0 = 1%nat. Proof. destruct n; reflexivity. Qed.
Lemma bin_big : forall n k, (n < k)%nat -> bin n k = 0%nat.
Proof. induction n; destruct k; intros H; try lia; cbn [bin]; auto. rewrite !IHn by lia. reflexivity. Qed.
Lemma bin_n : forall n, bin n n = 1%nat.
Proof. induction n; cbn [bin]; auto. rewrite IHn, bin_big by lia. lia. Qed.
Lemma bin_absorb : forall n k, (S k * bin (S n) (S k) = S n * bin n k)%nat.
Proof.
  induction n; intros k.
  - destruct k; cbn [bin]; [lia | destruct k; cbn; lia].
  - change (bin (S (S n)) (S k)) with (bin (S n) k + bin (S n) (S k))%nat.
    rewrite Nat.mul_add_distr_l, IHn. destruct k as [ | k].
    + rewrite !bin_0. lia.
    + change (bin (S n) (S k)) with (bin n k + bin n (S k))%nat at 2.
      pose proof (IHn k) as H. change (bin (S n) (S k)) with (bin n k + bin n (S k))%nat in *. nia.
Qed.
Lemma bin_prime : forall p k, prime (Z.of_nat p) -> (0 < k < p)%nat -> (Z.of_nat p | Z.of_nat (bin p k))%Z.
Proof.
  intros p k P [H1 H2]. destruct k as [ | k]; [lia | ]. destruct p as [ | p]; [lia | ].
  pose proof (bin_absorb p k) as E. apply (f_equal Z.of_nat) in E. rewrite !Nat2Z.inj_mul in E.
  destruct (prime_mult (Z.of_nat (S p)) P (Z.of_nat (S k)) (Z.of_nat (bin (S p) (S k)))) as [D | D]; auto.
  - exists (Z.of_nat (bin p k)). lia.
  - apply Z.divide_pos_le in D; lia.
Qed.

Section S.
Variable K : fld.
Hypothesis HK : fld_laws K.
Add Field KFfb : (fl_field K HK).
Local Notation "0" := (@f0 K). Local Notation "1" := (@f1 K).
Local Notation "x + y" := (@fadd K x y). Local Notation "x - y" := (@fsub K x y). Local Notation "x * y" := (@fmul K x y). Local Notation "- x" := (@fopp K x).
Local Notation M := (mul_monoid K).
Definition pw (x : K) (n : nat) : K := npow (x : M) n.
Local Notation "x ^ n" := (pw x n).
Local Notation nat_K n := (@fofz K (Z.of_nat n)).
Lemma pow_S : forall (x : K) n, x ^ S n = x * x ^ n. Proof. reflexivity. Qed.
Fixpoint sum (n : nat) (f : nat -> K) : K := match n with O => 0 | S m => sum m f + f m end.
Lemma sum_ext : forall n f g, (forall i, (i < n)%nat -> f i = g i) -> sum n f = sum n g.
Proof. induction n; intros f g H; cbn [sum]; auto. rewrite (IHn f g), (H n) by auto. reflexivity. Qed.
Lemma sum_scale : forall n c f, c * sum n f = sum n (fun i => c * f i).
Proof. induction n; intros c f; cbn [sum]; [ring | ]. rewrite <- IHn. ring. Qed.
Lemma sum_add : forall n f g, sum n (fun i => f i + g i) = sum n f + sum n g.
Proof. induction n; intros f g; cbn [sum]; [ring | ]. rewrite IHn. ring. Qed.
Lemma sum_shift : forall n f, sum (S n) f = f 0%nat + sum n (fun i => f (S i)).
Proof. induction n; intros f; [cbn; ring | ]. change (sum (S (S n)) f) with (sum (S n) f + f (S n)). rewrite IHn. cbn [sum]. ring. Qed.
Lemma sum_zero : forall n f, (forall i, (i < n)%nat -> f i = 0) -> sum n f = 0.
Proof. induction n; intros f H; cbn [sum]; auto. rewrite IHn, (H n) by auto. ring. Qed.

Lemma binomial : forall n (x y : K), (x + y) ^ n = sum (S n) (fun k => nat_K (bin n k) * (x ^ k * y ^ (n - k)%nat)).
Proof.
  induction n; intros x y.
  - cbn. ring.
  - rewrite pow_S, IHn.
    set (S1 := sum (S n) (fun k => nat_K (bin n k) * (x ^ S k * y ^ (n - k)%nat))).
    set (S2 := sum (S n) (fun k => nat_K (bin n k) * (x ^ k * y ^ (S n - k)%nat))).
    transitivity (S1 + S2).
    { transitivity (x * sum (S n) (fun k => nat_K (bin n k) * (x ^ k * y ^ (n - k)%nat)) + y * sum (S n) (fun k => nat_K (bin n k) * (x ^ k * y ^ (n - k)%nat))); [ring | ].
      rewrite !sum_scale. unfold S1, S2. f_equal; apply sum_ext; intros i Hi; [rewrite pow_S; ring | ].
      replace (S n - i)%nat with (S (n - i)) by lia. rewrite pow_S. ring. }
    rewrite (sum_shift (S n)).
    transitivity (nat_K (bin (S n) 0) * (x ^ 0 * y ^ (S n - 0)%nat) +
      (sum (S n) (fun k => nat_K (bin n k) * (x ^ S k * y ^ (n - k)%nat)) + sum (S n) (fun k => nat_K (bin n (S k)) * (x ^ S k * y ^ (n - k)%nat)))).
    2:{ f_equal. rewrite <- sum_add. apply sum_ext. intros i Hi. cbn [bin Nat.sub]. rewrite Nat2Z.inj_add, (fofz_add K HK). ring. }
    unfold S1. assert (E : S2 = nat_K (bin (S n) 0) * (x ^ 0 * y ^ (S n - 0)%nat) + sum (S n) (fun k => nat_K (bin n (S k)) * (x ^ S k * y ^ (n - k)%nat))).
    { unfold S2. rewrite sum_shift. rewrite !bin_0. f_equal. cbn [sum]. rewrite (bin_big n (S n)) by lia.
      change (nat_K 0) with 0. transitivity (sum n (fun i => nat_K (bin n (S i)) * (x ^ S i * y ^ (S n - S i)%nat)) + 0); [ring | ]. f_equal. ring. }
    rewrite E. ring.
Qed.

Lemma frob_p : forall p (x y : K), prime (Z.of_nat p) -> nat_K p = 0 -> (x + y) ^ p = x ^ p + y ^ p.
Proof.
  intros p x y P H0. pose proof (prime_ge_2 _ P) as G. rewrite binomial. destruct p as [ | p]; [lia | ].
  rewrite sum_shift. change (sum (S p)) with (fun f => sum p f + f p). cbv beta. rewrite sum_zero.
  - rewrite bin_n, bin_0, Nat.sub_diag. change (nat_K 1) with 1. rewrite Nat.sub_0_r. change (x ^ 0) with 1. change (y ^ 0) with 1. ring.
  - intros i Hi. destruct (bin_prime (S p) (S i) P ltac:(lia)) as [c E]. rewrite E, (fofz_mul K HK), H0. ring.
Qed.
Lemma frob_pm : forall p m (x y : K), prime (Z.of_nat p) -> nat_K p = 0 -> (x + y) ^ (p ^ m)%nat = x ^ (p ^ m)%nat + y ^ (p ^ m)%nat.
Proof.
  intros p m x y P H0. revert x y. induction m; intros x y.
  - cbn. ring.
  - change (p ^ S m)%nat with (p * p ^ m)%nat. unfold pw. rewrite !(npow_mul M (mul_monoid_laws K HK)). pose proof (frob_p p x y P H0) as F. unfold pw in F. rewrite F. apply IHm.
Qed.

(** * The characteristic of a finite field *)
Section Fin.
Variable elems : list K.
Hypothesis HN : NoDup elems.
Hypothesis HE : forall x, In x elems.
Definition total (l : list K) : K := fold_right (@fadd K) 0 l.
Lemma total_perm : forall l l', Permutation l l' -> total l = total l'.
Proof. induction 1; cbn; [auto | f_equal; auto | ring | congruence]. Qed.
Lemma total_shift : forall l, total (map (fun x => x + 1) l) = total l + nat_K (length l).
Proof.
  induction l; cbn [map total fold_right length]; [change (nat_K 0) with 0; ring | ].
  fold (total (map (fun x => x + 1) l)). fold (total l). rewrite IHl. rewrite Nat2Z.inj_succ, (fofz_succ K HK). ring.
Qed.
Lemma char_order : nat_K (length elems) = 0.
Proof.
  assert (P : Permutation (map (fun x => x + 1) elems) elems).
  { apply NoDup_Permutation; auto.
    - apply FinFun.Injective_map_NoDup; auto. intros x y H. transitivity (x + 1 - 1); [ring | rewrite H; ring].
    - intros x. split; auto. intros _. apply in_map_iff. exists (x - 1). split; auto. ring. }
  pose proof (total_perm _ _ P) as T. rewrite total_shift in T.
  transitivity (total elems + nat_K (length elems) - total elems); [ring | rewrite T; ring].
Qed.
End Fin.
Lemma char_p : forall p m, nat_K (p ^ m)%nat = 0 -> nat_K p = 0.
Proof.
  intros p m. induction m; intros H.
  - exfalso. change (nat_K (p ^ 0)%nat) with 1 in H. apply (f_1_neq_0 K HK H).
  - change (p ^ S m)%nat with (p * p ^ m)%nat in H. rewrite Nat2Z.inj_mul, (fofz_mul K HK) in H.
    destruct (f_integral K HK _ _ H); auto.
Qed.
End S.

(** * Conjugation *)
Section C.
Variable K : fld.
Hypothesis HK : fld_laws K.
Add Field KFfc : (fl_field K HK).
Variables (p m : nat).
Hypothesis Pp : prime (Z.of_nat p).
Hypothesis Hq : has_order K (Z.of_nat (p ^ m)).
Hypothesis Odd : (p <> 2)%nat.
Variable d : K.
Hypothesis Hd : ~ is_square d.
Local Notation q := (p ^ m)%nat.
Local Notation L := (Quad K d).
Let HL : fld_laws L := Quad_laws K HK d Hd.
Definition qconj (x : L) : L := (fst x, fopp (snd x)).

Lemma odd_pow : (q = 2 * (q / 2) + 1)%nat.
Proof.
  assert (O : Nat.odd q = true).
  { assert (O1 : Nat.odd p = true).
    { destruct (Nat.odd p) eqn:E; auto. exfalso. rewrite <- Nat.negb_even in E. apply negb_false_iff in E. apply Nat.even_spec in E. destruct E as [c E].
      destruct (prime_divisors _ Pp 2) as [D | [D | [D | D]]]; try lia. exists (Z.of_nat c). lia. }
    clear -O1. induction m; [reflexivity | ]. change (p ^ S n)%nat with (p * p ^ n)%nat. rewrite Nat.odd_mul, O1, IHn. reflexivity. }
  pose proof (Nat.div_mod q 2 ltac:(lia)) as D. apply Nat.odd_spec in O. destruct O as [c O].
  assert (q mod 2 = 1)%nat by (rewrite O, Nat.add_comm, Nat.mul_comm, Nat.mod_add by lia; reflexivity). lia.
Qed.
Lemma frob_conj : forall x : L, npow (x : mul_monoid L) q = qconj x.
Proof.
  destruct Hq as (elems & HN & HE & HLn). apply Nat2Z.inj in HLn.
  assert (CK : @fofz K (Z.of_nat p) = f0).
  { apply (char_p K HK p m). rewrite <- HLn. apply (char_order K HK elems HN HE). }
  assert (CL : @fofz L (Z.of_nat p) = f0) by (pose proof (Quad_fofz K HK d Hd (Z.of_nat p)) as E; rewrite CK in E; exact E).
  assert (F : forall u : K, npow (u : mul_monoid K) q = u).
  { intros u. destruct (f_eq_dec K HK u f0) as [-> | N].
    - apply (npow_0_pos K HK). pose proof odd_pow. lia.
    - pose proof (fermat K HK elems HN HE u N) as E. rewrite HLn in E. pose proof odd_pow as O.
      replace q with (S (q - 1)) by lia. cbn [npow]. rewrite E. cbn. ring. }
  assert (I : forall (u : K) n, npow ((u, f0) : mul_monoid L) n = (npow (u : mul_monoid K) n, f0)).
  { intros u n. induction n; cbn [npow]; [reflexivity | ]. rewrite IHn. cbn. unfold qmul. cbn [fst snd]. f_equal; ring. }
  assert (NZ : d <> f0) by (intros ->; apply Hd; exists f0; ring).
  assert (W : npow (((f0, f1) : L) : mul_monoid L) q = ((f0, fopp f1) : L)).
  { rewrite odd_pow. set (h := (q / 2)%nat). rewrite (npow_add (mul_monoid L) (mul_monoid_laws L HL)), (npow_mul (mul_monoid L) (mul_monoid_laws L HL)).
    assert (E2 : npow (((f0, f1) : L) : mul_monoid L) 2 = ((d, f0) : L)) by (cbn; unfold qmul; cbn [fst snd]; f_equal; ring).
    rewrite E2, I. assert (E3 : npow (d : mul_monoid K) h = fopp f1).
    { unfold h. rewrite <- HLn. apply (nonsquare_power K HK elems HN HE); [rewrite HLn; apply odd_pow | auto | ]. intros y E. apply Hd. exists y. auto. }
    rewrite E3. cbn. unfold qmul. cbn [fst snd]. f_equal; ring. }
  intros [u v].
  assert (D : ((u, v) : L) = fadd ((u, f0) : L) (fmul ((v, f0) : L) ((f0, f1) : L))) by (cbn; unfold qmul; cbn [fst snd]; f_equal; ring).
  rewrite D at 1. pose proof (frob_pm L HL p m ((u, f0) : L) (fmul ((v, f0) : L) ((f0, f1) : L)) Pp CL) as FR. unfold pw in FR. rewrite FR.
  assert (X : npow (fmul ((v, f0) : L) ((f0, f1) : L) : mul_monoid L) q = fmul (npow (((v, f0) : L) : mul_monoid L) q : L) (npow (((f0, f1) : L) : mul_monoid L) q)).
  { apply (npow_mul_base L HL). }
  rewrite X, W, !I, !F. unfold qconj. cbn. unfold qmul. cbn [fst snd]. f_equal; ring.
Qed.
End C.
