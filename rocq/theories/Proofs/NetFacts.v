(** Elliptic nets of rank one and two attached to a point P of finite order
    and to a point Q outside its multiples: the recurrences that the
    Shipsey-Stange loop uses, and the link with Miller's functions. *)
From Coq Require Import ZArith List Bool Lia Ring Field.
From Verif.Base Require Import Outcome Algebra Slots.
From Verif.Spec Require Import Curve Tate.
From Verif.Proofs Require Import FieldFacts SlotFacts CurveGroup CurveFacts LineAlgebra TateFacts.

Section S.
Variable K : fld.
Hypothesis HK : fld_laws K.
Add Field KFnet : (fl_field K HK).
Local Notation "0" := f0. Local Notation "1" := f1.
Local Notation "x + y" := (fadd x y). Local Notation "x - y" := (fsub x y). Local Notation "x * y" := (fmul x y). Local Notation "- x" := (fopp x).
Local Notation "x / y" := (fdiv x y).
Variables (a b : K).
Local Notation on := (on_curve K a b).
Local Notation add := (padd K a).
Hypothesis HE : elliptic K a b.
Let C2 : f2 K <> 0 := proj1 HE.
Let SM := proj2 HE.
Lemma div_nz : forall x y : K, x <> 0 -> y <> 0 -> x / y <> 0.
Proof. intros x y Hx Hy F. apply Hx. transitivity (x / y * y); [field; auto | rewrite F; ring]. Qed.
Lemma div_0 : forall x y : K, x = 0 -> y <> 0 -> x / y = 0.
Proof. intros x y -> Hy. field. auto. Qed.
Definition xc (P : point K) : K := match P with Some (x, _) => x | None => 0 end.

(** ** Sums with P and -P *)
Section Chord.
Variables x1 y1 : K.
Hypothesis H1 : on (Some (x1, y1)).
Local Notation P := (Some (x1, y1)).
Lemma neg_on : on (Some (x1, - y1)).
Proof. cbn [on_curve] in *. rewrite <- H1. ring. Qed.
Lemma chord_x : forall x y, x <> x1 -> (x - x1) * (x - x1) * xc (add (Some (x, y)) P) = (y - y1) * (y - y1) - (x + x1) * ((x - x1) * (x - x1)).
Proof.
  intros x y N. cbn [padd]. rewrite (feqb_false K HK _ _ N). cbn [negb]. unfold third. cbn [xc].
  assert (D : x1 - x <> 0) by (intro F; apply N; symmetry; apply (f_sub_0 K HK); auto). field. auto.
Qed.
Lemma chord_x' : forall x y, x <> x1 -> (x - x1) * (x - x1) * xc (add (Some (x, y)) (Some (x1, - y1))) = (y + y1) * (y + y1) - (x + x1) * ((x - x1) * (x - x1)).
Proof.
  intros x y N. cbn [padd]. rewrite (feqb_false K HK _ _ N). cbn [negb]. unfold third. cbn [xc].
  assert (D : x1 - x <> 0) by (intro F; apply N; symmetry; apply (f_sub_0 K HK); auto). field. auto.
Qed.
Lemma off_x1 : forall x y, on (Some (x, y)) -> add (Some (x, y)) P <> None -> add (Some (x, y)) (Some (x1, - y1)) <> None -> x <> x1.
Proof.
  intros x y H N1 N2 ->. destruct (same_x K HK a b x1 y y1 H H1) as [-> | ->].
  - apply N2. change (add P (pneg P) = None). apply (add_neg_r K HK a C2).
  - apply N1. replace (Some (x1, - y1)) with (pneg (K := K) P) by reflexivity. rewrite (add_comm K HK a). apply (add_neg_r K HK a C2).
Qed.
Definition quart (x xn : K) : K :=
  (x1 - x) * (x1 - x) * ((x1 + x + xn) * (x1 + x + xn)) - f2 K * (x1 + x + xn) * (rhs K a b x + rhs K a b x1) + (x * x + x * x1 + x1 * x1 + a) * (x * x + x * x1 + x1 * x1 + a).
Lemma quart_eq : forall x y z, x <> x1 -> on (Some (x, y)) ->
  (x1 - x) * (x1 - x) * ((z - xc (add (Some (x, y)) P)) * (z - xc (add (Some (x, y)) (Some (x1, - y1))))) = quart x z.
Proof.
  intros x y z N H. pose proof (chord_x x y N) as U. pose proof (chord_x' x y N) as V.
  set (X := xc (add (Some (x, y)) P)) in *. set (X' := xc (add (Some (x, y)) (Some (x1, - y1)))) in *. clearbody X X'.
  assert (D : (x - x1) * (x - x1) <> 0).
  { assert (x - x1 <> 0) by (intro F; apply N; apply (f_sub_0 K HK); auto). apply (f_mul_nz K HK); auto. }
  cbn [on_curve] in H, H1.
  assert (W : (x - x1) * (x - x1) * ((x1 - x) * (x1 - x) * ((z - X) * (z - X'))) = (x - x1) * (x - x1) * quart x z).
  { transitivity (((x - x1) * (x - x1) * z - (x - x1) * (x - x1) * X) * ((x - x1) * (x - x1) * z - (x - x1) * (x - x1) * X')); [ring | ].
    rewrite U, V. unfold quart. set (D2 := (x - x1) * (x - x1)). set (s := x1 + x + z).
    transitivity (D2 * s * (D2 * s) - f2 K * (D2 * s) * (y * y + y1 * y1) + (y * y - y1 * y1) * (y * y - y1 * y1)).
    { unfold s, f2. ring. }
    rewrite H, H1. unfold rhs, D2, s. ring. }
  revert W. apply (f_cancel K HK). auto.
Qed.
(** the symmetric form of the addition law behind the net *)
Lemma swap_law : forall x y xn yn, on (Some (x, y)) -> on (Some (xn, yn)) -> x <> x1 -> xn <> x1 ->
  (x1 - x) * (x1 - x) * ((xn - xc (add (Some (x, y)) P)) * (xn - xc (add (Some (x, y)) (Some (x1, - y1))))) =
  (x1 - xn) * (x1 - xn) * ((x - xc (add (Some (xn, yn)) P)) * (x - xc (add (Some (xn, yn)) (Some (x1, - y1))))).
Proof. intros x y xn yn H Hn N Nn. rewrite !quart_eq by auto. unfold quart, rhs, f2. ring. Qed.
Lemma double_x : y1 <> 0 -> f2 K * y1 * (f2 K * y1) * xc (add P P) = (f3 K * (x1 * x1) + a) * (f3 K * (x1 * x1) + a) - f2 K * x1 * (f2 K * y1 * (f2 K * y1)).
Proof.
  intros Y. cbn [padd]. rewrite !(feqb_refl K HK). rewrite (feqb_false K HK _ _ Y). cbn [negb andb]. unfold third. cbn [xc].
  set (t := f2 K) in *. assert (T : t = 1 + 1) by reflexivity. transitivity ((f3 K * (x1 * x1) + a) * (f3 K * (x1 * x1) + a) - t * y1 * (t * y1) * (x1 + x1)).
  - field. split; auto. - rewrite T. ring.
Qed.
Lemma double_law : forall x y, on (Some (x, y)) -> x <> x1 -> y1 <> 0 ->
  (x1 - x) * (x1 - x) * ((x1 - xc (add (Some (x, y)) P)) * (x1 - xc (add (Some (x, y)) (Some (x1, - y1))))) = f2 K * y1 * (f2 K * y1) * (xc (add P P) - x).
Proof.
  intros x y H N Y. rewrite quart_eq by auto. transitivity (f2 K * y1 * (f2 K * y1) * xc (add P P) - f2 K * y1 * (f2 K * y1) * x); [ | ring].
  rewrite double_x by auto. cbn [on_curve] in H1. transitivity ((f3 K * (x1 * x1) + a) * (f3 K * (x1 * x1) + a) - f2 K * f2 K * (f2 K * x1 + x) * (y1 * y1)); [ | ring].
  rewrite H1. unfold quart, rhs, f2, f3. ring.
Qed.
End Chord.

(** ** The net of P *)
Section Net.
Variables x1 y1 : K.
Local Notation P := (Some (x1, y1)).
Hypothesis OP : on P.
Variable r : nat.
Hypothesis R5 : (5 <= r)%nat.
Hypothesis ORD : forall j, (0 < j < r)%nat -> pmul K a j P <> None.
Hypothesis TOR : pmul K a r P = None.

Local Notation T j := (pmul K a j P).
Definition xm (j : nat) : K := xc (T j).
Lemma T_on : forall j, on (T j). Proof. intros. apply (pmul_on K HK a b C2). auto. Qed.
Lemma T_S : forall j, T (Datatypes.S j) = add (T j) P. Proof. intros. cbn [pmul]. apply (add_comm K HK a). Qed.
Lemma add_neg_cancel : forall M, on M -> add (add M P) (pneg P) = M.
Proof.
  intros M HM. rewrite (add_assoc K HK a b C2 SM) by (auto; apply (neg_on x1 y1); auto). rewrite (add_neg_r K HK a C2).
  destruct M as [[x y] | ]; reflexivity.
Qed.
Lemma T_P : forall j, T j = add (T (Datatypes.S j)) (Some (x1, - y1)).
Proof. intros. rewrite T_S. symmetry. apply (add_neg_cancel (T j) (T_on j)). Qed.
Lemma y1_nz : y1 <> 0.
Proof.
  intros E. apply (ORD 2); [lia | ]. cbn [pmul]. cbn [padd]. rewrite !(feqb_refl K HK), E, (feqb_refl K HK). reflexivity.
Qed.
Lemma yy_nz : f2 K * y1 <> 0. Proof. apply (f_mul_nz K HK); auto. apply y1_nz. Qed.
Lemma T_1 : T 1 = P. Proof. reflexivity. Qed.
Lemma T_fin : forall j, (0 < j < r)%nat -> exists x y, T j = Some (x, y) /\ on (Some (x, y)) /\ xm j = x.
Proof.
  intros j H. pose proof (ORD j H) as N. pose proof (T_on j) as O. unfold xm. destruct (T j) as [[x y] | ]; [ | congruence]. exists x, y. auto.
Qed.
Lemma xm_off : forall j, (1 < j < r - 1)%nat -> xm j <> x1.
Proof.
  intros j H. destruct (T_fin j ltac:(lia)) as (x & y & E & O & ->). apply (off_x1 x1 y1 OP x y O).
  - rewrite <- E, <- T_S. apply ORD. lia.
  - rewrite <- E. destruct j; [lia | ]. rewrite <- T_P. apply ORD. lia.
Qed.

(** A_n, in pairs (A_n, A_{n+1}) from n = 1 *)
Fixpoint apair (n : nat) : K * K :=
  match n with
  | O => (1, f2 K * y1)
  | Datatypes.S n' => let '(u, v) := apair n' in (v, v * v * (x1 - xm (n' + 2)) / u)
  end.
Definition an (n : nat) : K := match n with O => 0 | Datatypes.S m => fst (apair m) end.
Lemma an_0 : an 0 = 0. Proof. reflexivity. Qed.
Lemma an_1 : an 1 = 1. Proof. reflexivity. Qed.
Lemma an_2 : an 2 = f2 K * y1. Proof. reflexivity. Qed.
Lemma apair_snd : forall n, snd (apair n) = an (n + 2).
Proof. intros n. replace (n + 2)%nat with (Datatypes.S (Datatypes.S n)) by lia. cbn [an apair]. destruct (apair n). reflexivity. Qed.
Lemma an_step : forall n, (2 <= n)%nat -> an (n + 1) = an n * an n * (x1 - xm n) / an (n - 1).
Proof.
  intros n H. destruct n as [ | [ | n]]; [lia | lia | ]. replace (Datatypes.S (Datatypes.S n) - 1)%nat with (Datatypes.S n) by lia.
  replace (Datatypes.S (Datatypes.S n) + 1)%nat with (Datatypes.S (n + 2)) by lia. replace (Datatypes.S (Datatypes.S n)) with (n + 2)%nat by lia.
  rewrite <- apair_snd. cbn [an]. replace (n + 2)%nat with (Datatypes.S (Datatypes.S n)) at 1 by lia. cbn [apair].
  destruct (apair n) as [u v] eqn:E. cbn [fst snd]. replace (Datatypes.S n + 1)%nat with (n + 2)%nat by lia. reflexivity.
Qed.
Lemma an_nz : forall n, (0 < n < r)%nat -> an n <> 0.
Proof.
  assert (G : forall n, (n + 2 < r)%nat -> an (n + 1) <> 0 /\ an (n + 2) <> 0).
  { induction n as [ | n IH]; intros H.
    - change (an (0 + 1)) with (1 : K). change (an (0 + 2)) with (f2 K * y1). split; [apply (f_1_neq_0 K HK) | apply yy_nz].
    - destruct IH as [I1 I2]; [lia | ]. replace (Datatypes.S n + 1)%nat with (n + 2)%nat by lia. split; auto.
      replace (Datatypes.S n + 2)%nat with ((n + 2) + 1)%nat by lia. rewrite an_step by lia. replace (n + 2 - 1)%nat with (n + 1)%nat by lia.
      assert (x1 - xm (n + 2) <> 0) by (intro F; apply (xm_off (n + 2)); [lia | symmetry; apply (f_sub_0 K HK); auto]).
      apply div_nz; auto. apply (f_mul_nz K HK); auto. apply (f_mul_nz K HK); auto. }
  intros n H. destruct n as [ | n]; [lia | ]. destruct n as [ | n]; [apply (f_1_neq_0 K HK) | ].
  replace (Datatypes.S (Datatypes.S n)) with (n + 2)%nat by lia. apply G. lia.
Qed.
Lemma an_rec : forall n, (2 <= n < r)%nat -> an (n + 1) * an (n - 1) = an n * an n * (x1 - xm n).
Proof. intros n H. rewrite an_step by lia. assert (N : an (n - 1) <> 0) by (apply an_nz; lia). field. auto. Qed.
Lemma xm_last : xm (r - 1) = x1.
Proof.
  destruct (T_fin (r - 1) ltac:(lia)) as (x & y & E & O & ->). pose proof (T_S (r - 1)) as Q. replace (Datatypes.S (r - 1)) with r in Q by lia.
  rewrite TOR, E in Q. symmetry in Q. destruct (infinite_sum K HK a b _ _ _ _ O OP Q) as [-> _]. reflexivity.
Qed.
Lemma an_last : an r = 0.
Proof.
  replace r with (r - 1 + 1)%nat by lia. rewrite an_step by lia. rewrite xm_last. apply div_0; [ring | apply an_nz; lia].
Qed.

(** ** A sequence attached to a progression of points *)
Section Seq.
Variable U : Z -> K.
Variable S : Z -> point K.
Variables lo hi : Z.
Hypothesis S_on : forall j, on (S j).
Hypothesis S_step : forall j, (lo <= j)%Z -> S (j + 1)%Z = add (S j) P.
Hypothesis S_fin : forall j, (lo < j < hi)%Z -> S j <> None.
Hypothesis U_nz : forall j, (lo <= j < hi)%Z -> U j <> 0.
Hypothesis U_rec : forall j, (lo < j < hi)%Z -> U (j + 1)%Z * U (j - 1)%Z = U j * U j * (x1 - xc (S j)).
Lemma S_back : forall j, (lo < j)%Z -> S (j - 1)%Z = add (S j) (Some (x1, - y1)).
Proof. intros. replace j with ((j - 1) + 1)%Z at 2 by lia. rewrite S_step by lia. symmetry. apply (add_neg_cancel _ (S_on _)). Qed.
Lemma S_off : forall j, (lo < j - 1)%Z -> (j + 1 < hi)%Z -> exists x y, S j = Some (x, y) /\ on (Some (x, y)) /\ x <> x1.
Proof.
  intros j H1 H2. pose proof (S_fin j ltac:(lia)) as N. pose proof (S_on j) as O. destruct (S j) as [[x y] | ] eqn:E; [ | congruence].
  exists x, y. split; auto. split; auto. apply (off_x1 x1 y1 OP x y O).
  - rewrite <- E, <- S_step by lia. apply S_fin. lia.
  - rewrite <- E, <- S_back by lia. apply S_fin. lia.
Qed.
Lemma U_two : forall n, (lo + 2 <= n)%Z -> (n + 2 <= hi)%Z -> U (n + 2)%Z * U (n - 2)%Z = U n * U n * (an 2 * an 2) * (xm 2 - xc (S n)).
Proof.
  intros n H1 H2. destruct (S_off n ltac:(lia) ltac:(lia)) as (x & y & E & O & N).
  pose proof (U_rec n ltac:(lia)) as R0. pose proof (U_rec (n + 1)%Z ltac:(lia)) as R1. pose proof (U_rec (n - 1)%Z ltac:(lia)) as R2.
  replace (n + 1 + 1)%Z with (n + 2)%Z in R1 by lia. replace (n + 1 - 1)%Z with n in R1 by lia.
  replace (n - 1 + 1)%Z with n in R2 by lia. replace (n - 1 - 1)%Z with (n - 2)%Z in R2 by lia.
  rewrite S_step, E in R1 by lia. rewrite S_back, E in R2 by lia. rewrite E in R0 |- *. cbn [xc] in R0. cbn [xc].
  pose proof (double_law x1 y1 OP x y O N y1_nz) as D.
  change (xm 2) with (xc (add P P)). rewrite an_2.
  set (X := xc (add (Some (x, y)) P)) in *. set (X' := xc (add (Some (x, y)) (Some (x1, - y1)))) in *. set (X2 := xc (add P P)) in *. clearbody X X' X2.
  assert (UN : U n <> 0) by (apply U_nz; lia).
  apply (f_cancel K HK (U n * U n)); [apply (f_mul_nz K HK); auto | ].
  transitivity ((U (n + 2)%Z * U n) * (U n * U (n - 2)%Z)); [ring | ]. rewrite R1, R2.
  transitivity ((U (n + 1)%Z * U (n - 1)%Z) * (U (n + 1)%Z * U (n - 1)%Z) * ((x1 - X) * (x1 - X'))); [ring | ]. rewrite R0.
  transitivity (U n * U n * (U n * U n) * ((x1 - x) * (x1 - x) * ((x1 - X) * (x1 - X')))); [ring | ]. rewrite D. ring.
Qed.
Lemma U_net : forall m n, (1 <= m < r)%nat -> (lo + Z.of_nat m <= n)%Z -> (n + Z.of_nat m <= hi)%Z ->
  U (n + Z.of_nat m)%Z * U (n - Z.of_nat m)%Z = U n * U n * (an m * an m) * (xm m - xc (S n)).
Proof.
  assert (BASE : forall n, (lo + 1 <= n)%Z -> (n + 1 <= hi)%Z -> U (n + Z.of_nat 1)%Z * U (n - Z.of_nat 1)%Z = U n * U n * (an 1 * an 1) * (xm 1 - xc (S n))).
  { intros n H1 H2. change (Z.of_nat 1) with 1%Z. rewrite U_rec by lia. rewrite an_1. change (xm 1) with x1. ring. }
  induction m as [m IH] using lt_wf_ind. intros n Hm H1 H2.
  destruct m as [ | [ | [ | m]]]; [lia | apply BASE; lia | apply U_two; lia | ].
  set (k := Datatypes.S (Datatypes.S m)) in *. destruct (S_off n ltac:(lia) ltac:(lia)) as (x & y & E & O & N).
  pose proof (U_rec n ltac:(lia)) as R0.
  pose proof (IH k ltac:(lia) (n + 1)%Z ltac:(lia) ltac:(lia) ltac:(lia)) as R1.
  pose proof (IH k ltac:(lia) (n - 1)%Z ltac:(lia) ltac:(lia) ltac:(lia)) as R2.
  pose proof (IH (k - 1)%nat ltac:(lia) n ltac:(lia) ltac:(lia) ltac:(lia)) as R3.
  replace (n + 1 + Z.of_nat k)%Z with (n + Z.of_nat (Datatypes.S k))%Z in R1 by lia. replace (n - 1 - Z.of_nat k)%Z with (n - Z.of_nat (Datatypes.S k))%Z in R2 by lia.
  replace (n + 1 - Z.of_nat k)%Z with (n - Z.of_nat (k - 1))%Z in R1 by lia. replace (n - 1 + Z.of_nat k)%Z with (n + Z.of_nat (k - 1))%Z in R2 by lia.
  destruct (T_fin k ltac:(lia)) as (xn & yn & En & On & Exn). pose proof (xm_off k ltac:(lia)) as Nn. rewrite Exn in Nn.
  pose proof (swap_law x1 y1 OP x y xn yn O On N Nn) as SW.
  pose proof (an_rec k ltac:(lia)) as RA. rewrite Exn in RA, R1, R2.
  assert (EP : xm (Datatypes.S k) = xc (add (Some (xn, yn)) P)) by (unfold xm; rewrite T_S, En; reflexivity).
  assert (EM : xm (k - 1) = xc (add (Some (xn, yn)) (Some (x1, - y1)))).
  { unfold xm. rewrite (T_P (k - 1)). replace (Datatypes.S (k - 1)) with k by lia. rewrite En. reflexivity. }
  rewrite <- EP, <- EM in SW. rewrite S_step, E in R1 by lia. rewrite S_back, E in R2 by lia. rewrite E in R0, R3 |- *. cbn [xc] in R0, R3. cbn [xc].
  replace (k + 1)%nat with (Datatypes.S k) in RA by lia.
  set (X := xc (add (Some (x, y)) P)) in *. set (X' := xc (add (Some (x, y)) (Some (x1, - y1)))) in *. clearbody X X'.
  set (xp := xm (Datatypes.S k)) in *. set (xl := xm (k - 1)) in *. clearbody xp xl.
  set (u := U (n + Z.of_nat (Datatypes.S k))%Z) in *. set (v := U (n - Z.of_nat (Datatypes.S k))%Z) in *.
  assert (NZ1 : U (n + Z.of_nat (k - 1))%Z <> 0) by (apply U_nz; lia). assert (NZ2 : U (n - Z.of_nat (k - 1))%Z <> 0) by (apply U_nz; lia).
  set (w := U (n + Z.of_nat (k - 1))%Z) in *. set (z := U (n - Z.of_nat (k - 1))%Z) in *.
  set (ap := an (Datatypes.S k)) in *. set (ak := an k) in *. set (al := an (k - 1)) in *. set (un := U n) in *.
  set (up := U (n + 1)%Z) in *. set (ul := U (n - 1)%Z) in *. clearbody u v w z ap ak al un up ul.
  apply (f_cancel K HK (w * z)); [apply (f_mul_nz K HK); auto | ].
  transitivity (un * un * (ap * ap) * (xp - x) * (un * un * (al * al) * (xl - x))); [ | rewrite <- R3; ring].
  transitivity ((u * z) * (w * v)); [ring | ]. rewrite R1, R2.
  transitivity ((up * ul) * (up * ul) * (ak * ak * (ak * ak)) * ((xn - X) * (xn - X'))); [ring | ]. rewrite R0.
  transitivity (un * un * (un * un) * (ak * ak * (ak * ak)) * ((x1 - x) * (x1 - x) * ((xn - X) * (xn - X')))); [ring | ]. rewrite SW.
  transitivity (un * un * (un * un) * ((ak * ak * (x1 - xn)) * (ak * ak * (x1 - xn))) * ((xp - x) * (xl - x))); [ring | ]. rewrite <- RA. ring.
Qed.
End Seq.

(** ** The first relation: division polynomials at P *)
Definition az (z : Z) : K := if (z <? 0)%Z then - an (Z.to_nat (- z)) else an (Z.to_nat z).
Lemma az_nat : forall n, az (Z.of_nat n) = an n.
Proof. intros n. unfold az. destruct (Z.ltb_spec (Z.of_nat n) 0); [lia | ]. rewrite Nat2Z.id. reflexivity. Qed.
Lemma az_neg : forall z, az (- z) = - az z.
Proof.
  intros z. unfold az. destruct (Z.ltb_spec (- z) 0), (Z.ltb_spec z 0); try lia.
  - f_equal. f_equal. lia.
  - ring.
  - replace z with 0%Z by lia. change (an (Z.to_nat (- 0))) with (0 : K). change (an (Z.to_nat 0)) with (0 : K). ring.
Qed.
Lemma az_0 : az 0 = 0. Proof. reflexivity. Qed.
Lemma az_1 : az 1 = 1. Proof. reflexivity. Qed.
Lemma az_2 : az 2 = f2 K * y1. Proof. reflexivity. Qed.
Lemma az_m1 : az (-1) = - (1). Proof. reflexivity. Qed.
Local Notation Zr := (Z.of_nat r).
Definition xz (z : Z) : K := xm (Z.to_nat z).
Lemma az_rec : forall n, (1 <= n < Zr)%Z -> az (n + 1) * az (n - 1) = az n * az n * (x1 - xz n).
Proof.
  intros n H. destruct (Z.eq_dec n 1) as [-> | N].
  - change (1 - 1)%Z with 0%Z. rewrite az_0. change (xz 1) with x1. ring.
  - pose proof (an_rec (Z.to_nat n) ltac:(lia)) as R. rewrite <- !az_nat in R. replace (Z.of_nat (Z.to_nat n + 1)) with (n + 1)%Z in R by lia.
    replace (Z.of_nat (Z.to_nat n - 1)) with (n - 1)%Z in R by lia. rewrite Z2Nat.id in R by lia. exact R.
Qed.
Lemma az_nz : forall n, (0 < n < Zr)%Z -> az n <> 0.
Proof. intros n H. replace n with (Z.of_nat (Z.to_nat n)) by lia. rewrite az_nat. apply an_nz. lia. Qed.
Definition net_eq (n m : Z) : Prop :=
  az (n + m) * az (n - m) = az (n + 1) * az (n - 1) * (az m * az m) - az n * az n * (az (m + 1) * az (m - 1)).
Lemma az_net_core : forall n m, (0 <= m <= n)%Z -> (n + m <= Zr)%Z -> net_eq n m.
Proof.
  intros n m H1 H2. unfold net_eq. destruct (Z.eq_dec m 0) as [-> | N0].
  { rewrite Z.add_0_r, Z.sub_0_r, az_0. change (0 + 1)%Z with 1%Z. change (0 - 1)%Z with (-1)%Z. rewrite az_1, az_m1. ring. }
  destruct (Z.eq_dec m n) as [-> | N1].
  { rewrite Z.sub_diag, az_0. ring. }
  pose proof (U_net az (fun j => T (Z.to_nat j)) 1 Zr) as G.
  rewrite (az_rec n) by lia. rewrite (az_rec m) by lia.
  pose proof (G (fun j => T_on _)) as G1. clear G.
  assert (G2 : az (n + Z.of_nat (Z.to_nat m)) * az (n - Z.of_nat (Z.to_nat m)) = az n * az n * (an (Z.to_nat m) * an (Z.to_nat m)) * (xm (Z.to_nat m) - xc (T (Z.to_nat n)))).
  { apply G1; try lia.
    - intros j Hj. replace (Z.to_nat (j + 1)) with (Datatypes.S (Z.to_nat j)) by lia. apply T_S.
    - intros j Hj. apply ORD. lia.
    - intros j Hj. apply az_nz. lia.
    - intros j Hj. apply az_rec. lia. }
  rewrite <- (az_nat (Z.to_nat m)), Z2Nat.id in G2 by lia. rewrite G2. unfold xz, xm. ring.
Qed.
Lemma az_net : forall n m, (Z.abs n + Z.abs m <= Zr)%Z -> net_eq n m.
Proof.
  assert (SW : forall n m, net_eq n m -> net_eq m n).
  { intros n m H. unfold net_eq in *. replace (m - n)%Z with (- (n - m))%Z by lia. replace (m + n)%Z with (n + m)%Z by lia. rewrite az_neg.
    transitivity (- (az (n + m) * az (n - m))); [ring | ]. rewrite H. ring. }
  assert (NG : forall n m, net_eq n m -> net_eq n (- m)).
  { intros n m H. unfold net_eq in *. replace (n + - m)%Z with (n - m)%Z by lia. replace (n - - m)%Z with (n + m)%Z by lia.
    replace (- m + 1)%Z with (- (m - 1))%Z by lia. replace (- m - 1)%Z with (- (m + 1))%Z by lia. rewrite !az_neg.
    transitivity (az (n + m) * az (n - m)); [ring | ]. rewrite H. ring. }
  assert (POS : forall n m, (0 <= n)%Z -> (0 <= m)%Z -> (n + m <= Zr)%Z -> net_eq n m).
  { intros n m Hn Hm H. destruct (Z_le_gt_dec m n); [apply az_net_core; lia | apply SW; apply az_net_core; lia]. }
  intros n m H. destruct (Z_le_gt_dec 0 n), (Z_le_gt_dec 0 m).
  - apply POS; lia.
  - replace m with (- (- m))%Z by lia. apply NG. apply POS; lia.
  - apply SW. replace n with (- (- n))%Z by lia. apply NG. apply POS; lia.
  - replace m with (- (- m))%Z by lia. apply NG. apply SW. replace n with (- (- n))%Z by lia. apply NG. apply POS; lia.
Qed.
(** the first values *)
Lemma az_3 : az 3 = f3 K * (x1 * x1 * (x1 * x1)) + f2 K * f3 K * a * (x1 * x1) + f2 K * f2 K * f3 K * b * x1 - a * a.
Proof.
  pose proof (az_rec 2 ltac:(lia)) as R. change (2 + 1)%Z with 3%Z in R. change (2 - 1)%Z with 1%Z in R. rewrite az_1, az_2 in R.
  transitivity (az 3 * 1); [ring | ]. rewrite R. change (xz 2) with (xc (add P P)).
  transitivity (f2 K * y1 * (f2 K * y1) * x1 - f2 K * y1 * (f2 K * y1) * xc (add P P)); [ring | ]. rewrite (double_x x1 y1 y1_nz).
  transitivity (f2 K * f2 K * f3 K * x1 * (y1 * y1) - (f3 K * (x1 * x1) + a) * (f3 K * (x1 * x1) + a)); [unfold f2, f3; ring | ].
  cbn [on_curve] in OP. rewrite OP. unfold rhs, f2, f3. ring.
Qed.
Lemma az_4' : az 4 = f2 K * f2 K * y1 * ((f3 K * (x1 * x1) + a) * az 3 - f2 K * f2 K * f2 K * (y1 * y1 * (y1 * y1))).
Proof.
  pose proof (az_rec 2 ltac:(lia)) as R2. change (2 + 1)%Z with 3%Z in R2. change (2 - 1)%Z with 1%Z in R2. rewrite az_1, az_2 in R2.
  pose proof (az_rec 3 ltac:(lia)) as R. change (3 + 1)%Z with 4%Z in R. change (3 - 1)%Z with 2%Z in R. rewrite az_2 in R.
  apply (f_cancel K HK (f2 K * y1)); [apply yy_nz | ]. transitivity (az 4 * (f2 K * y1)); [ring | ]. rewrite R.
  destruct (T_fin 2 ltac:(lia)) as (x2 & y2 & E2 & O2 & X2).
  pose proof (xm_off 2 ltac:(lia)) as OFF. rewrite X2 in OFF.
  assert (X3 : xz 3 = xc (add (Some (x2, y2)) P)) by (unfold xz, xm; change (Z.to_nat 3) with 3%nat; rewrite T_S, E2; reflexivity).
  change (xz 2) with (xm 2) in R2. rewrite X2 in R2. rewrite X3. pose proof (chord_x x1 y1 x2 y2 OFF) as CH. set (X := xc (add (Some (x2, y2)) P)) in *. clearbody X.
  assert (D : add P P = Some (x2, y2)) by (rewrite <- E2; reflexivity).
  pose proof (line_ex K HK a b HE _ _ _ _ _ _ OP OP D) as LN. set (l := slope K a x1 y1 x1 y1) in LN. 
  pose proof (line_deriv K HK a b _ _ _ _ _ _ _ _ LN) as LD. destruct LN as [A1 A2 A3 E1' E2' E3']. set (nn := y1 - l * x1) in *.
  set (z3 := az 3) in *. clearbody z3. clearbody l nn.
  assert (R2' : z3 = f2 K * y1 * (f2 K * y1) * (x1 - x2)) by (rewrite <- R2; ring). rewrite R2'.
  assert (Y2 : y2 = - y1 + l * (x1 - x2)) by (transitivity (- (- y2)); [ring | rewrite A3, A1; ring]).
  assert (L2 : f3 K * (x1 * x1) + a = f2 K * (l * y1)).
  { apply (f_sub_0 K HK). transitivity ((x1 - x1) * (x1 - x2)); [rewrite <- LD; unfold cubic', f2, f3; ring | ring]. }
  rewrite L2. transitivity (f2 K * f2 K * (f2 K * f2 K) * (y1 * y1 * (y1 * y1)) * ((x2 - x1) * (x2 - x1) * x1 - (x2 - x1) * (x2 - x1) * X)); [ring | ].
  rewrite CH, Y2. transitivity (f2 K * f2 K * (f2 K * f2 K) * (y1 * y1 * (y1 * y1)) * ((x1 + x1 + x2) * ((x1 - x2) * (x1 - x2)) - (- y1 + l * (x1 - x2) - y1) * (- y1 + l * (x1 - x2) - y1))); [ring | ].
  rewrite <- E1'. unfold f2. ring.
Qed.
Lemma az_4 : az 4 = f2 K * f2 K * y1 * (x1 * x1 * x1 * (x1 * x1 * x1) + (f2 K + f3 K) * a * (x1 * x1 * (x1 * x1)) + f2 K * f2 K * (f2 K + f3 K) * b * (x1 * x1 * x1)
    - (f2 K + f3 K) * (a * a) * (x1 * x1) - f2 K * f2 K * a * b * x1 - f2 K * f2 K * f2 K * (b * b) - a * a * a).
Proof. rewrite az_4', az_3. f_equal. cbn [on_curve] in OP. rewrite OP. unfold rhs, f2, f3. ring. Qed.
Lemma az_5 : az 5 = az 2 * az 2 * az 2 * az 4 - az 3 * az 3 * az 3.
Proof.
  pose proof (az_net 3 2 ltac:(lia)) as R. unfold net_eq in R. change (3 + 2)%Z with 5%Z in R. change (3 - 2)%Z with 1%Z in R. change (3 + 1)%Z with 4%Z in R.
  change (3 - 1)%Z with 2%Z in R. change (2 + 1)%Z with 3%Z in R. change (2 - 1)%Z with 1%Z in R. rewrite az_1 in R.
  transitivity (az 5 * 1); [ring | ]. rewrite R. ring.
Qed.

(** ** The net of P and Q *)
Section Q.
Variables xq yq : K.
Local Notation Q := (Some (xq, yq)).
Hypothesis OQ : on Q.
Hypothesis QN : forall j, T j <> Q.
Lemma T_plus : forall m n, T (m + n)%nat = add (T m) (T n).
Proof.
  intros m n. induction m as [ | m IH].
  - reflexivity.
  - change (Datatypes.S m + n)%nat with (Datatypes.S (m + n)). cbn [pmul]. rewrite IH. symmetry. apply (add_assoc K HK a b C2 SM); auto using T_on.
Qed.
Lemma T_cycle : forall j, T (j * r)%nat = None.
Proof. induction j as [ | j IH]; [reflexivity | ]. cbn [Nat.mul]. rewrite T_plus, TOR, IH. reflexivity. Qed.
Definition sq (z : Z) : point K := add Q (T (Z.to_nat (z + Zr))).
Lemma sq_on : forall z, on (sq z). Proof. intros. apply (add_on K HK a b C2); auto using T_on. Qed.
Lemma sq_never : forall z w, sq z <> T w.
Proof.
  intros z w E. unfold sq in E. set (j := Z.to_nat (z + Zr)) in *. apply (QN (w + (r - 1) * j)).
  rewrite T_plus, <- E. rewrite (add_assoc K HK a b C2 SM) by (auto using T_on). rewrite <- T_plus.
  replace (j + (r - 1) * j)%nat with (j * r)%nat by nia. rewrite T_cycle. reflexivity.
Qed.
Lemma sq_fin : forall z, sq z <> None. Proof. intros z. apply (sq_never z 0). Qed.
Lemma T_last : T (r - 1) = Some (x1, - y1).
Proof.
  destruct (T_fin (r - 1) ltac:(lia)) as (x & y & E & O & _). pose proof (T_S (r - 1)) as W. replace (Datatypes.S (r - 1)) with r in W by lia.
  rewrite TOR, E in W. symmetry in W. rewrite (add_comm K HK a) in W. destruct (infinite_sum K HK a b _ _ _ _ OP O W) as [-> ->]. auto.
Qed.
Lemma sq_ex : forall z, exists x y, sq z = Some (x, y) /\ on (Some (x, y)) /\ x <> x1 /\ xc (sq z) = x.
Proof.
  intros z. pose proof (sq_fin z) as N. pose proof (sq_on z) as O. pose proof (sq_never z 1) as N1. pose proof (sq_never z (r - 1)) as N2. rewrite T_last in N2. change (T 1) with P in N1.
  destruct (sq z) as [[x y] | ]; [ | congruence]. exists x, y. repeat split; auto. intros ->.
  destruct (same_x K HK a b x1 y y1 O OP) as [-> | ->]; congruence.
Qed.
Definition xs (z : Z) : K := xc (sq z).
Lemma xs_off : forall z, x1 - xs z <> 0.
Proof. intros z F. destruct (sq_ex z) as (x & y & _ & _ & N & E). unfold xs in F. rewrite E in F. apply N. symmetry. apply (f_sub_0 K HK). auto. Qed.
Lemma sq_step : forall z, (- Zr <= z)%Z -> sq (z + 1) = add (sq z) P.
Proof.
  intros z H. unfold sq. replace (Z.to_nat (z + 1 + Zr)) with (Datatypes.S (Z.to_nat (z + Zr))) by lia. rewrite T_S.
  symmetry. apply (add_assoc K HK a b C2 SM); auto using T_on.
Qed.
Lemma sq_0 : sq 0 = Q. Proof. unfold sq. replace (Z.to_nat (0 + Zr)) with r by lia. rewrite TOR. reflexivity. Qed.
Lemma sq_r : forall z, (- Zr <= z)%Z -> sq (z + Zr) = sq z.
Proof. intros z H. unfold sq. replace (Z.to_nat (z + Zr + Zr)) with (Z.to_nat (z + Zr) + r)%nat by lia. rewrite T_plus, TOR. destruct (T (Z.to_nat (z + Zr))) as [[] | ]; reflexivity. Qed.
Lemma sq_1 : sq 1 = add Q P. Proof. change 1%Z with (0 + 1)%Z. rewrite sq_step by lia. rewrite sq_0. reflexivity. Qed.
Lemma sq_m1 : sq (-1) = add Q (Some (x1, - y1)).
Proof. unfold sq. replace (Z.to_nat (-1 + Zr)) with (r - 1)%nat by lia. rewrite T_last. reflexivity. Qed.
Lemma xq_off : xq <> x1.
Proof. destruct (sq_ex 0) as (x & y & E & _ & N & _). rewrite sq_0 in E. congruence. Qed.
Lemma xq_nz : x1 - xq <> 0. Proof. intros F. apply xq_off. symmetry. apply (f_sub_0 K HK). auto. Qed.
Lemma xs_0 : xs 0 = xq. Proof. unfold xs. rewrite sq_0. reflexivity. Qed.
Definition dd : K := (f2 K * x1 + xq) * ((x1 - xq) * (x1 - xq)) - (y1 + yq) * (y1 + yq).
Lemma dd_eq : dd = (x1 - xq) * (x1 - xq) * (x1 - xs (-1)).
Proof.
  pose proof (chord_x' x1 y1 xq yq xq_off) as C. unfold xs. rewrite sq_m1. unfold dd, f2.
  transitivity ((xq - x1) * (xq - x1) * x1 - (xq - x1) * (xq - x1) * xc (add Q (Some (x1, - y1)))); [rewrite C; ring | ring].
Qed.
Lemma dd_nz : dd <> 0.
Proof. rewrite dd_eq. apply (f_mul_nz K HK); [apply (f_mul_nz K HK); apply xq_nz | apply xs_off]. Qed.

(** B_n from n = -2, in pairs *)
Fixpoint bpair (n : nat) : K * K :=
  match n with
  | O => (dd, x1 - xq)
  | Datatypes.S n' => let '(u, v) := bpair n' in (v, v * v * (x1 - xs (Z.of_nat n' - 1)) / u)
  end.
Definition bz (z : Z) : K := fst (bpair (Z.to_nat (z + 2))).
Lemma bpair_snd : forall n, snd (bpair n) = bz (Z.of_nat n - 1).
Proof. intros n. unfold bz. replace (Z.to_nat (Z.of_nat n - 1 + 2)) with (Datatypes.S n) by lia. cbn [bpair]. destruct (bpair n). reflexivity. Qed.
Lemma bz_m2 : bz (-2) = dd. Proof. reflexivity. Qed.
Lemma bz_m1 : bz (-1) = x1 - xq. Proof. reflexivity. Qed.
Lemma bz_step : forall z, (-1 <= z)%Z -> bz (z + 1) = bz z * bz z * (x1 - xs z) / bz (z - 1).
Proof.
  intros z H. set (n := Z.to_nat (z + 1)). assert (Ez : z = (Z.of_nat n - 1)%Z) by lia. rewrite Ez.
  replace (Z.of_nat n - 1 + 1)%Z with (Z.of_nat (Datatypes.S n) - 1)%Z by lia. rewrite <- !bpair_snd.
  unfold bz. replace (Z.to_nat (Z.of_nat n - 1 - 1 + 2)) with n by lia. cbn [bpair]. destruct (bpair n) as [u v]. reflexivity.
Qed.
Lemma bz_nz : forall z, (-2 <= z)%Z -> bz z <> 0.
Proof.
  assert (G : forall n, bz (Z.of_nat n - 2) <> 0 /\ bz (Z.of_nat n - 1) <> 0).
  { induction n as [ | n [I1 I2]].
    - change (Z.of_nat 0 - 2)%Z with (-2)%Z. change (Z.of_nat 0 - 1)%Z with (-1)%Z. rewrite bz_m2, bz_m1. split; [apply dd_nz | apply xq_nz].
    - replace (Z.of_nat (Datatypes.S n) - 2)%Z with (Z.of_nat n - 1)%Z by lia. replace (Z.of_nat (Datatypes.S n) - 1)%Z with ((Z.of_nat n - 1) + 1)%Z by lia. split; auto.
      rewrite bz_step by lia. replace (Z.of_nat n - 1 - 1)%Z with (Z.of_nat n - 2)%Z by lia. apply div_nz; auto.
      apply (f_mul_nz K HK); [ | apply xs_off]. apply (f_mul_nz K HK); auto. }
  intros z H. replace z with (Z.of_nat (Z.to_nat (z + 2)) - 2)%Z by lia. apply G.
Qed.
Lemma bz_rec : forall z, (-1 <= z)%Z -> bz (z + 1) * bz (z - 1) = bz z * bz z * (x1 - xs z).
Proof. intros z H. rewrite bz_step by lia. assert (N : bz (z - 1) <> 0) by (apply bz_nz; lia). field. auto. Qed.
Lemma bz_0 : bz 0 = 1.
Proof.
  change 0%Z with (-1 + 1)%Z at 1. rewrite bz_step by lia. change (-1 - 1)%Z with (-2)%Z. rewrite bz_m2, bz_m1, <- dd_eq. assert (N := dd_nz). field. auto.
Qed.
Lemma bz_1 : bz 1 = 1.
Proof.
  change 1%Z with (0 + 1)%Z at 1. rewrite bz_step by lia. change (0 - 1)%Z with (-1)%Z. rewrite bz_m1, bz_0, xs_0. assert (N := xq_nz). field. auto.
Qed.
Lemma bz_2 : bz 2 = f2 K * x1 + xq - (y1 - yq) / (x1 - xq) * ((y1 - yq) / (x1 - xq)).
Proof.
  change 2%Z with (1 + 1)%Z at 1. rewrite bz_step by lia. change (1 - 1)%Z with 0%Z. rewrite bz_0, bz_1.
  pose proof (chord_x x1 y1 xq yq xq_off) as C. unfold xs. rewrite sq_1. set (X := xc (add Q P)) in *. clearbody X. assert (N := xq_nz).
  transitivity (x1 - X); [field; apply (f_1_neq_0 K HK) | ].
  apply (f_cancel K HK ((x1 - xq) * (x1 - xq))); [apply (f_mul_nz K HK); auto | ].
  transitivity ((x1 - xq) * (x1 - xq) * x1 - (xq - x1) * (xq - x1) * X); [ring | ]. rewrite C. unfold f2. field. auto.
Qed.
Lemma bz_net : forall n m, (0 <= m < Zr)%Z -> (-2 <= n - m)%Z -> (-1 <= n)%Z ->
  bz (n + m) * bz (n - m) = bz (n + 1) * bz (n - 1) * (az m * az m) - bz n * bz n * (az (m + 1) * az (m - 1)).
Proof.
  intros n m H1 H2 H3. destruct (Z.eq_dec m 0) as [-> | N0].
  { rewrite Z.add_0_r, Z.sub_0_r, az_0. change (0 + 1)%Z with 1%Z. change (0 - 1)%Z with (-1)%Z. rewrite az_1, az_m1. ring. }
  rewrite (bz_rec n) by lia. rewrite (az_rec m) by lia.
  assert (G2 : bz (n + Z.of_nat (Z.to_nat m)) * bz (n - Z.of_nat (Z.to_nat m)) = bz n * bz n * (an (Z.to_nat m) * an (Z.to_nat m)) * (xm (Z.to_nat m) - xc (sq n))).
  { apply (U_net bz sq (-2) (n + m)); try lia; auto using sq_on.
    - intros j Hj. apply sq_step. lia.
    - intros j Hj. apply sq_fin.
    - intros j Hj. apply bz_nz. lia.
    - intros j Hj. apply bz_rec. lia. }
  rewrite <- (az_nat (Z.to_nat m)), Z2Nat.id in G2 by lia. rewrite G2. unfold xz, xm, xs. ring.
Qed.

(** ** Miller's function of P at -Q *)
Local Notation R := (Some (xq, - yq)).
Local Notation step := (miller_step K a).
Lemma off_q : forall j, (0 < j < r)%nat -> xm j <> xq.
Proof.
  intros j H E. destruct (T_fin j H) as (x & y & Ej & O & Ex). rewrite Ex in E. subst x. destruct (same_x K HK a b xq y yq O OQ) as [-> | ->].
  - apply (QN j). auto.
  - apply (sq_fin (Z.of_nat j - Zr)). unfold sq. replace (Z.to_nat (Z.of_nat j - Zr + Zr)) with j by lia. rewrite Ej. apply (add_neg_r K HK a C2).
Qed.
Definition mst (n : nat) : K := step (T n) P R.
Lemma mst_val : forall n, (0 < n)%nat -> (n + 1 < r)%nat -> exists l m x y x' y', T n = Some (x, y) /\ T (n + 1) = Some (x', y') /\ line K a b x y x1 y1 x' y' l m /\ mst n * (xq - x') = - (yq + (l * xq + m)).
Proof.
  intros n H1 H2. destruct (T_fin n ltac:(lia)) as (x & y & E & O & _). destruct (T_fin (n + 1) ltac:(lia)) as (x' & y' & E' & O' & X').
  assert (SM' : add (Some (x, y)) P = Some (x', y')) by (rewrite <- E, <- E', <- T_S; f_equal; lia).
  pose proof (line_ex K HK a b HE _ _ _ _ _ _ O OP SM') as LN.
  exists (slope K a x y x1 y1), (y - slope K a x y x1 y1 * x), x, y, x', y'. split; auto. split; auto. split; auto.
  unfold mst. rewrite E. rewrite (step_line K HK a b HE x y x1 y1 x' y' _ _ xq (- yq) O OP SM' LN).
  set (l := slope K a x y x1 y1). clearbody l.
  assert (N : xq - x' <> 0) by (intro F; apply (off_q (n + 1)); [lia | rewrite X'; symmetry; apply (f_sub_0 K HK); auto]). field. auto.
Qed.
Lemma tangent_id : forall l m x' y', line K a b x1 y1 x1 y1 x' y' l m ->
  (xq - x1) * (xq - x1) * (f2 K * x1 + xq) - yq * yq - y1 * y1 + f2 K * y1 * (l * xq + m) = 0.
Proof.
  intros l m x' y' LN. pose proof (line_norm K HK a b _ _ _ _ _ _ _ _ xq LN) as W. destruct LN as [A1 _ A3 E1 _ _].
  cbn [on_curve] in OQ. change (rhs K a b xq) with (cubic K a b xq) in OQ. rewrite OQ.
  assert (W' : cubic K a b xq = (xq - x1) * (xq - x1) * (xq - x') + (l * xq + m) * (l * xq + m)) by (rewrite <- W; ring).
  rewrite W'. assert (M : m = y1 - l * x1) by (rewrite A1; ring). rewrite M.
  transitivity ((xq - x1) * (xq - x1) * ((x1 + x1 + x') - l * l)); [unfold f2; ring | ]. rewrite <- E1. ring.
Qed.
Lemma mst_1 : bz 2 * mst 1 = - (f2 K * y1).
Proof.
  destruct (mst_val 1 ltac:(lia) ltac:(lia)) as (l & m & x & y & x' & y' & E & E' & LN & V). change (T 1) with P in E. injection E as <- <-.
  pose proof (tangent_id l m x' y' LN) as TI. pose proof (line_norm K HK a b _ _ _ _ _ _ _ _ xq LN) as W.
  pose proof (bz_rec 1 ltac:(lia)) as B2. change (1 + 1)%Z with 2%Z in B2. change (1 - 1)%Z with 0%Z in B2. rewrite bz_0, bz_1 in B2.
  pose proof (chord_x x1 y1 xq yq xq_off) as C. unfold xs in B2. rewrite sq_1 in B2. set (X := xc (add Q P)) in *. clearbody X.
  assert (N : xq - x' <> 0). { intro F. destruct (T_fin 2 ltac:(lia)) as (x2 & y2 & E2 & _ & X2). change (1 + 1)%nat with 2%nat in E'. rewrite E' in E2. injection E2 as <- <-. apply (off_q 2); [lia | ]. rewrite X2. symmetry. apply (f_sub_0 K HK). auto. }
  assert (D : xq - x1 <> 0) by (intro F; apply xq_off; apply (f_sub_0 K HK); auto).
  assert (B2' : bz 2 = x1 - X) by (transitivity (bz 2 * 1); [ring | rewrite B2; ring]). rewrite B2'.
  apply (f_cancel K HK ((xq - x1) * (xq - x1) * (xq - x'))); [apply (f_mul_nz K HK); auto; apply (f_mul_nz K HK); auto | ].
  transitivity (((xq - x1) * (xq - x1) * x1 - (xq - x1) * (xq - x1) * X) * (mst 1 * (xq - x'))); [ring | ]. rewrite C, V.
  set (g := l * xq + m) in *. clearbody g. cbn [on_curve] in OQ. change (rhs K a b xq) with (cubic K a b xq) in OQ. rewrite <- OQ in W.
  transitivity (- (f2 K * y1) * ((yq * yq - g * g))).
  2: { rewrite W. ring. }
  transitivity (- (yq + g) * (((xq - x1) * (xq - x1) * (f2 K * x1 + xq) - yq * yq - y1 * y1 + f2 K * y1 * g) + f2 K * y1 * (yq - g))); [unfold f2; ring | ].
  rewrite TI. ring.
Qed.
Lemma mst_step : forall n, (2 <= n)%nat -> (n + 1 < r)%nat -> mst n * (x1 - xs (Z.of_nat n)) = mst (n - 1) * (x1 - xm n).
Proof.
  intros n H1 H2. destruct (mst_val n ltac:(lia) ltac:(lia)) as (l & m & xn & yn & xp & yp & En & Ep & LN & V).
  destruct (mst_val (n - 1) ltac:(lia) ltac:(lia)) as (l' & m' & xl & yl & xn' & yn' & El & En' & LN' & V'). replace (n - 1 + 1)%nat with n in En' by lia.
  rewrite En in En'. injection En' as <- <-.
  assert (Xn : xm n = xn) by (unfold xm; rewrite En; reflexivity). assert (Xp : xm (n + 1) = xp) by (unfold xm; rewrite Ep; reflexivity).
  pose proof (T_on n) as On. rewrite En in On.
  assert (Nn : xq - xn <> 0) by (intro F; apply (off_q n); [lia | rewrite Xn; symmetry; apply (f_sub_0 K HK); auto]).
  assert (Np : xq - xp <> 0) by (intro F; apply (off_q (n + 1)); [lia | rewrite Xp; symmetry; apply (f_sub_0 K HK); auto]).
  assert (D : xq - x1 <> 0) by (intro F; apply xq_off; apply (f_sub_0 K HK); auto).
  assert (Dn : x1 - xn <> 0) by (intro F; apply (xm_off n); [lia | rewrite Xn; symmetry; apply (f_sub_0 K HK); auto]).
  assert (XQ : xq <> xn) by (intro F; apply Nn; rewrite F; ring).
  assert (SX : sq (Z.of_nat n) = add Q (Some (xn, yn))).
  { unfold sq. replace (Z.to_nat (Z.of_nat n + Zr)) with (n + r)%nat by lia. rewrite T_plus, TOR, En. reflexivity. }
  pose proof (chord_x xn yn xq yq XQ) as C. rewrite Xn. unfold xs. rewrite SX. set (X := xc (add Q (Some (xn, yn)))) in *. clearbody X.
  pose proof (line_norm K HK a b _ _ _ _ _ _ _ _ xq LN) as W. destruct LN as [A1 A2 A3 _ _ _]. destruct LN' as [B1 B2 B3 _ _ _].
  set (g := l * xq + m) in *. set (g' := l' * xq + m') in *.
  assert (G : g = yn + l * (xq - xn)) by (unfold g; rewrite A1; ring). assert (G' : g' = - yn + l' * (xq - xn)) by (unfold g'; rewrite B3; ring).
  assert (S1 : l * (x1 - xn) = y1 - yn) by (rewrite A1, A2; ring). assert (S2 : l' * (x1 - xn) = y1 + yn) by (transitivity (y1 - - yn); [rewrite B2, B3; ring | ring]).
  clearbody g g'.
  assert (OQ' : yq * yq = cubic K a b xq) by (cbn [on_curve] in OQ; exact OQ). rewrite <- OQ' in W.
  assert (CL : ((xq - xn) * (xq - xn) * x1 - (xq - xn) * (xq - xn) * X) * (xq - x1) = (yq + g') * (x1 - xn) * (yq - g)).
  { rewrite C, G, G'.
    assert (Q1 : l * l' * (x1 - xn) = x1 * x1 + x1 * xn + xn * xn + a).
    { apply (f_cancel K HK (x1 - xn)); auto. transitivity ((l * (x1 - xn)) * (l' * (x1 - xn))); [ring | ]. rewrite S1, S2.
      transitivity (y1 * y1 - yn * yn); [ring | ]. cbn [on_curve] in OP, On. rewrite OP, On. unfold rhs. ring. }
    assert (Q2 : (l' - l) * (x1 - xn) = f2 K * yn) by (transitivity (l' * (x1 - xn) - l * (x1 - xn)); [ring | rewrite S1, S2; unfold f2; ring]).
    transitivity ((x1 - xn) * ((yq - yn) * (yq - yn)) + ((l' - l) * (x1 - xn)) * ((xq - xn) * (yq - yn)) - (l * l' * (x1 - xn)) * ((xq - xn) * (xq - xn))); [ | ring].
    rewrite Q1, Q2.
    transitivity (((xq * xq + xn * xq + xn * xn + a) * (xq - xn) - (yq * yq - yn * yn)) * (xq - xn) +
       ((x1 - xn) * ((yq - yn) * (yq - yn)) + f2 K * yn * ((xq - xn) * (yq - yn)) - (x1 * x1 + x1 * xn + xn * xn + a) * ((xq - xn) * (xq - xn)))); [unfold f2; ring | ].
    cbn [on_curve] in OQ, On. rewrite OQ, On. unfold rhs. ring. }
  apply (f_cancel K HK ((xq - xn) * (xq - xn) * (xq - x1) * (xq - xp))); [repeat apply (f_mul_nz K HK); auto | ].
  transitivity ((mst n * (xq - xp)) * (((xq - xn) * (xq - xn) * x1 - (xq - xn) * (xq - xn) * X) * (xq - x1))); [ring | ]. rewrite CL, V.
  transitivity ((mst (n - 1) * (xq - xn)) * (x1 - xn) * ((xq - xn) * (xq - x1) * (xq - xp))); [ | ring]. rewrite V'.
  transitivity (- (yq + g') * (x1 - xn) * (yq * yq - g * g)); [ring | ]. rewrite W. ring.
Qed.
Lemma mst_ratio : forall n, (1 <= n)%nat -> (n + 1 < r)%nat -> bz (Z.of_nat n + 1) * mst n * an n = - (an (n + 1) * bz (Z.of_nat n)).
Proof.
  induction n as [ | n IH]; intros H1 H2; [lia | ]. destruct n as [ | n].
  - change (Z.of_nat 1 + 1)%Z with 2%Z. change (Z.of_nat 1) with 1%Z. change (1 + 1)%nat with 2%nat. rewrite bz_1, an_1, an_2, mst_1. ring.
  - specialize (IH ltac:(lia) ltac:(lia)). set (k := Datatypes.S n) in *. pose proof (mst_step (Datatypes.S k) ltac:(lia) ltac:(lia)) as MS.
    replace (Datatypes.S k - 1)%nat with k in MS by lia. replace (k + 1)%nat with (Datatypes.S k) in IH by lia. replace (Z.of_nat k + 1)%Z with (Z.of_nat (Datatypes.S k)) in IH by lia.
    pose proof (bz_rec (Z.of_nat (Datatypes.S k)) ltac:(lia)) as BR. replace (Z.of_nat (Datatypes.S k) - 1)%Z with (Z.of_nat k) in BR by lia.
    pose proof (an_rec (Datatypes.S k) ltac:(lia)) as AR. replace (Datatypes.S k - 1)%nat with k in AR by lia.
    assert (Nb : bz (Z.of_nat k) <> 0) by (apply bz_nz; lia). assert (Na : an k <> 0) by (apply an_nz; lia).
    set (bp := bz (Z.of_nat (Datatypes.S k) + 1)) in *. set (b0 := bz (Z.of_nat (Datatypes.S k))) in *. set (bl := bz (Z.of_nat k)) in *.
    set (ap := an (Datatypes.S k + 1)) in *. set (a0 := an (Datatypes.S k)) in *. set (al := an k) in *. set (X := xs (Z.of_nat (Datatypes.S k))) in *. set (x := xm (Datatypes.S k)) in *.
    set (M := mst (Datatypes.S k)) in *. set (M' := mst k) in *. clearbody bp b0 bl ap a0 al X x M M'.
    apply (f_cancel K HK (bl * al)); [apply (f_mul_nz K HK); auto | ].
    transitivity ((bp * bl) * (M * al * a0)); [ring | ]. rewrite BR. transitivity (b0 * b0 * al * a0 * (M * (x1 - X))); [ring | ]. rewrite MS.
    transitivity ((b0 * M' * al) * (b0 * a0 * (x1 - x))); [ring | ]. rewrite IH.
    transitivity (- (a0 * a0 * (x1 - x)) * (bl * b0)); [ring | ]. rewrite <- AR. ring.
Qed.
Local Notation mil n := (miller K a n P R).
Definition unit_sign (s : K) : Prop := s = 1 \/ s = - (1).
Lemma mil_net : forall n, (1 <= n)%nat -> (n < r)%nat -> exists s, unit_sign s /\ bz (Z.of_nat n) * mil n = s * an n.
Proof.
  induction n as [ | n IH]; intros H1 H2; [lia | ]. destruct n as [ | n].
  - exists 1. split; [left; auto | ]. change (Z.of_nat 1) with 1%Z. rewrite bz_1, an_1. cbn [miller pmul miller_step]. ring.
  - destruct IH as (s & Hs & IH); try lia. set (k := Datatypes.S n) in *. pose proof (mst_ratio k ltac:(lia) ltac:(lia)) as MR.
    exists (- s). split; [destruct Hs as [-> | ->]; [right | left]; ring | ].
    replace (k + 1)%nat with (Datatypes.S k) in MR by lia. replace (Z.of_nat k + 1)%Z with (Z.of_nat (Datatypes.S k)) in MR by lia.
    cbn [miller]. fold (mst k). assert (Nb : bz (Z.of_nat k) <> 0) by (apply bz_nz; lia). assert (Na : an k <> 0) by (apply an_nz; lia).
    set (bp := bz (Z.of_nat (Datatypes.S k))) in *. set (b0 := bz (Z.of_nat k)) in *. set (f := mil k) in *. set (M := mst k) in *. set (ap := an (Datatypes.S k)) in *. set (a0 := an k) in *.
    clearbody bp b0 f M ap a0. apply (f_cancel K HK (b0 * a0)); [apply (f_mul_nz K HK); auto | ].
    transitivity ((bp * M * a0) * (b0 * f)); [ring | ]. rewrite MR, IH. ring.
Qed.
Lemma last_ratio : bz Zr * (x1 - xq) * an (r - 2) = f2 K * y1 * an (r - 1) * bz (Zr - 1).
Proof.
  destruct (mst_val (r - 2) ltac:(lia) ltac:(lia)) as (l & m & xl & yl & x' & y' & El & E' & LN & V). replace (r - 2 + 1)%nat with (r - 1)%nat in E' by lia.
  rewrite T_last in E'. injection E' as <- <-.
  assert (LN' : line K a b x1 y1 x1 y1 xl (- yl) l m).
  { apply (line_sym' K HK a b) in LN. apply (line_rot K HK a b) in LN. replace (- - y1) with y1 in LN by ring. exact LN. }
  pose proof (tangent_id l m xl (- yl) LN') as TI.
  pose proof (mst_ratio (r - 2) ltac:(lia) ltac:(lia)) as MR. replace (r - 2 + 1)%nat with (r - 1)%nat in MR by lia. replace (Z.of_nat (r - 2) + 1)%Z with (Zr - 1)%Z in MR by lia.
  replace (Z.of_nat (r - 2)) with (Zr - 2)%Z in MR by lia.
  pose proof (bz_rec (Zr - 1) ltac:(lia)) as BR. replace (Zr - 1 + 1)%Z with Zr in BR by lia. replace (Zr - 1 - 1)%Z with (Zr - 2)%Z in BR by lia.
  assert (XS : xs (Zr - 1) = xs (-1)) by (unfold xs; replace (Zr - 1)%Z with (-1 + Zr)%Z by lia; rewrite sq_r by lia; reflexivity).
  pose proof dd_eq as DD. rewrite XS in BR. unfold dd in DD.
  assert (D : xq - x1 <> 0) by (intro F; apply xq_off; apply (f_sub_0 K HK); auto).
  assert (B1 : bz (Zr - 1) <> 0) by (apply bz_nz; lia). assert (B2 : bz (Zr - 2) <> 0) by (apply bz_nz; lia). assert (A1 : an (r - 1) <> 0) by (apply an_nz; lia). assert (A2 : an (r - 2) <> 0) by (apply an_nz; lia).
  set (g := l * xq + m) in *. set (M := mst (r - 2)) in *. set (b0 := bz (Zr - 1)) in *. set (bl := bz (Zr - 2)) in *. set (bp := bz Zr) in *. set (a0 := an (r - 1)) in *. set (al := an (r - 2)) in *. set (X := xs (-1)) in *.
  clearbody g M b0 bl bp a0 al X.
  assert (ID : (x1 - xq) * (x1 - xq) * (x1 - X) = f2 K * y1 * (M * (xq - x1))).
  { rewrite V, <- DD. transitivity (((xq - x1) * (xq - x1) * (f2 K * x1 + xq) - yq * yq - y1 * y1 + f2 K * y1 * g) - f2 K * y1 * (yq + g)); [unfold f2; ring | ]. rewrite TI. ring. }
  assert (ID' : (xq - x1) * (x1 - X) = f2 K * y1 * M) by (apply (f_cancel K HK (xq - x1)); auto; transitivity ((x1 - xq) * (x1 - xq) * (x1 - X)); [ring | rewrite ID; ring]).
  apply (f_cancel K HK bl); auto. transitivity ((bp * bl) * (x1 - xq) * al); [ring | ]. rewrite BR.
  transitivity (- (b0 * b0 * al * ((xq - x1) * (x1 - X)))); [ring | ]. rewrite ID'. transitivity (- (b0 * (f2 K * y1) * (b0 * M * al))); [ring | ]. rewrite MR. ring.
Qed.
(** the net one step past the order, in terms of Miller's function *)
Definition net_const : K := f2 K * y1 * an (r - 1) / an (r - 2) * (f2 K * y1 * an (r - 1) / an (r - 2)) * an (r - 1).
Lemma net_const_nz : net_const <> 0.
Proof.
  assert (A1 : an (r - 1) <> 0) by (apply an_nz; lia). assert (A2 : an (r - 2) <> 0) by (apply an_nz; lia). unfold net_const.
  repeat (apply (f_mul_nz K HK); [ | auto]); apply div_nz; auto; apply (f_mul_nz K HK); auto; apply yy_nz.
Qed.
Theorem net_miller : exists s, unit_sign s /\ bz (Zr + 1) * mil r = s * net_const.
Proof.
  destruct (mil_net (r - 1) ltac:(lia) ltac:(lia)) as (s & Hs & ML). exists (- s). split; [destruct Hs as [-> | ->]; [right | left]; ring | ].
  pose proof last_ratio as LR. pose proof (bz_rec Zr ltac:(lia)) as BR.
  assert (XS : xs Zr = xq) by (unfold xs; replace Zr with (0 + Zr)%Z by lia; rewrite sq_r, sq_0 by lia; reflexivity). rewrite XS in BR.
  assert (MM : mil r = mil (r - 1)%nat * (xq - x1)).
  { replace r with (Datatypes.S (r - 1)) at 1 by lia. cbn [miller]. f_equal. rewrite T_last. unfold miller_step.
    replace (add (Some (x1, - y1)) P) with (None : point K); [reflexivity | ]. symmetry. rewrite (add_comm K HK a). apply (add_neg_r K HK a C2). }
  rewrite MM. replace (Z.of_nat (r - 1)) with (Zr - 1)%Z in ML by lia. unfold net_const.
  assert (B1 : bz (Zr - 1) <> 0) by (apply bz_nz; lia). assert (B0 : bz Zr <> 0) by (apply bz_nz; lia). assert (A2 : an (r - 2) <> 0) by (apply an_nz; lia). assert (D := xq_nz).
  set (b0 := bz (Zr - 1)) in *. set (bp := bz (Zr + 1)) in *. set (br := bz Zr) in *. set (a0 := an (r - 1)) in *. set (al := an (r - 2)) in *. set (f := mil (r - 1)%nat) in *. clearbody b0 bp br a0 al f.
  set (t := f2 K * y1) in *. clearbody t.
  assert (LR' : br * (x1 - xq) = t * a0 / al * b0) by (apply (f_cancel K HK al); auto; transitivity (br * (x1 - xq) * al); [ring | rewrite LR; field; auto]).
  set (g := t * a0 / al) in *. clearbody g.
  assert (BP : bp = br * g). { apply (f_cancel K HK b0); auto. transitivity (bp * b0); [ring | ]. rewrite BR. transitivity (br * (br * (x1 - xq))); [ring | rewrite LR'; ring]. }
  rewrite BP. transitivity (- (br * (x1 - xq) * g * f)); [ring | ]. rewrite LR'. transitivity (- (g * g * (b0 * f))); [ring | ]. rewrite ML. ring.
Qed.
End Q.
End Net.
End S.
