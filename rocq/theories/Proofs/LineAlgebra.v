(** Lines on an elliptic curve: the relation between the four lines used to add
    three points in the two ways. *)
From Coq Require Import ZArith List Bool Lia Ring Field.
From Verif.Base Require Import Outcome Algebra Slots.
From Verif.Proofs Require Import FieldFacts SlotFacts CurveAlgebra.

Section S.
Variable K : fld.
Hypothesis HK : fld_laws K.
Add Field KFla : (fl_field K HK).
Local Notation "0" := f0. Local Notation "1" := f1.
Local Notation "x + y" := (fadd x y). Local Notation "x - y" := (fsub x y). Local Notation "x * y" := (fmul x y). Local Notation "- x" := (fopp x).
Local Notation "x / y" := (fdiv x y).
Local Notation "2" := (1+1 : K). Local Notation "3" := (1+1+1 : K).
Variables (a b : K).
Definition cubic (x : K) : K := x * x * x + a * x + b.
Definition cubic' (x : K) : K := 3 * (x * x) + a.

(** y = l x + n meets the curve in (x1,y1), (x2,y2) and (x3,-y3) *)
Record line (x1 y1 x2 y2 x3 y3 l n : K) : Prop := {
  ln1 : y1 = l * x1 + n;
  ln2 : y2 = l * x2 + n;
  ln3 : - y3 = l * x3 + n;
  lne1 : l * l = x1 + x2 + x3;
  lne2 : a - 2 * (l * n) = x1 * x2 + x1 * x3 + x2 * x3;
  lne3 : n * n - b = x1 * x2 * x3
}.
Lemma line_sym : forall x1 y1 x2 y2 x3 y3 l n, line x1 y1 x2 y2 x3 y3 l n -> line x2 y2 x1 y1 x3 y3 l n.
Proof. intros x1 y1 x2 y2 x3 y3 l n []. constructor; auto. rewrite lne4; ring. rewrite lne5; ring. rewrite lne6; ring. Qed.
Lemma line_norm : forall x1 y1 x2 y2 x3 y3 l n x, line x1 y1 x2 y2 x3 y3 l n ->
  cubic x - (l * x + n) * (l * x + n) = (x - x1) * (x - x2) * (x - x3).
Proof.
  intros x1 y1 x2 y2 x3 y3 l n x []. unfold cubic.
  transitivity (x * x * x - (l * l) * (x * x) + (a - 2 * (l * n)) * x - (n * n - b)); [ring | ]. rewrite lne4, lne5, lne6. ring.
Qed.
Lemma line_deriv : forall x1 y1 x2 y2 x3 y3 l n, line x1 y1 x2 y2 x3 y3 l n ->
  cubic' x1 - 2 * (l * y1) = (x1 - x2) * (x1 - x3).
Proof.
  intros x1 y1 x2 y2 x3 y3 l n []. unfold cubic'. rewrite ln4.
  transitivity (3 * (x1 * x1) - 2 * (l * l) * x1 + (a - 2 * (l * n))); [ring | ]. rewrite lne4, lne5. ring.
Qed.

(** two lines through S and -S: their product over (x - xs) is x^2 + g1 x + g0 - s y *)
Section Two.
Variables (xs l1 n1 l2 n2 : K).
Definition g1 : K := l1 * l2 + xs.
Definition g0 : K := a + (l1 * n2 + l2 * n1) + xs * g1.
Definition gp (x : K) : K := x * x + g1 * x + g0.
Lemma two_sum : forall ys, - ys = l1 * xs + n1 -> ys = l2 * xs + n2 -> n1 + n2 = - ((l1 + l2) * xs).
Proof. intros ys H1 H2. transitivity (- ys + ys - (l1 + l2) * xs); [rewrite H1 at 1; rewrite H2 at 1; ring | ring]. Qed.
Lemma two_lines : forall ys x y, - ys = l1 * xs + n1 -> ys = l2 * xs + n2 -> ys * ys = cubic xs -> y * y = cubic x ->
  (y - l1 * x - n1) * (y - l2 * x - n2) = (x - xs) * (gp x - (l1 + l2) * y).
Proof.
  intros ys x y H1 H2 S C. pose proof (two_sum ys H1 H2) as N.
  transitivity (y * y + (l1 * x + n1) * (l2 * x + n2) - ((l1 + l2) * x + (n1 + n2)) * y); [ring | ]. rewrite N, C.
  assert (E : cubic x + (l1 * x + n1) * (l2 * x + n2) = (x - xs) * gp x + (cubic xs + (l1 * xs + n1) * (l2 * xs + n2))).
  { unfold gp, g0, g1, cubic. ring. }
  rewrite E, <- S, <- H1, <- H2. ring.
Qed.
End Two.

(** A is on the first of the two lines *)
Lemma on_first : forall x1 y1 x2 y2 xs ys l1 n1 l2 n2, line x1 y1 x2 y2 xs ys l1 n1 -> ys = l2 * xs + n2 ->
  gp xs l1 n1 l2 n2 x1 = (l1 + l2) * y1.
Proof.
  intros x1 y1 x2 y2 xs ys l1 n1 l2 n2 [A1 A2 A3 E1 E2 E3] H.
  assert (N : n2 = - (l1 + l2) * xs - n1) by (pose proof (two_sum xs l1 n1 l2 n2 ys A3 H) as N; transitivity (n1 + n2 - n1); [ring | rewrite N; ring]).
  unfold gp, g0, g1. rewrite A1.
  replace a with (2 * (l1 * n1) + (x1 * x2 + x1 * xs + x2 * xs)) by (rewrite <- E2; ring).
  rewrite N. transitivity ((l1 * l1) * (- xs) + x1 * x1 + l1 * l2 * x1 + xs * x1 + xs * x1 + x1 * x2 + x2 * xs + xs * xs + (l1 + l2) * n1); [ring | ].
  transitivity ((l1 * l1) * x1 + l1 * l2 * x1 + (l1 + l2) * n1); [ | ring]. rewrite E1. ring.
Qed.
Lemma on_second : forall x1 y1 x2 y2 xs ys l1 n1 l2 n2, - ys = l1 * xs + n1 -> line xs ys x1 y1 x2 y2 l2 n2 ->
  gp xs l1 n1 l2 n2 x1 = (l1 + l2) * y1.
Proof.
  intros x1 y1 x2 y2 xs ys l1 n1 l2 n2 H [A1 A2 A3 E1 E2 E3].
  assert (N : n1 = - (l1 + l2) * xs - n2) by (pose proof (two_sum xs l1 n1 l2 n2 ys H A1) as N; transitivity (n1 + n2 - n2); [ring | rewrite N; ring]).
  unfold gp, g0, g1. rewrite A2.
  replace a with (2 * (l2 * n2) + (xs * x1 + xs * x2 + x1 * x2)) by (rewrite <- E2; ring).
  rewrite N. transitivity ((l2 * l2) * (- xs) + x1 * x1 + l1 * l2 * x1 + xs * x1 + xs * x1 + x1 * x2 + x2 * xs + xs * xs + (l1 + l2) * n2); [ring | ].
  transitivity ((l2 * l2) * x1 + l1 * l2 * x1 + (l1 + l2) * n2); [ | ring]. rewrite E1. ring.
Qed.
(** tangency *)
Lemma tangent_first : forall x1 y1 xs ys l1 n1 l2 : K, line x1 y1 x1 y1 xs ys l1 n1 ->
  2 * y1 * (2 * x1 + g1 xs l1 l2) = (l1 + l2) * cubic' x1.
Proof.
  intros x1 y1 xs ys l1 n1 l2 L. pose proof (line_deriv _ _ _ _ _ _ _ _ L) as D. destruct L.
  assert (E : cubic' x1 = 2 * (l1 * y1)) by (apply (f_sub_0 K HK); rewrite D; ring).
  rewrite E. unfold g1. transitivity (2 * y1 * ((x1 + x1 + xs) + l1 * l2)); [ring | ]. rewrite <- lne4. ring.
Qed.
Lemma tangent_both : forall x1 y1 x2 y2 xs ys x4 y4 l1 n1 l2 n2,
  line x1 y1 x2 y2 xs ys l1 n1 -> line xs ys x1 y1 x4 y4 l2 n2 ->
  2 * y1 * (2 * x1 + g1 xs l1 l2) = (l1 + l2) * cubic' x1.
Proof.
  intros x1 y1 x2 y2 xs ys x4 y4 l1 n1 l2 n2 L M. pose proof (line_deriv _ _ _ _ _ _ _ _ L) as D.
  destruct L as [A1 A2 A3 E1 E2 E3], M as [B1 B2 B3 F1 F2 F3].
  pose proof (two_sum xs l1 n1 l2 n2 ys A3 B1) as N.
  assert (E : cubic' x1 = 2 * (l1 * y1) + (x1 - x2) * (x1 - xs)) by (rewrite <- D; ring).
  assert (T : (l1 + l2) * (x1 - xs) = 2 * y1).
  { transitivity ((l1 * x1 + n1) + (l2 * x1 + n2)); [ | rewrite <- A1, <- B2; ring].
    transitivity ((l1 + l2) * x1 + (n1 + n2)); [rewrite N; ring | ring]. }
  rewrite E. unfold g1. transitivity (2 * y1 * (x1 - x2 + (x1 + x2 + xs) + l1 * l2)); [ring | ]. rewrite <- E1.
  transitivity (2 * y1 * (x1 - x2) + (l1 + l2) * (2 * (l1 * y1))); [ring | ]. rewrite <- T at 1. ring.
Qed.

Hypothesis C2 : 2 <> 0.
Lemma twice_0 : forall x : K, 2 * x = 0 -> x = 0.
Proof. intros x H. destruct (f_integral K HK _ _ H); auto. contradiction. Qed.
Hypothesis smooth : forall x, cubic x = 0 -> cubic' x <> 0.

(** The conclusion: the products of lines agree. *)
Definition same (xs1 xs3 l1 n1 l2 n2 l3 n3 l4 n4 : K) : Prop :=
  l1 + l2 = l3 + l4 /\ g1 xs1 l1 l2 = g1 xs3 l3 l4 /\ g0 xs1 l1 n1 l2 n2 = g0 xs3 l3 n3 l4 n4.

Section Four.
Variables (xa ya xb yb xc yc xs ys xt yt xd yd l1 n1 l2 n2 l3 n3 l4 n4 : K).
Hypotheses (Oa : ya * ya = cubic xa) (Ob : yb * yb = cubic xb) (Oc : yc * yc = cubic xc).
Hypotheses (L1 : line xa ya xb yb xs ys l1 n1) (L2 : line xs ys xc yc xd yd l2 n2).
Hypotheses (L3 : line xb yb xc yc xt yt l3 n3) (L4 : line xa ya xt yt xd yd l4 n4).
Local Notation ds := (l1 + l2 - (l3 + l4)).
Local Notation c1 := (g1 xs l1 l2 - g1 xt l3 l4).
Local Notation c0 := (g0 xs l1 n1 l2 n2 - g0 xt l3 n3 l4 n4).

Lemma at_a : c1 * xa + c0 = ds * ya.
Proof.
  pose proof (on_first _ _ _ _ _ _ _ _ _ _ L1 (ln1 _ _ _ _ _ _ _ _ L2)) as H.
  pose proof (on_second xa ya xd yd xt yt l3 n3 l4 n4 (ln3 _ _ _ _ _ _ _ _ L3) (line_sym _ _ _ _ _ _ _ _ L4)) as H'.
  unfold gp in H, H'. transitivity ((l1 + l2) * ya - (l3 + l4) * ya); [rewrite <- H, <- H'; ring | ring].
Qed.
Lemma at_b : c1 * xb + c0 = ds * yb.
Proof.
  pose proof (on_first _ _ _ _ _ _ _ _ _ _ (line_sym _ _ _ _ _ _ _ _ L1) (ln1 _ _ _ _ _ _ _ _ L2)) as H.
  pose proof (on_first _ _ _ _ _ _ _ _ l4 n4 L3 (ln2 _ _ _ _ _ _ _ _ L4)) as H'.
  unfold gp in H, H'. transitivity ((l1 + l2) * yb - (l3 + l4) * yb); [rewrite <- H, <- H'; ring | ring].
Qed.
Lemma at_c : c1 * xc + c0 = ds * yc.
Proof.
  pose proof (on_second xc yc xd yd xs ys l1 n1 l2 n2 (ln3 _ _ _ _ _ _ _ _ L1) L2) as H.
  pose proof (on_first _ _ _ _ _ _ _ _ l4 n4 (line_sym _ _ _ _ _ _ _ _ L3) (ln2 _ _ _ _ _ _ _ _ L4)) as H'.
  unfold gp in H, H'. transitivity ((l1 + l2) * yc - (l3 + l4) * yc); [rewrite <- H, <- H'; ring | ring].
Qed.
Lemma ds_0 : ds = 0 -> (exists u v, u <> v /\ c1 * u + c0 = 0 /\ c1 * v + c0 = 0) -> same xs xt l1 n1 l2 n2 l3 n3 l4 n4.
Proof.
  intros D (u & v & N & U & V).
  assert (Z : c1 = 0).
  { assert (E : c1 * (u - v) = 0) by (transitivity ((c1 * u + c0) - (c1 * v + c0)); [ring | rewrite U, V; ring]).
    destruct (f_integral K HK _ _ E) as [ | F]; auto. exfalso. apply N. apply (f_sub_0 K HK); auto. }
  split; [apply (f_sub_0 K HK); auto | split; [apply (f_sub_0 K HK); auto | ]]. apply (f_sub_0 K HK). rewrite Z in U. rewrite <- U. ring.
Qed.
(** C is not -S, A is not -T *)
Hypothesis NC : ~ (xc = xs /\ yc = - ys).
Hypothesis NA : ~ (xa = xt /\ ya = - yt).

Lemma uniq : forall u v : K, xa <> xb -> u * xa + v = ds * ya -> u * xb + v = ds * yb -> u = ds * l1 /\ v = ds * n1.
Proof.
  intros u v N HA HB. destruct L1 as [A1 A2 A3 E1 E2 E3]. rewrite A1 in HA. rewrite A2 in HB.
  assert (E : (u - ds * l1) * (xa - xb) = 0).
  { transitivity ((u * xa + v) - (u * xb + v) - ds * (l1 * xa + n1) + ds * (l1 * xb + n1)); [ring | rewrite HA, HB; ring]. }
  destruct (f_integral K HK _ _ E) as [F | F]; [ | exfalso; apply N; apply (f_sub_0 K HK); auto].
  assert (U : u = ds * l1) by (apply (f_sub_0 K HK); auto). split; auto.
  transitivity ((u * xa + v) - u * xa); [ring | rewrite HA, U; ring].
Qed.
Lemma c_on_l1 : xc <> xa -> xc <> xb -> yc = l1 * xc + n1 -> False.
Proof.
  intros N1 N2 H. pose proof (line_norm _ _ _ _ _ _ _ _ xc L1) as E. rewrite <- H, Oc in E.
  assert (Z : (xc - xa) * (xc - xb) * (xc - xs) = 0) by (rewrite <- E; ring).
  destruct (f_integral K HK _ _ Z) as [Z' | Z'].
  - destruct (f_integral K HK _ _ Z') as [Z'' | Z'']; [apply N1 | apply N2]; apply (f_sub_0 K HK); auto.
  - apply (f_sub_0 K HK) in Z'. apply NC. split; auto. pose proof (ln3 _ _ _ _ _ _ _ _ L1) as A3. rewrite A3, <- Z'. exact H.
Qed.
Lemma four_distinct : xa <> xb -> xc <> xa -> xc <> xb -> same xs xt l1 n1 l2 n2 l3 n3 l4 n4.
Proof.
  intros N1 N2 N3. pose proof at_a as HA. pose proof at_b as HB. pose proof at_c as HC.
  destruct (f_eq_dec K HK ds 0) as [D | D].
  - apply ds_0; auto. exists xa, xb. rewrite HA, HB, D. repeat split; auto; ring.
  - exfalso. destruct (uniq _ _ N1 HA HB) as [U V]. rewrite U, V in HC.
    apply c_on_l1; auto. apply (f_cancel K HK ds); auto. rewrite <- HC. ring.
Qed.
Lemma four_ac : xa <> xb -> xc = xa -> yc = ya -> same xs xt l1 n1 l2 n2 l3 n3 l4 n4.
Proof.
  intros N E1 E2. pose proof at_a as HA. pose proof at_b as HB.
  assert (T : 2 * ya * c1 = ds * cubic' xa).
  { pose proof L2 as M2. rewrite E1, E2 in M2. pose proof L3 as M3. rewrite E1, E2 in M3.
    pose proof (tangent_both xa ya xb yb xs ys xd yd l1 n1 l2 n2 L1 M2) as P.
    pose proof (tangent_both xa ya xb yb xt yt xd yd l3 n3 l4 n4 (line_sym _ _ _ _ _ _ _ _ M3) (line_sym _ _ _ _ _ _ _ _ L4)) as Q.
    transitivity (2 * ya * (2 * xa + g1 xs l1 l2) - 2 * ya * (2 * xa + g1 xt l3 l4)); [ring | rewrite P, Q; ring]. }
  destruct (f_eq_dec K HK ds 0) as [D | D].
  - apply ds_0; auto. exists xa, xb. rewrite HA, HB, D. repeat split; auto; ring.
  - exfalso. destruct (uniq _ _ N HA HB) as [U V]. rewrite U in T.
    assert (T' : cubic' xa = 2 * (l1 * ya)) by (apply (f_cancel K HK ds); auto; rewrite <- T; ring).
    pose proof (line_deriv _ _ _ _ _ _ _ _ L1) as P. rewrite T' in P.
    assert (Z : (xa - xb) * (xa - xs) = 0) by (rewrite <- P; ring). destruct (f_integral K HK _ _ Z) as [Z' | Z']; apply (f_sub_0 K HK) in Z'; [contradiction | ].
    apply NC. rewrite E1, E2. split; auto. destruct L1. rewrite ln6, <- Z'. exact ln4.
Qed.
Lemma four_ac' : xa <> xb -> xc = xa -> yc = - ya -> ya <> 0 -> same xs xt l1 n1 l2 n2 l3 n3 l4 n4.
Proof.
  intros N E1 E2 Y. pose proof at_a as HA. pose proof at_b as HB. pose proof at_c as HC. rewrite E1, E2, HA in HC.
  assert (D : ds = 0).
  { assert (Z : 2 * (ds * ya) = 0) by (transitivity (ds * ya - ds * - ya); [ring | rewrite <- HC; ring]). apply twice_0 in Z.
    destruct (f_integral K HK _ _ Z); auto. contradiction. }
  apply ds_0; auto. exists xa, xb. rewrite HA, HB, D. repeat split; auto; ring.
Qed.
Lemma four_ab : xa = xb -> ya = yb -> ya <> 0 -> xc <> xa -> same xs xt l1 n1 l2 n2 l3 n3 l4 n4.
Proof.
  intros E1 E2 Y N. pose proof at_a as HA. pose proof at_c as HC.
  pose proof L1 as M1. rewrite <- E1, <- E2 in M1. pose proof L3 as M3. rewrite <- E1, <- E2 in M3.
  assert (T : 2 * ya * c1 = ds * cubic' xa).
  { pose proof (tangent_first xa ya xs ys l1 n1 l2 M1) as P.
    pose proof (tangent_both xa ya xc yc xt yt xd yd l3 n3 l4 n4 M3 (line_sym _ _ _ _ _ _ _ _ L4)) as Q.
    transitivity (2 * ya * (2 * xa + g1 xs l1 l2) - 2 * ya * (2 * xa + g1 xt l3 l4)); [ring | rewrite P, Q; ring]. }
  destruct (f_eq_dec K HK ds 0) as [D | D].
  - apply ds_0; auto. exists xc, xa. rewrite HA, HC, D. repeat split; auto; ring.
  - exfalso. pose proof (line_deriv _ _ _ _ _ _ _ _ M1) as P.
    assert (P' : cubic' xa = 2 * (l1 * ya)) by (apply (f_sub_0 K HK); rewrite P; ring). rewrite P' in T.
    assert (U : c1 = ds * l1). { apply (f_cancel K HK (2 * ya)); [apply f_mul_nz; auto | rewrite T; ring]. }
    assert (V : c0 = ds * n1). { transitivity ((c1 * xa + c0) - c1 * xa); [ring | rewrite HA, U]. destruct M1. rewrite ln4 at 1. ring. }
    rewrite U, V in HC. apply c_on_l1; auto; [rewrite <- E1; auto | ]. apply (f_cancel K HK ds); auto. rewrite <- HC. ring.
Qed.
End Four.
End S.
