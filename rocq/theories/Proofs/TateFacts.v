(** Miller's functions: the cocycle relation and its consequences. *)
From Coq Require Import ZArith List Bool Lia Ring Field.
From Verif.Base Require Import Outcome Algebra Slots.
From Verif.Spec Require Import Curve Tate.
From Verif.Proofs Require Import FieldFacts SlotFacts CurveGroup LineAlgebra.

Section S.
Variable K : fld.
Hypothesis HK : fld_laws K.
Add Field KFtf : (fl_field K HK).
Local Notation "0" := f0. Local Notation "1" := f1.
Local Notation "x + y" := (fadd x y). Local Notation "x - y" := (fsub x y). Local Notation "x * y" := (fmul x y). Local Notation "- x" := (fopp x).
Local Notation "x / y" := (fdiv x y).
Variables (a b : K).
Local Notation on := (on_curve K a b).
Local Notation add := (padd K a).
Local Notation step := (miller_step K a).
Local Notation line := (line K a b).
Hypothesis HE : elliptic K a b.
Let C2 : f2 K <> 0 := proj1 HE.
Let SM := proj2 HE.
Lemma assoc : forall A B C, on A -> on B -> on C -> add (add A B) C = add A (add B C).
Proof. apply (add_assoc K HK a b C2 SM). Qed.
Lemma comm : forall A B, add A B = add B A.
Proof. apply (add_comm K HK a). Qed.
Lemma onadd : forall A B, on A -> on B -> on (add A B).
Proof. apply (add_on K HK a b C2). Qed.

Lemma finite_sum : forall x1 y1 x2 y2 S, on (Some (x1, y1)) -> on (Some (x2, y2)) -> add (Some (x1, y1)) (Some (x2, y2)) = Some S ->
  x1 <> x2 \/ (x1 = x2 /\ y1 = y2 /\ y1 <> 0).
Proof.
  intros x1 y1 x2 y2 S H1 H2 E. cbn [padd] in E. destruct (f_eq_dec K HK x1 x2) as [<- | N]; [right | left; auto].
  rewrite (feqb_refl K HK) in E. cbn [negb] in E. destruct (feqb y1 y2 && negb (feqb y1 0)) eqn:Q; [ | discriminate].
  apply andb_prop in Q. destruct Q as [Q1 Q2]. apply (feqb_eq K HK) in Q1. split; [auto | split; [auto | ]].
  intros ->. rewrite (feqb_refl K HK) in Q2. discriminate.
Qed.
Lemma infinite_sum : forall x1 y1 x2 y2, on (Some (x1, y1)) -> on (Some (x2, y2)) -> add (Some (x1, y1)) (Some (x2, y2)) = None ->
  x2 = x1 /\ y2 = - y1.
Proof.
  intros x1 y1 x2 y2 H1 H2 E. cbn [padd] in E. destruct (f_eq_dec K HK x1 x2) as [<- | N].
  - split; auto. destruct (same_x K HK a b x1 y1 y2 H1 H2) as [-> | ->]; [ | ring].
    rewrite !(feqb_refl K HK) in E. cbn [negb andb] in E. destruct (f_eq_dec K HK y2 0) as [-> | N]; [ring | ]. rewrite (feqb_false K HK y2 0 N) in E. discriminate.
  - rewrite (feqb_false K HK _ _ N) in E. discriminate.
Qed.

Local Notation lam := (slope K a).
Lemma line_ex : forall x1 y1 x2 y2 x3 y3, on (Some (x1, y1)) -> on (Some (x2, y2)) -> add (Some (x1, y1)) (Some (x2, y2)) = Some (x3, y3) ->
  line x1 y1 x2 y2 x3 y3 (lam x1 y1 x2 y2) (y1 - lam x1 y1 x2 y2 * x1).
Proof.
  intros x1 y1 x2 y2 x3 y3 H1 H2 E. cbn [padd on_curve] in *. unfold rhs, slope in *.
  destruct (f_eq_dec K HK x1 x2) as [<- | N].
  - rewrite (feqb_refl K HK) in *. cbn [negb] in E. destruct (feqb y1 y2 && negb (feqb y1 0)) eqn:Q; [ | discriminate].
    apply andb_prop in Q. destruct Q as [Q1 Q2]. apply (feqb_eq K HK) in Q1. subst y2.
    assert (Y : y1 <> 0) by (intros ->; rewrite (feqb_refl K HK) in Q2; discriminate).
    set (l := (f3 K * (x1 * x1) + a) / (f2 K * y1)) in *.
    assert (L : l * (f2 K * y1) = f3 K * (x1 * x1) + a) by (unfold l; set (t := f2 K) in *; field; split; auto).
    clearbody l. unfold third in E. injection E as <- <-.
    assert (Ha : a = l * (f2 K * y1) - f3 K * (x1 * x1)) by (rewrite L; ring).
    assert (Hb : b = y1 * y1 - x1 * x1 * x1 - a * x1) by (rewrite H1; ring).
    unfold f2, f3 in *. constructor; try (rewrite Hb); try (rewrite Ha); ring.
  - rewrite (feqb_false K HK _ _ N) in *. cbn [negb] in E. unfold third in E.
    assert (D : x2 - x1 <> 0) by (intro F; apply N; symmetry; apply (f_sub_0 K HK); auto).
    set (l := (y2 - y1) / (x2 - x1)) in *. assert (L : l * (x2 - x1) = y2 - y1) by (unfold l; field; auto). clearbody l. injection E as <- <-.
    assert (Y2 : y2 = y1 + l * (x2 - x1)) by (rewrite L; ring).
    assert (Ha : a = l * (y1 + y2) - (x1 * x1 + x1 * x2 + x2 * x2)).
    { apply (f_cancel K HK (x2 - x1)); auto. transitivity ((x2 * x2 * x2 + a * x2 + b) - (x1 * x1 * x1 + a * x1 + b) - (x2 - x1) * (x1 * x1 + x1 * x2 + x2 * x2)); [ring | ].
      rewrite <- H1, <- H2, Y2. ring. }
    assert (Hb : b = y1 * y1 - x1 * x1 * x1 - a * x1) by (rewrite H1; ring).
    constructor; try (rewrite Hb); try (rewrite Ha); try (rewrite Y2); ring.
Qed.

Lemma line_neg : forall x1 y1 x2 y2 x3 y3 l n, line x1 y1 x2 y2 x3 y3 l n -> line x1 (- y1) x2 (- y2) x3 (- y3) (- l) (- n).
Proof.
  intros x1 y1 x2 y2 x3 y3 l n [A1 A2 A3 E1 E2 E3]. constructor.
  - rewrite A1. ring. - rewrite A2. ring. - rewrite A3. ring. - rewrite <- E1. ring. - rewrite <- E2. ring. - rewrite <- E3. ring.
Qed.
Lemma line_rot : forall x1 y1 x2 y2 x3 y3 l n, line x1 y1 x2 y2 x3 y3 l n -> line x1 y1 x3 (- y3) x2 (- y2) l n.
Proof.
  intros x1 y1 x2 y2 x3 y3 l n [A1 A2 A3 E1 E2 E3]. constructor; auto.
  - rewrite A2. ring. - rewrite E1. ring. - rewrite E2. ring. - rewrite E3. ring.
Qed.
Lemma line_sym' : forall x1 y1 x2 y2 x3 y3 l n, line x1 y1 x2 y2 x3 y3 l n -> line x2 y2 x1 y1 x3 y3 l n.
Proof. apply (line_sym K HK a b). Qed.
Lemma line_unique : forall x1 y1 x2 y2 x3 y3 l n x3' y3' l' n', (x1 <> x2 \/ (x1 = x2 /\ y1 = y2 /\ y1 <> 0)) ->
  line x1 y1 x2 y2 x3 y3 l n -> line x1 y1 x2 y2 x3' y3' l' n' -> l = l' /\ n = n'.
Proof.
  intros x1 y1 x2 y2 x3 y3 l n x3' y3' l' n' G L L'.
  assert (E : l = l').
  { destruct G as [N | (<- & <- & Y)].
    - destruct L as [A1 A2 _ _ _ _], L' as [B1 B2 _ _ _ _].
      assert (Z : (l - l') * (x1 - x2) = 0) by (transitivity ((l * x1 + n) - (l * x2 + n) - (l' * x1 + n') + (l' * x2 + n')); [ring | rewrite <- A1, <- A2, <- B1, <- B2; ring]).
      destruct (f_integral K HK _ _ Z) as [F | F]; apply (f_sub_0 K HK) in F; auto. contradiction.
    - pose proof (line_deriv K HK a b _ _ _ _ _ _ _ _ L) as D. pose proof (line_deriv K HK a b _ _ _ _ _ _ _ _ L') as D'.
      apply (f_cancel K HK (f2 K * y1)); [apply f_mul_nz; auto | ]. unfold f2.
      transitivity (cubic' K a x1 - (x1 - x1) * (x1 - x3)); [rewrite <- D; ring | ].
      transitivity (cubic' K a x1 - (x1 - x1) * (x1 - x3')); [ring | rewrite <- D'; ring]. }
  subst l'. split; auto. destruct L as [A1 _ _ _ _ _], L' as [B1 _ _ _ _ _]. rewrite A1 in B1 at 1.
  transitivity (l * x1 + n - l * x1); [ring | rewrite B1; ring].
Qed.

(** * Values of the steps *)
Lemma step_line : forall x1 y1 x2 y2 x3 y3 l n x y, on (Some (x1, y1)) -> on (Some (x2, y2)) -> add (Some (x1, y1)) (Some (x2, y2)) = Some (x3, y3) ->
  line x1 y1 x2 y2 x3 y3 l n -> step (Some (x1, y1)) (Some (x2, y2)) (Some (x, y)) = (y - l * x - n) / (x - x3).
Proof.
  intros x1 y1 x2 y2 x3 y3 l n x y H1 H2 E L. unfold miller_step. rewrite E.
  pose proof (line_ex _ _ _ _ _ _ H1 H2 E) as L'. destruct (line_unique _ _ _ _ _ _ _ _ _ _ _ _ (finite_sum _ _ _ _ _ H1 H2 E) L' L) as [<- <-].
  f_equal. ring.
Qed.
Lemma step_comm : forall A B R, on A -> on B -> step A B R = step B A R.
Proof.
  intros [[x1 y1] | ] [[x2 y2] | ] [[x y] | ] H1 H2; try reflexivity.
  destruct (add (Some (x1, y1)) (Some (x2, y2))) as [[x3 y3] | ] eqn:E.
  - pose proof (line_ex _ _ _ _ _ _ H1 H2 E) as L. rewrite (step_line _ _ _ _ _ _ _ _ x y H1 H2 E L).
    rewrite (step_line _ _ _ _ x3 y3 _ _ x y H2 H1 (eq_trans (comm _ _) E) (line_sym' _ _ _ _ _ _ _ _ L)). reflexivity.
  - unfold miller_step. rewrite (comm (Some (x2, y2))), E. destruct (infinite_sum _ _ _ _ H1 H2 E) as [-> _]. reflexivity.
Qed.

Definition offx (P R : point K) : Prop := match P, R with Some (x, _), Some (x', _) => x <> x' | _, _ => True end.
Lemma offx_of : forall P R, on P -> on R -> P <> R -> P <> pneg R -> offx P R.
Proof.
  intros [[x y] | ] [[x' y'] | ] H1 H2 N1 N2; cbn [offx]; auto. intros <-.
  destruct (same_x K HK a b x y y' H1 H2) as [-> | ->]; [apply N1 | apply N2]; reflexivity.
Qed.

(** f(R) f(-R) *)
Lemma step_norm : forall x1 y1 x2 y2 x3 y3 x y, on (Some (x1, y1)) -> on (Some (x2, y2)) -> on (Some (x, y)) ->
  add (Some (x1, y1)) (Some (x2, y2)) = Some (x3, y3) -> x <> x3 ->
  step (Some (x1, y1)) (Some (x2, y2)) (Some (x, y)) * step (Some (x1, y1)) (Some (x2, y2)) (Some (x, - y)) = - ((x - x1) * (x - x2) / (x - x3)).
Proof.
  intros x1 y1 x2 y2 x3 y3 x y H1 H2 H E N. pose proof (line_ex _ _ _ _ _ _ H1 H2 E) as L.
  rewrite !(step_line _ _ _ _ _ _ _ _ _ _ H1 H2 E L). pose proof (line_norm K HK a b _ _ _ _ _ _ _ _ x L) as Q.
  set (l := lam x1 y1 x2 y2) in *. set (n := y1 - l * x1) in *. clearbody n. clearbody l.
  assert (D : x - x3 <> 0) by (intro F; apply N; apply (f_sub_0 K HK); auto).
  assert (M : (y - l * x - n) * (- y - l * x - n) = - ((x - x1) * (x - x2) * (x - x3))).
  { rewrite <- Q. change (cubic K a b x) with (rhs K a b x). cbn [on_curve] in H. rewrite <- H. ring. }
  transitivity ((y - l * x - n) * (- y - l * x - n) / ((x - x3) * (x - x3))); [field; auto | ]. rewrite M. field. auto.
Qed.
Lemma step_nz : forall A B x y, on A -> on B -> on (Some (x, y)) -> offx A (Some (x, y)) -> offx B (Some (x, y)) -> offx (add A B) (Some (x, y)) ->
  step A B (Some (x, y)) <> 0.
Proof.
  intros [[x1 y1] | ] [[x2 y2] | ] x y H1 H2 H O1 O2 O3; try (cbn [miller_step]; apply (f_1_neq_0 K HK)). cbn [offx] in O1, O2.
  destruct (add (Some (x1, y1)) (Some (x2, y2))) as [[x3 y3] | ] eqn:E; cbn [offx] in O3.
  - intros Z. pose proof (step_norm _ _ _ _ _ _ x y H1 H2 H E ltac:(auto)) as Q. rewrite Z in Q.
    assert (D : x - x3 <> 0) by (intro F; apply O3; symmetry; apply (f_sub_0 K HK); auto).
    assert (W : (x - x1) * (x - x2) = 0).
    { transitivity (- (- ((x - x1) * (x - x2) / (x - x3))) * (x - x3)); [field; auto | rewrite <- Q; ring]. }
    destruct (f_integral K HK _ _ W) as [F | F]; apply (f_sub_0 K HK) in F; auto.
  - unfold miller_step. rewrite E. intros F. apply (f_sub_0 K HK) in F. auto.
Qed.

(** ** The cocycle relation *)
Lemma step_cocycle : forall A B C R, on A -> on B -> on C -> on R ->
  offx (add A B) R -> offx (add B C) R -> offx (add A (add B C)) R ->
  step A B R * step (add A B) C R = step B C R * step A (add B C) R.
Proof.
  intros A B C R HA HB HC HR O1 O2 O3.
  destruct R as [[x y] | ]. 2:{ unfold miller_step. destruct A as [[? ?] | ], B as [[? ?] | ], C as [[? ?] | ]; cbn; try ring; repeat match goal with |- context [match ?t with _ => _ end] => destruct t end; ring. }
  destruct A as [[xa ya] | ]. 2:{ rewrite !(add_0_l K a). unfold miller_step at 1 4. ring. }
  destruct B as [[xb yb] | ]. 2:{ rewrite (add_0_l K a), (add_0_r K a). unfold miller_step at 1 3. ring. }
  destruct C as [[xc yc] | ].
  2:{ rewrite (add_0_r K a). unfold miller_step at 2 3. destruct (add (Some (xa, ya)) (Some (xb, yb))) as [[? ?] | ]; ring. }
  pose proof (assoc _ _ _ HA HB HC) as AS. pose proof (onadd _ _ HA HB) as HS. pose proof (onadd _ _ HB HC) as HT.
  destruct (add (Some (xa, ya)) (Some (xb, yb))) as [[xs ys] | ] eqn:ES; destruct (add (Some (xb, yb)) (Some (xc, yc))) as [[xt yt] | ] eqn:ET.
  - destruct (add (Some (xa, ya)) (Some (xt, yt))) as [[xd yd] | ] eqn:ED.
    + pose proof (line_ex _ _ _ _ _ _ HA HB ES) as L1. pose proof (line_ex _ _ _ _ _ _ HS HC AS) as L2.
      pose proof (line_ex _ _ _ _ _ _ HB HC ET) as L3. pose proof (line_ex _ _ _ _ _ _ HA HT ED) as L4.
      rewrite (step_line _ _ _ _ _ _ _ _ x y HA HB ES L1), (step_line _ _ _ _ _ _ _ _ x y HS HC AS L2),
        (step_line _ _ _ _ _ _ _ _ x y HB HC ET L3), (step_line _ _ _ _ _ _ _ _ x y HA HT ED L4).
      cbn [offx] in O1, O2, O3.
      set (l1 := lam xa ya xb yb) in *. set (n1 := ya - l1 * xa) in *. set (l2 := lam xs ys xc yc) in *. set (n2 := ys - l2 * xs) in *.
      set (l3 := lam xb yb xc yc) in *. set (n3 := yb - l3 * xb) in *. set (l4 := lam xa ya xt yt) in *. set (n4 := ya - l4 * xa) in *.
      clearbody n1 n2 n3 n4. clearbody l1 l2 l3 l4.
      pose proof (finite_sum _ _ _ _ _ HA HB ES) as F1. pose proof (finite_sum _ _ _ _ _ HB HC ET) as F3.
      assert (NC : ~ (xc = xs /\ yc = - ys)).
      { intros [-> ->]. change (Some (xs, - ys)) with (pneg (Some (xs, ys))) in AS. rewrite (add_neg_r K HK a C2) in AS. discriminate. }
      assert (NA : ~ (xa = xt /\ ya = - yt)).
      { intros [-> ->]. rewrite comm in ED. change (Some (xt, - yt)) with (pneg (Some (xt, yt))) in ED. rewrite (add_neg_r K HK a C2) in ED. discriminate. }
      assert (SAME : same K a xs xt l1 n1 l2 n2 l3 n3 l4 n4).
      { destruct F1 as [N1 | (E1 & E1' & Y1)].
        - destruct F3 as [N3 | (E3 & E3' & Y3)].
          + destruct (f_eq_dec K HK xc xa) as [EC | NCA].
            * rewrite EC in HC. destruct (same_x K HK a b xa yc ya HC HA) as [EY | EY].
              -- apply (four_ac K HK a b xa ya xb yb xc yc xs ys xt yt xd yd); auto.
              -- destruct (f_eq_dec K HK ya 0) as [Z | NZ].
                 ++ apply (four_ac K HK a b xa ya xb yb xc yc xs ys xt yt xd yd); auto. rewrite EY, Z. ring.
                 ++ apply (four_ac' K HK a b) with (xa := xa) (ya := ya) (xb := xb) (yb := yb) (xc := xc) (yc := yc) (ys := ys) (yt := yt) (xd := xd) (yd := yd); auto.
            * apply (four_distinct K HK a b xa ya xb yb xc yc xs ys xt yt xd yd); auto.
          + assert (same K a xt xs l3 n3 l4 n4 l1 n1 l2 n2) as (Q1 & Q2 & Q3); [ | split; auto].
            apply (four_ab K HK a b) with (xa := xc) (ya := yc) (xb := xb) (yb := yb) (xc := xa) (yc := ya) (ys := yt) (yt := ys) (xd := xd) (yd := yd); auto; try (apply line_sym'; assumption); try congruence.
        - destruct (f_eq_dec K HK xc xa) as [EC | NCA].
          + destruct F3 as [N3 | (E3 & E3' & Y3)]; [congruence | ]. subst xb yb xc yc.
            rewrite ES in ET. injection ET as <- <-.
            destruct (line_unique _ _ _ _ _ _ _ _ _ _ _ _ (or_intror (conj eq_refl (conj eq_refl Y1))) L1 L3) as [<- <-].
            destruct (line_unique _ _ _ _ _ _ _ _ _ _ _ _ (finite_sum _ _ _ _ _ HS HA AS) L2 (line_sym' _ _ _ _ _ _ _ _ L4)) as [<- <-].
            repeat split.
          + apply (four_ab K HK a b) with (xa := xa) (ya := ya) (xb := xb) (yb := yb) (xc := xc) (yc := yc) (ys := ys) (yt := yt) (xd := xd) (yd := yd); auto. }
      destruct SAME as (Q1 & Q2 & Q3).
      assert (D1 : x - xs <> 0) by (intro F; apply O1; symmetry; apply (f_sub_0 K HK); auto).
      assert (D2 : x - xt <> 0) by (intro F; apply O2; symmetry; apply (f_sub_0 K HK); auto).
      assert (D3 : x - xd <> 0) by (intro F; apply O3; symmetry; apply (f_sub_0 K HK); auto).
      pose proof (two_lines K HK a b xs l1 n1 l2 n2 ys x y (ln3 _ _ _ _ _ _ _ _ _ _ _ L1) (ln1 _ _ _ _ _ _ _ _ _ _ _ L2) HS HR) as P1.
      pose proof (two_lines K HK a b xt l3 n3 l4 n4 yt x y (ln3 _ _ _ _ _ _ _ _ _ _ _ L3) (ln2 _ _ _ _ _ _ _ _ _ _ _ L4) HT HR) as P2.
      transitivity ((y - l1 * x - n1) * (y - l2 * x - n2) / ((x - xs) * (x - xd))); [field; auto | ].
      transitivity ((y - l3 * x - n3) * (y - l4 * x - n4) / ((x - xt) * (x - xd))); [ | field; auto].
      rewrite P1, P2. unfold gp. rewrite Q1, Q2, Q3. field. auto.
    + (* A + B + C = O *)
      pose proof (line_ex _ _ _ _ _ _ HA HB ES) as L1. pose proof (line_ex _ _ _ _ _ _ HB HC ET) as L3.
      destruct (infinite_sum _ _ _ _ HS HC AS) as [-> ->]. destruct (infinite_sum _ _ _ _ HA HT ED) as [-> ->].
      rewrite (step_line _ _ _ _ _ _ _ _ x y HA HB ES L1), (step_line _ _ _ _ _ _ _ _ x y HB HC ET L3).
      unfold miller_step. rewrite AS, ED. cbn [offx] in O1, O2.
      assert (D1 : x - xs <> 0) by (intro F; apply O1; symmetry; apply (f_sub_0 K HK); auto).
      assert (D2 : x - xa <> 0) by (intro F; apply O2; symmetry; apply (f_sub_0 K HK); auto).
      destruct (line_unique _ _ _ _ _ _ _ _ _ _ _ _ (finite_sum _ _ _ _ _ HB HC ET) (line_rot _ _ _ _ _ _ _ _ (line_sym' _ _ _ _ _ _ _ _ L1)) L3) as [<- <-].
      field. auto.
  - (* B + C = O *)
    destruct (infinite_sum _ _ _ _ HB HC ET) as [-> ->]. rewrite (add_0_r K a) in AS.
    pose proof (line_ex _ _ _ _ _ _ HA HB ES) as L1. pose proof (line_ex _ _ _ _ _ _ HS HC AS) as L2.
    rewrite (step_line _ _ _ _ _ _ _ _ x y HA HB ES L1), (step_line _ _ _ _ _ _ _ _ x y HS HC AS L2).
    unfold miller_step. rewrite ET. rewrite (add_0_r K a) in O3. cbn [offx] in O1, O3.
    assert (D1 : x - xs <> 0) by (intro F; apply O1; symmetry; apply (f_sub_0 K HK); auto).
    assert (D3 : x - xa <> 0) by (intro F; apply O3; symmetry; apply (f_sub_0 K HK); auto).
    pose proof (line_neg _ _ _ _ _ _ _ _ (line_rot _ _ _ _ _ _ _ _ (line_sym' _ _ _ _ _ _ _ _ L1))) as M.
    replace (- - ys) with ys in M by ring. replace (- - ya) with ya in M by ring.
    destruct (line_unique _ _ _ _ _ _ _ _ _ _ _ _ (finite_sum _ _ _ _ _ HS HC AS) (line_sym' _ _ _ _ _ _ _ _ M) L2) as [E1 E2].
    rewrite <- E2, <- E1. pose proof (line_norm K HK a b _ _ _ _ _ _ _ _ x L1) as Q. cbn [on_curve] in HR.
    change (cubic K a b x) with (rhs K a b x) in Q. rewrite <- HR in Q.
    set (l := lam xa ya xb yb) in *. set (n := ya - l * xa) in *. clearbody n. clearbody l.
    transitivity ((y * y - (l * x + n) * (l * x + n)) / ((x - xs) * (x - xa))); [field; auto | ]. rewrite Q. field. auto.
  - (* A + B = O *)
    destruct (infinite_sum _ _ _ _ HA HB ES) as [-> ->]. rewrite (add_0_l K a) in AS. symmetry in AS.
    pose proof (line_ex _ _ _ _ _ _ HB HC ET) as L3. pose proof (line_ex _ _ _ _ _ _ HA HT AS) as L4.
    rewrite (step_line _ _ _ _ _ _ _ _ x y HB HC ET L3), (step_line _ _ _ _ _ _ _ _ x y HA HT AS L4).
    unfold miller_step. rewrite ES. rewrite AS in O3. cbn [offx] in O2, O3.
    assert (D2 : x - xt <> 0) by (intro F; apply O2; symmetry; apply (f_sub_0 K HK); auto).
    assert (D3 : x - xc <> 0) by (intro F; apply O3; symmetry; apply (f_sub_0 K HK); auto).
    pose proof (line_neg _ _ _ _ _ _ _ _ (line_rot _ _ _ _ _ _ _ _ L3)) as M.
    replace (- - ya) with ya in M by ring. replace (- - yt) with yt in M by ring. replace (- - yc) with yc in M by ring.
    destruct (line_unique _ _ _ _ _ _ _ _ _ _ _ _ (finite_sum _ _ _ _ _ HA HT AS) M L4) as [E1 E2].
    rewrite <- E2, <- E1. pose proof (line_norm K HK a b _ _ _ _ _ _ _ _ x L3) as Q. cbn [on_curve] in HR.
    change (cubic K a b x) with (rhs K a b x) in Q. rewrite <- HR in Q.
    set (l := lam xa (- ya) xc yc) in *. set (n := - ya - l * xa) in *. clearbody n. clearbody l.
    transitivity ((y * y - (l * x + n) * (l * x + n)) / ((x - xt) * (x - xc))); [ | field; auto]. rewrite Q. field. auto.
  - destruct (infinite_sum _ _ _ _ HA HB ES) as [-> ->]. destruct (infinite_sum _ _ _ _ HB HC ET) as [-> ->].
    unfold miller_step. rewrite ES, ET. reflexivity.
Qed.

(** ** The symmetry of the three arguments *)
Lemma step_turn : forall A B C, on A -> on B -> on C -> A <> None -> B <> None -> C <> None -> add A B <> None -> add A C <> None ->
  offx (add A B) C -> offx (add A C) B -> step A B (pneg C) = step A C (pneg B).
Proof.
  intros [[xa ya] | ] [[xb yb] | ] [[xc yc] | ] HA HB HC NA NB NC N1 N2 O1 O2; try congruence.
  destruct (add (Some (xa, ya)) (Some (xb, yb))) as [[xs ys] | ] eqn:ES; [ | congruence].
  destruct (add (Some (xa, ya)) (Some (xc, yc))) as [[xu yu] | ] eqn:EU; [ | congruence]. cbn [offx pneg] in *.
  pose proof (line_ex _ _ _ _ _ _ HA HB ES) as L. pose proof (line_ex _ _ _ _ _ _ HA HC EU) as M.
  rewrite (step_line _ _ _ _ _ _ _ _ xc (- yc) HA HB ES L), (step_line _ _ _ _ _ _ _ _ xb (- yb) HA HC EU M).
  pose proof (line_deriv K HK a b _ _ _ _ _ _ _ _ L) as DL. pose proof (line_deriv K HK a b _ _ _ _ _ _ _ _ M) as DM.
  set (l := lam xa ya xb yb) in *. set (n := ya - l * xa) in *. clearbody n. clearbody l.
  set (m := lam xa ya xc yc) in *. set (k := ya - m * xa) in *. clearbody k. clearbody m.
  assert (D1 : xc - xs <> 0) by (intro F; apply O1; symmetry; apply (f_sub_0 K HK); auto).
  assert (D2 : xb - xu <> 0) by (intro F; apply O2; symmetry; apply (f_sub_0 K HK); auto).
  destruct L as [A1 A2 A3 E1 E2 E3], M as [B1 B2 B3 G1 G2 G3].
  assert (XS : xs = l * l - xa - xb) by (rewrite E1; ring). assert (XU : xu = m * m - xa - xc) by (rewrite G1; ring).
  assert (Nn : n = ya - l * xa) by (rewrite A1 at 1; ring). assert (Nk : k = ya - m * xa) by (rewrite B1 at 1; ring).
  assert (Q : (1 + 1) * ya * (m - l) = (xa - xb) * (xa - xs) - (xa - xc) * (xa - xu)).
  { rewrite <- DL, <- DM. ring. }
  assert (P : (- yc - l * xc - n) * (xb - xu) = (- yb - m * xb - k) * (xc - xs)).
  { rewrite B2, A2. apply (f_sub_0 K HK).
    transitivity ((l + m) * ((1 + 1) * ya * (m - l) - ((xa - xb) * (xa - xs) - (xa - xc) * (xa - xu)))); [ | rewrite Q; ring].
    rewrite XS, XU, Nn, Nk. ring. }
  transitivity ((- yc - l * xc - n) * (xb - xu) / ((xc - xs) * (xb - xu))); [field; auto | ]. rewrite P. field. auto.
Qed.
End S.
