(** Polynomial reasoning over a field (for the nsatz tactic of Coq's standard
    library), and two addition identities. *)
From Coq Require Import ZArith List Bool Lia Ring Field NsatzTactic.
From Verif.Base Require Import Outcome Algebra Slots.
From Verif.Proofs Require Import FieldFacts SlotFacts.

Section S.
Variable K : fld.
Hypothesis HK : fld_laws K.
Add Field KFc0 : (fl_field K HK).
Instance Kops : @Ring_ops K f0 f1 fadd fmul fsub fopp eq := {}.
Instance Kring : @Ring K f0 f1 fadd fmul fsub fopp eq Kops.
Proof.
  constructor; intros; try (apply eq_equivalence);
    unfold equality, eq_notation, addition, add_notation, multiplication, mul_notation, zero, zero_notation, one, one_notation,
      opposite, opp_notation, subtraction, sub_notation; try ring; repeat intro; subst; reflexivity.
Qed.
Instance Kcring : @Cring K f0 f1 fadd fmul fsub fopp eq Kops Kring.
Proof. repeat intro. unfold equality, eq_notation, multiplication, mul_notation. ring. Qed.
Instance Kid : @Integral_domain K f0 f1 fadd fmul fsub fopp eq Kops Kring Kcring.
Proof.
  constructor.
  - intros. apply (f_integral K HK) in H. auto.
  - intro H. apply (f_1_neq_0 K HK). exact H.
Qed.
Local Notation "0" := f0. Local Notation "1" := f1.
Local Notation "x + y" := (fadd x y). Local Notation "x - y" := (fsub x y). Local Notation "x * y" := (fmul x y). Local Notation "- x" := (fopp x).

Lemma phi_fofz : forall z : Z, Ncring_initial.gen_phiZ (Ro := Kops) z = fofz z.
Proof.
  assert (P : forall p, Ncring_initial.gen_phiPOS1 (Ro := Kops) p = Pos.iter_op fadd p (1 : K)).
  { assert (D : forall p (x : K), Pos.iter_op fadd p (x + x) = Pos.iter_op fadd p x + Pos.iter_op fadd p x).
    { induction p using Pos.peano_ind; intro x; [reflexivity | ]. rewrite !(iter_succ K HK), IHp. ring. }
    induction p; cbn [Ncring_initial.gen_phiPOS1 Pos.iter_op]; [ | | reflexivity].
    - rewrite IHp, D. unfold addition, add_notation, multiplication, mul_notation, one, one_notation. ring.
    - rewrite IHp, D. unfold addition, add_notation, multiplication, mul_notation, one, one_notation. ring. }
  intro z. destruct z; [reflexivity | | ].
  - cbn [Ncring_initial.gen_phiZ fofz]. rewrite <- P. symmetry. apply (Ncring_initial.same_gen (H := Kring)).
  - cbn [Ncring_initial.gen_phiZ fofz]. rewrite <- P. unfold opposite, opp_notation. f_equal. symmetry. apply (Ncring_initial.same_gen (H := Kring)).
Qed.
Hypothesis C2 : (1 + 1 : K) <> 0.
Lemma fofz_2 : forall n : nat, fofz (2 ^ Z.of_nat n) <> (0 : K).
Proof.
  induction n.
  - simpl. apply (f_1_neq_0 K HK).
  - rewrite Nat2Z.inj_succ, Z.pow_succ_r by lia. rewrite (fofz_mul K HK). apply f_mul_nz; auto.
Qed.
Lemma phi_nz : forall z l, Z.eqb (Z.modulo (2 ^ 60) z) 0 = true ->
  ~ (interpret3 (Ro := Kops) (PEc z) l == zero).
Proof.
  intros z l H E. apply Z.eqb_eq in H.
  assert (E' : (fofz z : K) = 0) by (rewrite <- phi_fofz; exact E).
  destruct (Z.eq_dec z 0%Z) as [-> | N]; [discriminate H | ].
  apply (fofz_2 60). change (Z.of_nat 60) with 60%Z.
  apply Z.mod_divide in H; auto. destruct H as [m H]. rewrite H, (fofz_mul K HK), E'. ring.
Qed.

Lemma ddcc : forall x1 y1 l1 X1 Y1 l2 X2 Y2 l3 X3 Y3 l4 X4 Y4 a e2 e3 e4 : K,
  a = l1 * (y1+y1) - (1+1+1)*(x1*x1) ->
  X1 = l1*l1-(x1+x1) -> Y1 = (x1-X1)*l1-y1 ->
  e2 = Y1 + Y1 -> e3 = X1-x1 -> e4 = (Y1-y1)*(Y1-y1) - (x1+x1+X1)*(e3*e3) ->
  l2 * e2 = (1+1+1)*(X1*X1)+a ->
  X2 = l2*l2-(X1+X1) -> Y2 = (X1-X2)*l2-Y1 ->
  l3 * e3 = Y1-y1 ->
  X3 = l3*l3-x1-X1 -> Y3 = (x1-X3)*l3-y1 ->
  l4 * e4 = - l3 * e4 - (y1+y1)*(e3*e3) ->
  X4 = l4*l4-x1-X3 -> Y4 = (x1-X4)*l4-y1 ->
  e2 <> 0 -> e3 <> 0 -> e4 <> 0 -> X2 = X4 /\ Y2 = Y4.
Proof.
  intros x1 y1 l1 X1 Y1 l2 X2 Y2 l3 X3 Y3 l4 X4 Y4 a e2 e3 e4 Ha HX1 HY1 D2 D3 D4 L2 HX2 HY2 L3 HX3 HY3 L4 HX4 HY4 N2 N3 N4.
  assert (EX : X2 = X4).
  - apply (f_cancel K HK (e2*e2*(e3*e3)*(e4*e4))). repeat apply f_mul_nz; auto.
    transitivity ((l2*e2)*(l2*e2)*(e3*e3)*(e4*e4) - (X1+X1)*(e2*e2*(e3*e3)*(e4*e4))). rewrite HX2. ring.
    transitivity ((l4*e4*e3)*(l4*e4*e3)*(e2*e2) - ((l3*e3)*(l3*e3) - X1 *(e3*e3))*(e2*e2)*(e4*e4)). 2:{ rewrite HX4, HX3. ring. }
    rewrite L2, L4.
    replace ((- l3 * e4 - (y1+y1)*(e3*e3))*e3) with (- (l3*e3) * e4 - (y1+y1)*(e3*e3)*e3) by ring.
    rewrite L3. rewrite D4, D3, D2, HY1, HX1, Ha. ring.
  - split; auto. 
    apply (f_cancel K HK (e2*e3*e4)). repeat apply f_mul_nz; auto.
    rewrite HY4, <- EX, HY2.
    transitivity ((X1-X2)*(l2*e2)*(e3*e4) - Y1*(e2*e3*e4)). ring.
    transitivity ((x1-X2)*((l4*e4)*e3)*e2 - y1*(e2*e3*e4)). 2: ring.
    apply (f_cancel K HK (e2*e2)). repeat apply f_mul_nz; auto.
    rewrite L2, L4.
    replace ((- l3 * e4 - (y1+y1)*(e3*e3))*e3) with (- (l3*e3) * e4 - (y1+y1)*(e3*e3)*e3) by ring.
    rewrite L3.
    assert (P : e2*e2*X2 = (l2*e2)*(l2*e2)-(X1+X1)*(e2*e2)) by (rewrite HX2; ring).
    rewrite L2 in P.
    transitivity ((e2*e2*X1-e2*e2*X2)*((1+1+1)*(X1*X1)+a)*(e3*e4) - e2*e2*Y1*(e2*e3*e4)). ring.
    transitivity ((e2*e2*x1-e2*e2*X2)*( - (Y1-y1) * e4 - (y1+y1)*(e3*e3)*e3)*e2 - e2*e2*y1*(e2*e3*e4)). 2: ring.
    rewrite P.
    rewrite D4, D3, D2, HY1, HX1, Ha. ring.
Qed.

Lemma cdcc : forall x1 y1 x2 y2 l1 X1 Y1 l2 X2 Y2 l3 X3 Y3 l4 X4 Y4 a e2 e3 e4 : K,
  y2 = l1 * (x2 - x1) + y1 ->
  a = l1*(y1+y2) - (x1*x1+x1*x2+x2*x2) ->
  X1 = l1*l1-x1-x2 -> Y1 = (x1-X1)*l1-y1 ->
  e2 = Y1 + Y1 -> e3 = X1-x2 -> e4 = (Y1-y2)*(Y1-y2) - (x1+x2+X1)*(e3*e3) ->
  l2 * e2 = (1+1+1)*(X1*X1)+a ->
  X2 = l2*l2-(X1+X1) -> Y2 = (X1-X2)*l2-Y1 ->
  l3 * e3 = Y1-y2 ->
  X3 = l3*l3-x2-X1 -> Y3 = (x2-X3)*l3-y2 ->
  l4 * e4 = (Y3 - y1) * (e3 * e3) ->
  X4 = l4*l4-x1-X3 -> Y4 = (x1-X4)*l4-y1 ->
  e2 <> 0 -> e3 <> 0 -> e4 <> 0 -> X2 = X4 /\ Y2 = Y4.
Proof.
  intros x1 y1 x2 y2 l1 X1 Y1 l2 X2 Y2 l3 X3 Y3 l4 X4 Y4 a e2 e3 e4 Hy Ha HX1 HY1 D2 D3 D4 L2 HX2 HY2 L3 HX3 HY3 L4 HX4 HY4 N2 N3 N4.
  assert (Q : e3*(l4 * e4) = ((x2+x2+X1)*(e3*e3) - (l3*e3)*(l3*e3))*(l3*e3) - (y2+y1)*(e3*e3*e3)).
  { rewrite L4, HY3, HX3. ring. }
  assert (EX : X2 = X4).
  - apply (f_cancel K HK (e2*e2*(e3*e3)*(e4*e4))). repeat apply f_mul_nz; auto.
    transitivity ((l2*e2)*(l2*e2)*(e3*e3)*(e4*e4) - (X1+X1)*(e2*e2*(e3*e3)*(e4*e4))). rewrite HX2. ring.
    transitivity ((e3*(l4*e4))*(e3*(l4*e4))*(e2*e2) - ((l3*e3)*(l3*e3) + (x1 - x2 - X1) *(e3*e3))*(e2*e2)*(e4*e4)). 2:{ rewrite HX4, HX3. ring. }
    rewrite Q, L3, L2. rewrite D4, D3, D2, HY1, HX1, Ha, Hy. ring.
  - split; auto. 
    apply (f_cancel K HK (e2*e3*e4)). repeat apply f_mul_nz; auto.
    rewrite HY4, <- EX, HY2.
    transitivity ((X1-X2)*(l2*e2)*(e3*e4) - Y1*(e2*e3*e4)). ring.
    transitivity ((x1-X2)*(e3*(l4*e4))*e2 - y1*(e2*e3*e4)). 2: ring.
    apply (f_cancel K HK (e2*e2)). repeat apply f_mul_nz; auto.
    rewrite L2, Q, L3.
    assert (P : e2*e2*X2 = (l2*e2)*(l2*e2)-(X1+X1)*(e2*e2)) by (rewrite HX2; ring).
    rewrite L2 in P.
    transitivity ((e2*e2*X1-e2*e2*X2)*((1+1+1)*(X1*X1)+a)*(e3*e4) - e2*e2*Y1*(e2*e3*e4)). ring.
    transitivity ((e2*e2*x1-e2*e2*X2)*(((x2+x2+X1)*(e3*e3) - (Y1-y2)*(Y1-y2))*(Y1-y2) - (y2+y1)*(e3*e3*e3))*e2 - e2*e2*y1*(e2*e3*e4)). 2: ring.
    rewrite P.
    rewrite D4, D3, D2, HY1, HX1, Ha, Hy. ring.
Qed.
End S.
