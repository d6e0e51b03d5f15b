(** The cases of the associativity of the chord-and-tangent law: each says that
    the two ways of adding three points of the curve agree, given how each of
    the four additions is made (N: opposite points, D: tangent, C: chord). *)
From Coq Require Import ZArith List Bool Lia Ring Field NsatzTactic.
From Verif.Base Require Import Outcome Algebra Slots.
From Verif.Proofs Require Import FieldFacts SlotFacts CurveAlgebra.

Section S.
Variable K : fld.
Hypothesis HK : fld_laws K.
Add Field KF1 : (fl_field K HK).
Local Existing Instance Kops.
Local Instance Kring' : @Ring K f0 f1 fadd fmul fsub fopp eq (Kops K) := Kring K HK.
Local Instance Kcring' : @Cring K f0 f1 fadd fmul fsub fopp eq (Kops K) Kring' := Kcring K HK.
Local Instance Kid' : @Integral_domain K f0 f1 fadd fmul fsub fopp eq (Kops K) Kring' Kcring' := Kid K HK.
Local Notation "0" := f0. Local Notation "1" := f1.
Local Notation "x + y" := (fadd x y). Local Notation "x - y" := (fsub x y). Local Notation "x * y" := (fmul x y). Local Notation "- x" := (fopp x).
Local Notation "2" := (1+1 : K). Local Notation "3" := (1+1+1 : K).
Variables (a b dd : K).
Hypotheses (C2 : 2 <> 0) (Hdd : (2*2*(a*a*a)+3*3*3*(b*b))*dd = 1).
Ltac smooth_const := lazymatch goal with |- ~ _ => apply (phi_nz K HK C2); vm_compute; reflexivity end.
Ltac nsatz_in v := nsatz with radicalmax:=6%N strategy:=2%Z parameters:=(@nil K) variables:=v.
Lemma c_NoNo : forall x1 x2 x3 y1 y2 y3 : K,
  y1*y1 = x1*x1*x1+a*x1+b ->
  y2*y2 = x2*x2*x2+a*x2+b ->
  y3*y3 = x3*x3*x3+a*x3+b ->
  x1 = x2 ->
  y1 = - y2 ->
  x2 = x3 ->
  y2 = - y3 ->
  x3 = x1 /\ y3 = y1.
Proof. clear - HK C2 Hdd. intros; subst; split; nsatz; smooth_const. Qed.

Lemma c_NoDN : forall X3 Y3 i3 l3 x1 x2 x3 y1 y2 y3 : K,
  y1*y1 = x1*x1*x1+a*x1+b ->
  y2*y2 = x2*x2*x2+a*x2+b ->
  y3*y3 = x3*x3*x3+a*x3+b ->
  x1 = x2 ->
  y1 = - y2 ->
  x2 = x3 ->
  y2 = y3 ->
  (y2+y2)*i3 = 1 ->
  l3 = (3*(x2*x2)+a)*i3 ->
  X3 = l3*l3-(x2+x2) ->
  Y3 = (x2-X3)*l3-y2 ->
  x1 = X3 ->
  y1 = - Y3 ->
  (1:K) = 0.
Proof. clear - HK C2 Hdd. intros; subst; nsatz; smooth_const. Qed.

Lemma c_NoDD : forall X3 X4 Y3 Y4 i3 i4 l3 l4 x1 x2 x3 y1 y2 y3 : K,
  y1*y1 = x1*x1*x1+a*x1+b ->
  y2*y2 = x2*x2*x2+a*x2+b ->
  y3*y3 = x3*x3*x3+a*x3+b ->
  x1 = x2 ->
  y1 = - y2 ->
  x2 = x3 ->
  y2 = y3 ->
  (y2+y2)*i3 = 1 ->
  l3 = (3*(x2*x2)+a)*i3 ->
  X3 = l3*l3-(x2+x2) ->
  Y3 = (x2-X3)*l3-y2 ->
  x1 = X3 ->
  y1 = Y3 ->
  (y1+y1)*i4 = 1 ->
  l4 = (3*(x1*x1)+a)*i4 ->
  X4 = l4*l4-(x1+x1) ->
  Y4 = (x1-X4)*l4-y1 ->
  x3 = X4 /\ y3 = Y4.
Proof. clear - HK C2 Hdd. intros; subst; split; nsatz; smooth_const. Qed.

Lemma c_NoDC : forall X3 X4 Y3 Y4 i3 i4 l3 l4 x1 x2 x3 y1 y2 y3 : K,
  y1*y1 = x1*x1*x1+a*x1+b ->
  y2*y2 = x2*x2*x2+a*x2+b ->
  y3*y3 = x3*x3*x3+a*x3+b ->
  x1 = x2 ->
  y1 = - y2 ->
  x2 = x3 ->
  y2 = y3 ->
  (y2+y2)*i3 = 1 ->
  l3 = (3*(x2*x2)+a)*i3 ->
  X3 = l3*l3-(x2+x2) ->
  Y3 = (x2-X3)*l3-y2 ->
  (X3-x1)*i4 = 1 ->
  l4 = (Y3-y1)*i4 ->
  X4 = l4*l4-x1-X3 ->
  Y4 = (x1-X4)*l4-y1 ->
  x3 = X4 /\ y3 = Y4.
Proof. clear - HK C2 Hdd. intros; subst; split; nsatz; smooth_const. Qed.

Lemma c_NoCN : forall X3 Y3 i3 l3 x1 x2 x3 y1 y2 y3 : K,
  y1*y1 = x1*x1*x1+a*x1+b ->
  y2*y2 = x2*x2*x2+a*x2+b ->
  y3*y3 = x3*x3*x3+a*x3+b ->
  x1 = x2 ->
  y1 = - y2 ->
  (x3-x2)*i3 = 1 ->
  l3 = (y3-y2)*i3 ->
  X3 = l3*l3-x2-x3 ->
  Y3 = (x2-X3)*l3-y2 ->
  x1 = X3 ->
  y1 = - Y3 ->
  (1:K) = 0.
Proof. clear - HK C2 Hdd. intros; subst; nsatz; smooth_const. Qed.

Lemma c_NoCD : forall X3 X4 Y3 Y4 i3 i4 l3 l4 x1 x2 x3 y1 y2 y3 : K,
  y1*y1 = x1*x1*x1+a*x1+b ->
  y2*y2 = x2*x2*x2+a*x2+b ->
  y3*y3 = x3*x3*x3+a*x3+b ->
  x1 = x2 ->
  y1 = - y2 ->
  (x3-x2)*i3 = 1 ->
  l3 = (y3-y2)*i3 ->
  X3 = l3*l3-x2-x3 ->
  Y3 = (x2-X3)*l3-y2 ->
  x1 = X3 ->
  y1 = Y3 ->
  (y1+y1)*i4 = 1 ->
  l4 = (3*(x1*x1)+a)*i4 ->
  X4 = l4*l4-(x1+x1) ->
  Y4 = (x1-X4)*l4-y1 ->
  x3 = X4 /\ y3 = Y4.
Proof. clear - HK C2 Hdd. intros; subst; split; nsatz; smooth_const. Qed.

Lemma c_NoCC : forall X3 X4 Y3 Y4 i3 i4 l3 l4 x1 x2 x3 y1 y2 y3 : K,
  y1*y1 = x1*x1*x1+a*x1+b ->
  y2*y2 = x2*x2*x2+a*x2+b ->
  y3*y3 = x3*x3*x3+a*x3+b ->
  x1 = x2 ->
  y1 = - y2 ->
  (x3-x2)*i3 = 1 ->
  l3 = (y3-y2)*i3 ->
  X3 = l3*l3-x2-x3 ->
  Y3 = (x2-X3)*l3-y2 ->
  (X3-x1)*i4 = 1 ->
  l4 = (Y3-y1)*i4 ->
  X4 = l4*l4-x1-X3 ->
  Y4 = (x1-X4)*l4-y1 ->
  x3 = X4 /\ y3 = Y4.
Proof. clear - HK C2 Hdd. intros; subst; split; nsatz; smooth_const. Qed.

Lemma c_DNNo : forall X1 Y1 i1 l1 x1 x2 x3 y1 y2 y3 : K,
  y1*y1 = x1*x1*x1+a*x1+b ->
  y2*y2 = x2*x2*x2+a*x2+b ->
  y3*y3 = x3*x3*x3+a*x3+b ->
  x1 = x2 ->
  y1 = y2 ->
  (y1+y1)*i1 = 1 ->
  l1 = (3*(x1*x1)+a)*i1 ->
  X1 = l1*l1-(x1+x1) ->
  Y1 = (x1-X1)*l1-y1 ->
  X1 = x3 ->
  Y1 = - y3 ->
  x2 = x3 ->
  y2 = - y3 ->
  (1:K) = 0.
Proof. clear - HK C2 Hdd. intros; subst; nsatz; smooth_const. Qed.

Lemma c_DNDD : forall X1 X3 X4 Y1 Y3 Y4 i1 i3 i4 l1 l3 l4 x1 x2 x3 y1 y2 y3 : K,
  y1*y1 = x1*x1*x1+a*x1+b ->
  y2*y2 = x2*x2*x2+a*x2+b ->
  y3*y3 = x3*x3*x3+a*x3+b ->
  x1 = x2 ->
  y1 = y2 ->
  (y1+y1)*i1 = 1 ->
  l1 = (3*(x1*x1)+a)*i1 ->
  X1 = l1*l1-(x1+x1) ->
  Y1 = (x1-X1)*l1-y1 ->
  X1 = x3 ->
  Y1 = - y3 ->
  x2 = x3 ->
  y2 = y3 ->
  (y2+y2)*i3 = 1 ->
  l3 = (3*(x2*x2)+a)*i3 ->
  X3 = l3*l3-(x2+x2) ->
  Y3 = (x2-X3)*l3-y2 ->
  x1 = X3 ->
  y1 = Y3 ->
  (y1+y1)*i4 = 1 ->
  l4 = (3*(x1*x1)+a)*i4 ->
  X4 = l4*l4-(x1+x1) ->
  Y4 = (x1-X4)*l4-y1 ->
  (1:K) = 0.
Proof. clear - HK C2 Hdd. intros; subst; nsatz; smooth_const. Qed.

Lemma c_DNDC : forall X1 X3 X4 Y1 Y3 Y4 i1 i3 i4 l1 l3 l4 x1 x2 x3 y1 y2 y3 : K,
  y1*y1 = x1*x1*x1+a*x1+b ->
  y2*y2 = x2*x2*x2+a*x2+b ->
  y3*y3 = x3*x3*x3+a*x3+b ->
  x1 = x2 ->
  y1 = y2 ->
  (y1+y1)*i1 = 1 ->
  l1 = (3*(x1*x1)+a)*i1 ->
  X1 = l1*l1-(x1+x1) ->
  Y1 = (x1-X1)*l1-y1 ->
  X1 = x3 ->
  Y1 = - y3 ->
  x2 = x3 ->
  y2 = y3 ->
  (y2+y2)*i3 = 1 ->
  l3 = (3*(x2*x2)+a)*i3 ->
  X3 = l3*l3-(x2+x2) ->
  Y3 = (x2-X3)*l3-y2 ->
  (X3-x1)*i4 = 1 ->
  l4 = (Y3-y1)*i4 ->
  X4 = l4*l4-x1-X3 ->
  Y4 = (x1-X4)*l4-y1 ->
  (1:K) = 0.
Proof. clear - HK C2 Hdd. intros; subst; nsatz; smooth_const. Qed.

Lemma c_DNCD : forall X1 X3 X4 Y1 Y3 Y4 i1 i3 i4 l1 l3 l4 x1 x2 x3 y1 y2 y3 : K,
  y1*y1 = x1*x1*x1+a*x1+b ->
  y2*y2 = x2*x2*x2+a*x2+b ->
  y3*y3 = x3*x3*x3+a*x3+b ->
  x1 = x2 ->
  y1 = y2 ->
  (y1+y1)*i1 = 1 ->
  l1 = (3*(x1*x1)+a)*i1 ->
  X1 = l1*l1-(x1+x1) ->
  Y1 = (x1-X1)*l1-y1 ->
  X1 = x3 ->
  Y1 = - y3 ->
  (x3-x2)*i3 = 1 ->
  l3 = (y3-y2)*i3 ->
  X3 = l3*l3-x2-x3 ->
  Y3 = (x2-X3)*l3-y2 ->
  x1 = X3 ->
  y1 = Y3 ->
  (y1+y1)*i4 = 1 ->
  l4 = (3*(x1*x1)+a)*i4 ->
  X4 = l4*l4-(x1+x1) ->
  Y4 = (x1-X4)*l4-y1 ->
  (1:K) = 0.
Proof. clear - HK C2 Hdd. intros; subst; nsatz; smooth_const. Qed.

Lemma c_DNCC : forall X1 X3 X4 Y1 Y3 Y4 i1 i3 i4 l1 l3 l4 x1 x2 x3 y1 y2 y3 : K,
  y1*y1 = x1*x1*x1+a*x1+b ->
  y2*y2 = x2*x2*x2+a*x2+b ->
  y3*y3 = x3*x3*x3+a*x3+b ->
  x1 = x2 ->
  y1 = y2 ->
  (y1+y1)*i1 = 1 ->
  l1 = (3*(x1*x1)+a)*i1 ->
  X1 = l1*l1-(x1+x1) ->
  Y1 = (x1-X1)*l1-y1 ->
  X1 = x3 ->
  Y1 = - y3 ->
  (x3-x2)*i3 = 1 ->
  l3 = (y3-y2)*i3 ->
  X3 = l3*l3-x2-x3 ->
  Y3 = (x2-X3)*l3-y2 ->
  (X3-x1)*i4 = 1 ->
  l4 = (Y3-y1)*i4 ->
  X4 = l4*l4-x1-X3 ->
  Y4 = (x1-X4)*l4-y1 ->
  (1:K) = 0.
Proof. clear - HK C2 Hdd. intros; subst; nsatz; smooth_const. Qed.

Lemma c_DDNo : forall X1 X2 Y1 Y2 i1 i2 l1 l2 x1 x2 x3 y1 y2 y3 : K,
  y1*y1 = x1*x1*x1+a*x1+b ->
  y2*y2 = x2*x2*x2+a*x2+b ->
  y3*y3 = x3*x3*x3+a*x3+b ->
  x1 = x2 ->
  y1 = y2 ->
  (y1+y1)*i1 = 1 ->
  l1 = (3*(x1*x1)+a)*i1 ->
  X1 = l1*l1-(x1+x1) ->
  Y1 = (x1-X1)*l1-y1 ->
  X1 = x3 ->
  Y1 = y3 ->
  (Y1+Y1)*i2 = 1 ->
  l2 = (3*(X1*X1)+a)*i2 ->
  X2 = l2*l2-(X1+X1) ->
  Y2 = (X1-X2)*l2-Y1 ->
  x2 = x3 ->
  y2 = - y3 ->
  X2 = x1 /\ Y2 = y1.
Proof. clear - HK C2 Hdd. intros; subst; split; nsatz; smooth_const. Qed.

Lemma c_DDDN : forall X1 X2 X3 Y1 Y2 Y3 i1 i2 i3 l1 l2 l3 x1 x2 x3 y1 y2 y3 : K,
  y1*y1 = x1*x1*x1+a*x1+b ->
  y2*y2 = x2*x2*x2+a*x2+b ->
  y3*y3 = x3*x3*x3+a*x3+b ->
  x1 = x2 ->
  y1 = y2 ->
  (y1+y1)*i1 = 1 ->
  l1 = (3*(x1*x1)+a)*i1 ->
  X1 = l1*l1-(x1+x1) ->
  Y1 = (x1-X1)*l1-y1 ->
  X1 = x3 ->
  Y1 = y3 ->
  (Y1+Y1)*i2 = 1 ->
  l2 = (3*(X1*X1)+a)*i2 ->
  X2 = l2*l2-(X1+X1) ->
  Y2 = (X1-X2)*l2-Y1 ->
  x2 = x3 ->
  y2 = y3 ->
  (y2+y2)*i3 = 1 ->
  l3 = (3*(x2*x2)+a)*i3 ->
  X3 = l3*l3-(x2+x2) ->
  Y3 = (x2-X3)*l3-y2 ->
  x1 = X3 ->
  y1 = - Y3 ->
  (1:K) = 0.
Proof. clear - HK C2 Hdd. intros; subst; nsatz; smooth_const. Qed.

Lemma c_DDDD : forall X1 X2 X3 X4 Y1 Y2 Y3 Y4 i1 i2 i3 i4 l1 l2 l3 l4 x1 x2 x3 y1 y2 y3 : K,
  y1*y1 = x1*x1*x1+a*x1+b ->
  y2*y2 = x2*x2*x2+a*x2+b ->
  y3*y3 = x3*x3*x3+a*x3+b ->
  x1 = x2 ->
  y1 = y2 ->
  (y1+y1)*i1 = 1 ->
  l1 = (3*(x1*x1)+a)*i1 ->
  X1 = l1*l1-(x1+x1) ->
  Y1 = (x1-X1)*l1-y1 ->
  X1 = x3 ->
  Y1 = y3 ->
  (Y1+Y1)*i2 = 1 ->
  l2 = (3*(X1*X1)+a)*i2 ->
  X2 = l2*l2-(X1+X1) ->
  Y2 = (X1-X2)*l2-Y1 ->
  x2 = x3 ->
  y2 = y3 ->
  (y2+y2)*i3 = 1 ->
  l3 = (3*(x2*x2)+a)*i3 ->
  X3 = l3*l3-(x2+x2) ->
  Y3 = (x2-X3)*l3-y2 ->
  x1 = X3 ->
  y1 = Y3 ->
  (y1+y1)*i4 = 1 ->
  l4 = (3*(x1*x1)+a)*i4 ->
  X4 = l4*l4-(x1+x1) ->
  Y4 = (x1-X4)*l4-y1 ->
  X2 = X4 /\ Y2 = Y4.
Proof. clear - HK C2 Hdd. intros; subst; split; nsatz; smooth_const. Qed.

Lemma c_DDDC : forall X1 X2 X3 X4 Y1 Y2 Y3 Y4 i1 i2 i3 i4 l1 l2 l3 l4 x1 x2 x3 y1 y2 y3 : K,
  y1*y1 = x1*x1*x1+a*x1+b ->
  y2*y2 = x2*x2*x2+a*x2+b ->
  y3*y3 = x3*x3*x3+a*x3+b ->
  x1 = x2 ->
  y1 = y2 ->
  (y1+y1)*i1 = 1 ->
  l1 = (3*(x1*x1)+a)*i1 ->
  X1 = l1*l1-(x1+x1) ->
  Y1 = (x1-X1)*l1-y1 ->
  X1 = x3 ->
  Y1 = y3 ->
  (Y1+Y1)*i2 = 1 ->
  l2 = (3*(X1*X1)+a)*i2 ->
  X2 = l2*l2-(X1+X1) ->
  Y2 = (X1-X2)*l2-Y1 ->
  x2 = x3 ->
  y2 = y3 ->
  (y2+y2)*i3 = 1 ->
  l3 = (3*(x2*x2)+a)*i3 ->
  X3 = l3*l3-(x2+x2) ->
  Y3 = (x2-X3)*l3-y2 ->
  (X3-x1)*i4 = 1 ->
  l4 = (Y3-y1)*i4 ->
  X4 = l4*l4-x1-X3 ->
  Y4 = (x1-X4)*l4-y1 ->
  X2 = X4 /\ Y2 = Y4.
Proof. clear - HK C2 Hdd. intros; subst; split; nsatz; smooth_const. Qed.

Lemma c_DDCN : forall X1 X2 X3 Y1 Y2 Y3 i1 i2 i3 l1 l2 l3 x1 x2 x3 y1 y2 y3 : K,
  y1*y1 = x1*x1*x1+a*x1+b ->
  y2*y2 = x2*x2*x2+a*x2+b ->
  y3*y3 = x3*x3*x3+a*x3+b ->
  x1 = x2 ->
  y1 = y2 ->
  (y1+y1)*i1 = 1 ->
  l1 = (3*(x1*x1)+a)*i1 ->
  X1 = l1*l1-(x1+x1) ->
  Y1 = (x1-X1)*l1-y1 ->
  X1 = x3 ->
  Y1 = y3 ->
  (Y1+Y1)*i2 = 1 ->
  l2 = (3*(X1*X1)+a)*i2 ->
  X2 = l2*l2-(X1+X1) ->
  Y2 = (X1-X2)*l2-Y1 ->
  (x3-x2)*i3 = 1 ->
  l3 = (y3-y2)*i3 ->
  X3 = l3*l3-x2-x3 ->
  Y3 = (x2-X3)*l3-y2 ->
  x1 = X3 ->
  y1 = - Y3 ->
  (1:K) = 0.
Proof. clear - HK C2 Hdd. intros; subst; nsatz_in (dd :: b :: a :: i1 :: i2 :: i3 :: y2 :: x2 :: @nil K); smooth_const. Qed.

Lemma c_DDCD : forall X1 X2 X3 X4 Y1 Y2 Y3 Y4 i1 i2 i3 i4 l1 l2 l3 l4 x1 x2 x3 y1 y2 y3 : K,
  y1*y1 = x1*x1*x1+a*x1+b ->
  y2*y2 = x2*x2*x2+a*x2+b ->
  y3*y3 = x3*x3*x3+a*x3+b ->
  x1 = x2 ->
  y1 = y2 ->
  (y1+y1)*i1 = 1 ->
  l1 = (3*(x1*x1)+a)*i1 ->
  X1 = l1*l1-(x1+x1) ->
  Y1 = (x1-X1)*l1-y1 ->
  X1 = x3 ->
  Y1 = y3 ->
  (Y1+Y1)*i2 = 1 ->
  l2 = (3*(X1*X1)+a)*i2 ->
  X2 = l2*l2-(X1+X1) ->
  Y2 = (X1-X2)*l2-Y1 ->
  (x3-x2)*i3 = 1 ->
  l3 = (y3-y2)*i3 ->
  X3 = l3*l3-x2-x3 ->
  Y3 = (x2-X3)*l3-y2 ->
  x1 = X3 ->
  y1 = Y3 ->
  (y1+y1)*i4 = 1 ->
  l4 = (3*(x1*x1)+a)*i4 ->
  X4 = l4*l4-(x1+x1) ->
  Y4 = (x1-X4)*l4-y1 ->
  X2 = X4 /\ Y2 = Y4.
Proof. clear - HK C2 Hdd. intros; subst; split; nsatz_in (dd :: b :: a :: i1 :: i2 :: i3 :: i4 :: y2 :: x2 :: @nil K); smooth_const. Qed.

Lemma c_DCNo : forall X1 X2 Y1 Y2 i1 i2 l1 l2 x1 x2 x3 y1 y2 y3 : K,
  y1*y1 = x1*x1*x1+a*x1+b ->
  y2*y2 = x2*x2*x2+a*x2+b ->
  y3*y3 = x3*x3*x3+a*x3+b ->
  x1 = x2 ->
  y1 = y2 ->
  (y1+y1)*i1 = 1 ->
  l1 = (3*(x1*x1)+a)*i1 ->
  X1 = l1*l1-(x1+x1) ->
  Y1 = (x1-X1)*l1-y1 ->
  (x3-X1)*i2 = 1 ->
  l2 = (y3-Y1)*i2 ->
  X2 = l2*l2-X1-x3 ->
  Y2 = (X1-X2)*l2-Y1 ->
  x2 = x3 ->
  y2 = - y3 ->
  X2 = x1 /\ Y2 = y1.
Proof. clear - HK C2 Hdd. intros; subst; split; nsatz; smooth_const. Qed.

Lemma c_DCDN : forall X1 X2 X3 Y1 Y2 Y3 i1 i2 i3 l1 l2 l3 x1 x2 x3 y1 y2 y3 : K,
  y1*y1 = x1*x1*x1+a*x1+b ->
  y2*y2 = x2*x2*x2+a*x2+b ->
  y3*y3 = x3*x3*x3+a*x3+b ->
  x1 = x2 ->
  y1 = y2 ->
  (y1+y1)*i1 = 1 ->
  l1 = (3*(x1*x1)+a)*i1 ->
  X1 = l1*l1-(x1+x1) ->
  Y1 = (x1-X1)*l1-y1 ->
  (x3-X1)*i2 = 1 ->
  l2 = (y3-Y1)*i2 ->
  X2 = l2*l2-X1-x3 ->
  Y2 = (X1-X2)*l2-Y1 ->
  x2 = x3 ->
  y2 = y3 ->
  (y2+y2)*i3 = 1 ->
  l3 = (3*(x2*x2)+a)*i3 ->
  X3 = l3*l3-(x2+x2) ->
  Y3 = (x2-X3)*l3-y2 ->
  x1 = X3 ->
  y1 = - Y3 ->
  (1:K) = 0.
Proof. clear - HK C2 Hdd. intros; subst; nsatz; smooth_const. Qed.

Lemma c_DCDD : forall X1 X2 X3 X4 Y1 Y2 Y3 Y4 i1 i2 i3 i4 l1 l2 l3 l4 x1 x2 x3 y1 y2 y3 : K,
  y1*y1 = x1*x1*x1+a*x1+b ->
  y2*y2 = x2*x2*x2+a*x2+b ->
  y3*y3 = x3*x3*x3+a*x3+b ->
  x1 = x2 ->
  y1 = y2 ->
  (y1+y1)*i1 = 1 ->
  l1 = (3*(x1*x1)+a)*i1 ->
  X1 = l1*l1-(x1+x1) ->
  Y1 = (x1-X1)*l1-y1 ->
  (x3-X1)*i2 = 1 ->
  l2 = (y3-Y1)*i2 ->
  X2 = l2*l2-X1-x3 ->
  Y2 = (X1-X2)*l2-Y1 ->
  x2 = x3 ->
  y2 = y3 ->
  (y2+y2)*i3 = 1 ->
  l3 = (3*(x2*x2)+a)*i3 ->
  X3 = l3*l3-(x2+x2) ->
  Y3 = (x2-X3)*l3-y2 ->
  x1 = X3 ->
  y1 = Y3 ->
  (y1+y1)*i4 = 1 ->
  l4 = (3*(x1*x1)+a)*i4 ->
  X4 = l4*l4-(x1+x1) ->
  Y4 = (x1-X4)*l4-y1 ->
  X2 = X4 /\ Y2 = Y4.
Proof. clear - HK C2 Hdd. intros; subst; split; nsatz; smooth_const. Qed.

Lemma c_DCDC : forall X1 X2 X3 X4 Y1 Y2 Y3 Y4 i1 i2 i3 i4 l1 l2 l3 l4 x1 x2 x3 y1 y2 y3 : K,
  y1*y1 = x1*x1*x1+a*x1+b ->
  y2*y2 = x2*x2*x2+a*x2+b ->
  y3*y3 = x3*x3*x3+a*x3+b ->
  x1 = x2 ->
  y1 = y2 ->
  (y1+y1)*i1 = 1 ->
  l1 = (3*(x1*x1)+a)*i1 ->
  X1 = l1*l1-(x1+x1) ->
  Y1 = (x1-X1)*l1-y1 ->
  (x3-X1)*i2 = 1 ->
  l2 = (y3-Y1)*i2 ->
  X2 = l2*l2-X1-x3 ->
  Y2 = (X1-X2)*l2-Y1 ->
  x2 = x3 ->
  y2 = y3 ->
  (y2+y2)*i3 = 1 ->
  l3 = (3*(x2*x2)+a)*i3 ->
  X3 = l3*l3-(x2+x2) ->
  Y3 = (x2-X3)*l3-y2 ->
  (X3-x1)*i4 = 1 ->
  l4 = (Y3-y1)*i4 ->
  X4 = l4*l4-x1-X3 ->
  Y4 = (x1-X4)*l4-y1 ->
  X2 = X4 /\ Y2 = Y4.
Proof. clear - HK C2 Hdd. intros; subst; split; nsatz; smooth_const. Qed.

Lemma c_DCCN : forall X1 X2 X3 Y1 Y2 Y3 i1 i2 i3 l1 l2 l3 x1 x2 x3 y1 y2 y3 : K,
  y1*y1 = x1*x1*x1+a*x1+b ->
  y2*y2 = x2*x2*x2+a*x2+b ->
  y3*y3 = x3*x3*x3+a*x3+b ->
  x1 = x2 ->
  y1 = y2 ->
  (y1+y1)*i1 = 1 ->
  l1 = (3*(x1*x1)+a)*i1 ->
  X1 = l1*l1-(x1+x1) ->
  Y1 = (x1-X1)*l1-y1 ->
  (x3-X1)*i2 = 1 ->
  l2 = (y3-Y1)*i2 ->
  X2 = l2*l2-X1-x3 ->
  Y2 = (X1-X2)*l2-Y1 ->
  (x3-x2)*i3 = 1 ->
  l3 = (y3-y2)*i3 ->
  X3 = l3*l3-x2-x3 ->
  Y3 = (x2-X3)*l3-y2 ->
  x1 = X3 ->
  y1 = - Y3 ->
  (1:K) = 0.
Proof. clear - HK C2 Hdd. intros; subst; nsatz; smooth_const. Qed.

Lemma c_DCCD : forall X1 X2 X3 X4 Y1 Y2 Y3 Y4 i1 i2 i3 i4 l1 l2 l3 l4 x1 x2 x3 y1 y2 y3 : K,
  y1*y1 = x1*x1*x1+a*x1+b ->
  y2*y2 = x2*x2*x2+a*x2+b ->
  y3*y3 = x3*x3*x3+a*x3+b ->
  x1 = x2 ->
  y1 = y2 ->
  (y1+y1)*i1 = 1 ->
  l1 = (3*(x1*x1)+a)*i1 ->
  X1 = l1*l1-(x1+x1) ->
  Y1 = (x1-X1)*l1-y1 ->
  (x3-X1)*i2 = 1 ->
  l2 = (y3-Y1)*i2 ->
  X2 = l2*l2-X1-x3 ->
  Y2 = (X1-X2)*l2-Y1 ->
  (x3-x2)*i3 = 1 ->
  l3 = (y3-y2)*i3 ->
  X3 = l3*l3-x2-x3 ->
  Y3 = (x2-X3)*l3-y2 ->
  x1 = X3 ->
  y1 = Y3 ->
  (y1+y1)*i4 = 1 ->
  l4 = (3*(x1*x1)+a)*i4 ->
  X4 = l4*l4-(x1+x1) ->
  Y4 = (x1-X4)*l4-y1 ->
  X2 = X4 /\ Y2 = Y4.
Proof. clear - HK C2 Hdd. intros; subst; split; nsatz_in (dd :: b :: a :: i1 :: i2 :: i3 :: i4 :: y2 :: y3 :: x2 :: x3 :: @nil K); smooth_const. Qed.

Lemma c_DCCC : forall X1 X2 X3 X4 Y1 Y2 Y3 Y4 i1 i2 i3 i4 l1 l2 l3 l4 x1 x2 x3 y1 y2 y3 : K,
  y1*y1 = x1*x1*x1+a*x1+b ->
  y2*y2 = x2*x2*x2+a*x2+b ->
  y3*y3 = x3*x3*x3+a*x3+b ->
  x1 = x2 ->
  y1 = y2 ->
  (y1+y1)*i1 = 1 ->
  l1 = (3*(x1*x1)+a)*i1 ->
  X1 = l1*l1-(x1+x1) ->
  Y1 = (x1-X1)*l1-y1 ->
  (x3-X1)*i2 = 1 ->
  l2 = (y3-Y1)*i2 ->
  X2 = l2*l2-X1-x3 ->
  Y2 = (X1-X2)*l2-Y1 ->
  (x3-x2)*i3 = 1 ->
  l3 = (y3-y2)*i3 ->
  X3 = l3*l3-x2-x3 ->
  Y3 = (x2-X3)*l3-y2 ->
  (X3-x1)*i4 = 1 ->
  l4 = (Y3-y1)*i4 ->
  X4 = l4*l4-x1-X3 ->
  Y4 = (x1-X4)*l4-y1 ->
  X2 = X4 /\ Y2 = Y4.
Proof. clear - HK C2 Hdd. intros; subst; split; nsatz_in (dd :: b :: a :: i1 :: i2 :: i3 :: i4 :: y2 :: y3 :: x2 :: x3 :: @nil K); smooth_const. Qed.
End S.
