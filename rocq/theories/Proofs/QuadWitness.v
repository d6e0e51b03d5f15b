(** Witnesses for the quadratic extension theorems. *)
From Coq Require Import ZArith Znumtheory List Bool Lia.
From Verif.Base Require Import Outcome Algebra Slots.
From Verif.Spec Require Import FiniteField FieldCalls Quadratic QuadraticRuns.
From Verif.Model Require Import Quadratic.
From Verif.Proofs Require Import FieldFacts ZpField RootFacts RootWitness QuadFacts FpWitness.
Import ListNotations.
Open Scope Z_scope.

Lemma lt3 : 1 < 3. Proof. reflexivity. Qed.
Notation Z3 := (Zp 3 lt3).
Definition two3 : Z3 := zmk 3 lt3 2.
Definition z3_is_sqr (x : Z3) : bool := zval 3 x <? 2.
Definition z3_sqrt (x : Z3) : res Z3 := Ok x.
Lemma z3_laws : fld_laws Z3. Proof. apply Zp_laws. exact prime_3. Qed.
Lemma z3_cases : forall x : Z3, zval 3 x = 0 \/ zval 3 x = 1 \/ zval 3 x = 2.
Proof. intro x. pose proof (zval_range 3 x). lia. Qed.
Lemma z3_is_sqr_ok : forall x : Z3, z3_is_sqr x = true <-> is_square x.
Proof.
  intro x. unfold z3_is_sqr. destruct (z3_cases x) as [E | [E | E]]; rewrite E; split; intro H; try discriminate; auto.
  - exists x. apply zval_inj. cbn [fmul Zp]. rewrite zval_zmk, E. reflexivity.
  - exists x. apply zval_inj. cbn [fmul Zp]. rewrite zval_zmk, E. reflexivity.
  - destruct H as [y H]. apply (f_equal (zval 3)) in H. rewrite E in H. cbn [fmul Zp] in H. rewrite zval_zmk in H.
    destruct (z3_cases y) as [F | [F | F]]; rewrite F in H; discriminate.
Qed.
Lemma z3_sqrt_ok : forall x : Z3, is_square x -> exists y, z3_sqrt x = Ok y /\ fmul y y = x.
Proof.
  intros x H. apply z3_is_sqr_ok in H. unfold z3_is_sqr in H. exists x. split; auto. apply zval_inj. cbn [fmul Zp]. rewrite zval_zmk.
  destruct (z3_cases x) as [E | [E | E]]; rewrite E in *; auto; discriminate.
Qed.
Lemma minus1_nonsquare : ~ is_square (fopp f1 : Z3).
Proof. intro H. apply z3_is_sqr_ok in H. discriminate. Qed.

(** a history with aliased arguments in F_9 = F_3(i) and in F_13(sqrt 2) *)
Definition start (K : fld) (c : Z -> K) : store K :=
  fun l => match l with (Reg n, i) => c (Z.of_nat (2 * n + i + 1)) | _ => c 0 end.
Lemma quad13_witness :
  ~ is_square (zmk 13 lt13 2 : Zp 13 lt13) /\
  match q_run (Zp 13 lt13) (KQuadratic (Zp 13 lt13) (zmk 13 lt13 2)) (start (Zp 13 lt13) (zmk 13 lt13))
    [FMul 0 0 0; FMul 0 0 1; FInv 1 1; FMul 0 0 1; FDiv 0 0 0; FIs1 0; FMul 2 1 1; FSqr 1 1; FCmp 1 2; FHalve 2 2; FDbl 2 2; FCmp 1 2; FIs1 1; FValue 2] with
  | Ok [Datatypes.inl true; Datatypes.inl false; Datatypes.inl false; Datatypes.inl false; Datatypes.inr (a, b)] => (zval 13 a, zval 13 b) = (6, 6)
  | _ => False
  end.
Proof. split; [apply sqrt_witness | ]. vm_compute. reflexivity. Qed.
Lemma fi3_invert_zero : q_run Z3 (KFi Z3) (start Z3 (zmk 3 lt3)) [FSet0 0; FInv 0 0] = UB. Proof. vm_compute. reflexivity. Qed.

Lemma sqrt_base_refuted : exists (K : fld) (q : Z) (k : qkind K) (is_sqr : K -> bool) (sqrt : K -> res K),
  fld_laws K /\ has_order K q /\ Z.odd q = true /\ ~ is_square (q_d K k) /\
  (forall x, is_sqr x = true <-> is_square x) /\ (forall x, is_square x -> exists y, sqrt x = Ok y /\ fmul y y = x) /\
  exists e : Quad K (q_d K k), is_square e /\ q_is_sqr K is_sqr k e = true /\ q_sqrt K is_sqr sqrt k e = UB.
Proof.
  exists Z3, 3, (KFi Z3), z3_is_sqr, z3_sqrt.
  split; [apply z3_laws | split; [apply Zp_order | split; [reflexivity | split; [apply minus1_nonsquare | split; [apply z3_is_sqr_ok | split; [apply z3_sqrt_ok | ]]]]]].
  exists ((two3, zmk 3 lt3 0) : Quad Z3 (fopp f1)). split; [ | split; vm_compute; reflexivity].
  exists ((zmk 3 lt3 0, zmk 3 lt3 1) : Quad Z3 (fopp f1)). cbn [fmul Quad]. unfold qmul. apply f_equal2; apply zval_inj; reflexivity.
Qed.
Lemma sqrt_witness_i :
  match q_sqrt Z3 z3_is_sqr z3_sqrt (KFi Z3) (zmk 3 lt3 0, zmk 3 lt3 1) with
  | Ok (a, b) => zval 3 a = 1 /\ zval 3 b = 2 | _ => False end
  /\ is_square ((zmk 3 lt3 0, zmk 3 lt3 1) : Quad Z3 (fopp f1)).
Proof.
  split; [vm_compute; auto | ]. exists ((zmk 3 lt3 1, zmk 3 lt3 2) : Quad Z3 (fopp f1)).
  cbn [fmul Quad]. unfold qmul. apply f_equal2; apply zval_inj; reflexivity.
Qed.
