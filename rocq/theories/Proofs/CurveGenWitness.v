(** Small cases for the parameter generators, over F_13. *)
From Coq Require Import ZArith Znumtheory List Bool Lia Arith Ring Field.
From Verif.Base Require Import Outcome Array Algebra Slots.
From Verif.Spec Require Import FiniteField Polynomials Extension Roots Curve CurveCalls HashToCurve CurveChoice.
From Verif.Model Require Import GenericPow IntText Poly PolyTests Curve CurveCodec CurveGen.
From Verif.Proofs Require Import FieldFacts FpWitness SlotFacts PowFacts CurveGroup CurveFacts CodecFacts ZpField RootFacts RootWitness ExtFacts QuadWitness PolyTestsFacts PolySearchWitness CurveGenFacts CurveGenF CurveWitness.
Import ListNotations.
Open Scope Z_scope.

Notation F := (Zp 13 lt13).
Definition points13 : list (point F) := None :: map Some (list_prod (zp_elems 13 lt13) (zp_elems 13 lt13)).
Definition on13 (a b : F) (P : point F) : bool := match P with None => true | Some (x, y) => feqb (fmul y y) (rhs F a b x) end.
Definition isO (P : point F) : bool := match P with None => true | Some _ => false end.
Lemma all13 : forall a b (t : point F -> bool), forallb (fun P => negb (on13 a b P) || t P) points13 = true -> forall P, on_curve F a b P -> t P = true.
Proof.
  intros a b t H P O. rewrite forallb_forall in H. assert (I : In P points13).
  { destruct P as [[x y] | ]; [right; apply in_map_iff; exists (x, y); split; auto; apply in_prod; apply zp_elems_in | left; auto]. }
  specialize (H P I). apply orb_true_iff in H. destruct H as [H | H]; auto. exfalso. apply negb_true_iff in H.
  assert (T : on13 a b P = true) by (destruct P as [[x y] | ]; auto; cbn [on13]; apply (fl_eqb F F_laws); exact O). congruence.
Qed.
Lemma killed13 : forall a b n, forallb (fun P => negb (on13 a b P) || isO (pzmul F a n P)) points13 = true -> killed F a b n.
Proof. intros a b n H P O. pose proof (all13 a b _ H P O) as T. cbv beta in T. destruct (pzmul F a n P); [discriminate | auto]. Qed.
Lemma order13 : has_order F (Z.of_nat (13 ^ 1)). Proof. exact (Zp_order 13 lt13). Qed.
Lemma hp13 : poly_findroot F (Z.of_nat (13 ^ 1)) (c13 5 :: [c13 0; c13 2]) (map fofz [8; -9; 1]) = Ok (Some (c13 8, [c13 0; c13 2])).
Proof.
  apply (findroot_square F F_laws 13 1 order13) with (x2 := c13 1).
  - reflexivity.
  - split; [reflexivity | apply zval_inj; vm_compute; reflexivity].
  - apply zval_inj. vm_compute. reflexivity.
  - apply zval_inj. vm_compute. reflexivity.
  - intro Q. discriminate.
  - left. apply zval_inj. vm_compute. reflexivity.
Qed.
Definition show3 (r : res (F * F * list F)) : option (Z * Z * list Z) :=
  match r with Ok (a, b, l) => Some (zval 13 a, zval 13 b, map (zval 13) l) | _ => None end.
Lemma show3_ok : forall r a b l, show3 r = Some (zval 13 a, zval 13 b, map (zval 13) l) -> r = Ok (a, b, l).
Proof.
  intros [[[a' b'] l'] | | | ] a b l E; try discriminate. cbn [show3] in E.
  assert (EA : zval 13 a' = zval 13 a) by congruence. assert (EB : zval 13 b' = zval 13 b) by congruence.
  assert (EL : map (zval 13) l' = map (zval 13) l) by congruence. apply zval_inj in EA, EB. subst.
  assert (LL : l' = l); [ | rewrite LL; reflexivity]. clear E. revert l EL. induction l' as [ | u l' IH]; intros [ | v l] EL; try discriminate; auto.
  cbn in EL. inversion EL as [[E1 E2]]. f_equal; [apply zval_inj; auto | apply IH; auto].
Qed.
Definition run13 (x : Z) (src : list F) := cm_curve F (Z.of_nat (13 ^ 1)) is_sqr13 sqrt13 (c13 2) [8; -9; 1] 11 x src.
Lemma run13_0 : run13 0 [c13 5; c13 0; c13 2] = Ok (c13 6, c13 4, [c13 2]).
Proof. unfold run13, cm_curve. rewrite hp13. cbn [bind]. apply show3_ok. vm_compute. reflexivity. Qed.
Lemma run13_1 : run13 1 [c13 5; c13 0; c13 2] = Ok (c13 11, c13 6, []).
Proof. unfold run13, cm_curve. rewrite hp13. cbn [bind]. apply show3_ok. vm_compute. reflexivity. Qed.
Lemma right_killed : killed F (c13 11) (c13 6) 11. Proof. apply killed13. vm_compute. reflexivity. Qed.
Lemma wrong_not_killed : on_curve F (c13 6) (c13 4) (Some (c13 0, c13 2)) /\ pzmul F (c13 6) 11 (Some (c13 0, c13 2)) <> None.
Proof.
  split; [apply zval_inj; vm_compute; reflexivity | ]. assert (E : isO (pzmul F (c13 6) 11 (Some (c13 0, c13 2))) = false) by (vm_compute; reflexivity).
  intro Q. rewrite Q in E. discriminate E.
Qed.
(** no root: x^2 - 2 *)
Lemma no_root13 : ~ exists j : F, is_root (map fofz [-2; 0; 1]) j.
Proof.
  intros (j & R). assert (H : forallb (fun j : F => negb (feqb (value (map fofz [-2; 0; 1]) j) f0)) (zp_elems 13 lt13) = true) by (vm_compute; reflexivity).
  rewrite forallb_forall in H. specialize (H j (zp_elems_in 13 lt13 j)). unfold is_root in R. rewrite R in H. discriminate H.
Qed.
Lemma monic13 : monic (map fofz [-2; 0; 1] : list F) 2.
Proof. split; [reflexivity | apply zval_inj; vm_compute; reflexivity]. Qed.
Lemma p13 : prime (Z.of_nat 13). Proof. exact prime13. Qed.
Lemma run13_none : cm_curve F (Z.of_nat (13 ^ 1)) is_sqr13 sqrt13 (c13 2) [-2; 0; 1] 11 1 [c13 1; c13 4] = Ok (c13 0, c13 0, []).
Proof.
  unfold cm_curve. destruct (findroot_ok F F_laws 13 1 p13 order13 _ 2 monic13 ltac:(lia)) as (_ & H & _).
  rewrite (proj2 (H _) no_root13). cbn [bind]. apply show3_ok. vm_compute. reflexivity.
Qed.
(** type F: b = 3 is taken for r = 7, which does not divide the order 9 *)
Lemma f13_zero : f_curve_loop F is_sqr13 sqrt13 7 [0] [c13 3; c13 0] = Ok (c13 3, [], []) /\
  (forall P, ~ order_r F f0 (c13 3) 7 P) /\ killed F f0 (c13 6) 7.
Proof.
  split; [ | split].
  - assert (D : exists G, draw_point F is_sqr13 sqrt13 f0 (c13 3) [c13 0] = Ok (G, [])).
    { destruct (draw_on F F_laws is_sqr13 sqrt13 roots13 f0 (c13 3) [c13 0]) as [(x & y & s & E & _) | E].
      - rewrite E. assert (L : match draw_point F is_sqr13 sqrt13 f0 (c13 3) [c13 0] with Ok (_, s) => length s = 0%nat | _ => False end) by (vm_compute; reflexivity).
        rewrite E in L. destruct s; [eauto | discriminate L].
      - exfalso. assert (L : match draw_point F is_sqr13 sqrt13 f0 (c13 3) [c13 0] with Ok (_, s) => length s = 0%nat | _ => False end) by (vm_compute; reflexivity).
        rewrite E in L. auto. }
    destruct D as (G & D). apply (f_curve_zero F F_laws) with (G := G); auto; try lia.
    + apply F_neq. vm_compute. discriminate.
    + apply F_neq. vm_compute. discriminate.
    + apply roots13.
    + apply F_neq. vm_compute. discriminate.
  - intros P (O & N & E). assert (T : isO P || negb (isO (pzmul F f0 7 P)) = true).
    { apply (all13 f0 (c13 3) (fun P => isO P || negb (isO (pzmul F f0 7 P)))); auto. }
    rewrite E in T. destruct P; [discriminate T | apply N; reflexivity].
  - apply killed13. vm_compute. reflexivity.
Qed.
