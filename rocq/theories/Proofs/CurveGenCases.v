(** Instances of the whole choice: type D over F_13 with r = 157, type F over F_7
    with r = 13. *)
From Coq Require Import ZArith Znumtheory List Bool Lia Arith Ring Field.
From Verif.Base Require Import Outcome Array Algebra Slots.
From Verif.Spec Require Import FiniteField Polynomials Extension Quadratic Roots Curve CurveCalls HashToCurve CurveChoice Twist PairingValueD PairingValueF.
From Verif.Model Require Import GenericPow Curve CurveCodec CurveGen.
From Verif.Proofs Require Import FieldFacts FpWitness ZpField RootFacts RootWitness PolyAlgebra PolyRoots CurveFacts PolySearchWitness ExtFacts PolymodFacts ExtFrobenius QuadFacts MntMain PairingDWitness PairingFMain CurveGenFacts CurveGenF CurveGenMain CurveWitness CurveGenWitness.
From Verif.Model Require Import CurveGen.
Import ListNotations.
Open Scope Z_scope.

Section O.
Variables (isprime : Z -> bool) (nextprime : Z -> Z).
Hypothesis Hip : forall m, 1 <= m -> isprime m = true <-> prime m.
Hypothesis Hnp : forall p, prime p -> p < nextprime p /\ prime (nextprime p) /\ forall q, prime q -> p < q -> nextprime p <= q.

Definition cube13 : list F := [c13 11; c13 0; c13 0].
Lemma cube13_irreducible : irreducible (cube13 ++ [f1]).
Proof.
  apply (no_roots_irreducible F F_laws).
  - intros _. cbn. apply (f_1_neq_0 F F_laws).
  - right. reflexivity.
  - intros x E. assert (H : forallb (fun x : F => negb (feqb (peval F (cube13 ++ [f1]) x) f0)) (zp_elems 13 lt13) = true) by (vm_compute; reflexivity).
    rewrite forallb_forall in H. specialize (H x (zp_elems_in 13 lt13 x)). cbv beta in H. rewrite E in H. discriminate H.
Qed.
Lemma cube13_monic : monic (cube13 ++ [f1]) 3. Proof. split; reflexivity. Qed.
Lemma two13 : ~ is_square (c13 2). Proof. apply (non_square 13 lt13 prime13). vm_compute. reflexivity. Qed.
Lemma two13_up : ~ is_square (const F 3 (cube13 ++ [f1]) (c13 2)).
Proof. apply (nonsquare_up F F_laws 3 (cube13 ++ [f1]) cube13_monic cube13_irreducible ltac:(lia) 13 prime13 (Zp_order 13 lt13) ltac:(lia) eq_refl (c13 2) two13). Qed.
Lemma d_case : extension_gen F 13 isprime nextprime 1 3 (cube13 ++ [c13 2]) = Ok (cube13 ++ [f1], c13 2, []).
Proof. apply (gen_draw F F_laws 13 1 prime13 (Zp_order 13 lt13) eq_refl isprime nextprime Hip Hnp 3 ltac:(lia)); auto using cube13_irreducible, two13_up. Qed.
Lemma d_case_type : type_d F 3 (cube13 ++ [f1]) (c13 2) (c13 11) (c13 6) 13 157.
Proof.
  assert (PR : prime 157) by (apply isprime_spec; vm_compute; reflexivity).
  assert (N1 : c13 2 <> f0) by (apply F_neq; vm_compute; discriminate).
  assert (M : monic (map fofz [8; -9; 1] : list F) 2) by (split; [reflexivity | apply zval_inj; vm_compute; reflexivity]).
  assert (R : exists j : F, is_root (map fofz [8; -9; 1]) j) by (exists (c13 8); apply zval_inj; vm_compute; reflexivity).
  assert (N0 : ~ is_root (map fofz [8; -9; 1]) (f0 : F)) by (apply F_neq; vm_compute; discriminate).
  assert (DV : (157 | 13 * 13 - 13 + 1)) by (exists 1; reflexivity).
  pose proof run13_1 as R1. unfold run13 in R1. change (Z.of_nat (13 ^ 1)) with 13 in R1.
  pose proof d_case as DC.
  pose proof (d_generated F F_laws 13 prime13 ltac:(lia) (Zp_order 13 lt13) isprime nextprime Hip Hnp is_sqr13 sqrt13 roots13
    157 1%nat _ _ _ _ PR ltac:(lia) DV DC N1 (c13 2) [8; -9; 1] 2%nat 11 1 [c13 5; c13 0; c13 2] (c13 11) (c13 6) [] N1 ltac:(lia) ltac:(lia) M ltac:(lia) R N0 R1) as RES.
  exact RES.
Qed.
End O.

Definition elems49 : list M49 := list_prod (zp_elems 7 lt7) (zp_elems 7 lt7).
Lemma elems49_in : forall z, In z elems49. Proof. intros [x y]. apply in_prod; apply zp_elems_in. Qed.
Definition is_sqr49 (x : M49) : bool := existsb (fun y => feqb (fmul y y) x) elems49.
Definition sqrt49 (x : M49) : res M49 := match find (fun y => feqb (fmul y y) x) elems49 with Some y => Ok y | None => Die end.
Lemma roots49 : good_roots M49 is_sqr49 sqrt49.
Proof.
  split.
  - intro x. unfold is_sqr49. rewrite existsb_exists. split.
    + intros (y & _ & E). exists y. apply (fl_eqb M49 L49). auto.
    + intros (y & E). exists y. split; [apply elems49_in | apply (fl_eqb M49 L49); auto].
  - intros x (y & E). unfold sqrt49. destruct (find (fun y => feqb (fmul y y) x) elems49) as [z | ] eqn:T.
    + exists z. split; auto. apply find_some in T. apply (fl_eqb M49 L49). apply T.
    + exfalso. pose proof (find_none _ _ T y (elems49_in y)) as C. cbv beta in C. rewrite (proj2 (fl_eqb M49 L49 _ _) E) in C. discriminate C.
Qed.
Definition z12 := (7 ^ 12 + 1 - trace_n 7 (-5) 12) / (13 * 13).
Definition flag (x : Z) : option (bool * nat) :=
  match test_order M49 is_sqr49 sqrt49 f0 (fopp (fmul (low F7 (e7 3) (e7 3)) a49)) z12 x elems49 with Ok (b, s) => Some (b, length s) | _ => None end.
Definition b49 (alpha : M49) : M49 := fopp (fmul (low F7 (e7 3) (e7 3)) alpha).
Definition points49 : list (M49 * M49) := list_prod elems49 elems49.
Definition order13_on (b : M49) (P : M49 * M49) : bool :=
  feqb (fmul (snd P) (snd P)) (rhs M49 f0 b (fst P)) && match pzmul M49 f0 13 (Some P) with None => true | Some _ => false end.
Section P.
Variables (isprime : Z -> bool) (nextprime : Z -> Z).
Hypothesis Hip : forall m, 1 <= m -> isprime m = true <-> prime m.
Hypothesis Hnp : forall p, prime p -> p < nextprime p /\ prime (nextprime p) /\ forall q, prime q -> p < q -> nextprime p <= q.
Definition gen49 (x : Z) := sextic_gen M49 (7 * 7) isprime nextprime is_sqr49 sqrt49 (low F7 (e7 3) (e7 3)) 7 (-5) 13 x (a49 :: elems49).
Lemma order49 : has_order M49 (Z.of_nat (7 ^ 2)).
Proof. exact (Quad_order F7 (e7 3) 7 (Zp_order 7 lt7)). Qed.
Lemma loop49 : sextic_loop M49 (7 * 7) isprime nextprime (a49 :: elems49) = Ok (a49, elems49).
Proof.
  destruct (sextic_draw M49 L49 7 2 P7 order49 isprime nextprime Hip Hnp a49 elems49) as [(_ & E) | (N & _)]; [exact E | ].
  exfalso. apply N. exact irr49.
Qed.
Lemma flag_ok : forall x b k, flag x = Some (b, k) -> exists s, test_order M49 is_sqr49 sqrt49 f0 (b49 a49) z12 x elems49 = Ok (b, s).
Proof.
  intros x b k E. unfold flag in E. fold (b49 a49) in E. destruct (test_order M49 is_sqr49 sqrt49 f0 (b49 a49) z12 x elems49) as [[b' s] | | | ]; try discriminate E.
  exists s. inversion E. reflexivity.
Qed.
Lemma fix49 : forall x, fix_twist M49 is_sqr49 sqrt49 (low F7 (e7 3) (e7 3)) 7 (-5) 13 x a49 elems49 =
  (' (ok, src) <- test_order M49 is_sqr49 sqrt49 f0 (b49 a49) z12 x elems49 ;;
   if ok then alpha <- generic_pow_mpz (mul_monoid M49) a49 5 ;; Ok (alpha, src) else Ok (a49, src)).
Proof. reflexivity. Qed.
Lemma gen49_1 : exists s, gen49 1 = Ok (a49, s).
Proof.
  destruct (flag_ok 1 false 45 ltac:(vm_compute; reflexivity)) as (s & E). exists s. unfold gen49, sextic_gen. rewrite loop49. cbn [bind].
  rewrite fix49, E. reflexivity.
Qed.
Lemma gen49_0 : exists s, gen49 0 = Ok (fifth M49 a49, s).
Proof.
  destruct (flag_ok 0 true 45 ltac:(vm_compute; reflexivity)) as (s & E). exists s. unfold gen49, sextic_gen. rewrite loop49. cbn [bind].
  rewrite fix49, E. cbn [bind]. rewrite (pow5 M49 L49). reflexivity.
Qed.
Lemma gen49_type : type_f F7 (e7 3) a49 (e7 3) 7 13.
Proof.
  destruct gen49_1 as (s & E). assert (PR : prime 13) by exact prime13. assert (DV : (13 | 7 ^ 4 - 7 ^ 2 + 1)) by (exists 181; reflexivity).
  assert (NB : e7 3 <> f0) by (intro Q; apply (f_equal (zval 7)) in Q; vm_compute in Q; discriminate Q).
  assert (N12 : 0 <= 7 ^ 12 + 1 - trace_n 7 (-5) 12) by (vm_compute; discriminate).
  pose proof (f_generated F7 (Zp_laws 7 lt7 P7) 7 P7 ltac:(lia) (Zp_order 7 lt7) isprime nextprime Hip Hnp (e7 3) b7 is_sqr49 sqrt49 roots49) as G.
  exact (G 13 (e7 3) (-5) 1 (a49 :: elems49) a49 s PR ltac:(lia) DV NB ltac:(lia) N12 E).
Qed.
End P.
(** the twist for alpha has points of order 13, the one for alpha^5 has none *)
Lemma order13_ok : forall b P, order13_on b P = true -> order_r M49 f0 b 13 (Some P).
Proof.
  intros b P E. unfold order13_on in E. apply andb_true_iff in E. destruct E as [E1 E2]. apply (fl_eqb M49 L49) in E1.
  destruct P as [x y]. split; [exact E1 | split; [discriminate | ]]. destruct (pzmul M49 f0 13 (Some (x, y))); [discriminate E2 | reflexivity].
Qed.
Lemma twist_order : exists Q, order_r M49 f0 (b49 a49) 13 Q.
Proof. exists (Some ((e7 1, e7 2), (e7 1, e7 5))). apply order13_ok. vm_compute. reflexivity. Qed.
Lemma twist_none : forall Q, ~ order_r M49 f0 (b49 (fifth M49 a49)) 13 Q.
Proof.
  intros [P | ] (O & N & E); [ | apply N; reflexivity].
  assert (H : forallb (fun P => negb (order13_on (b49 (fifth M49 a49)) P)) points49 = true) by (vm_compute; reflexivity).
  rewrite forallb_forall in H. assert (I : In P points49) by (destruct P; apply in_prod; apply elems49_in).
  specialize (H P I). cbv beta in H. unfold order13_on in H. rewrite E in H. destruct P as [x y]. cbn [fst snd] in H.
  change (fmul y y = rhs M49 f0 (b49 (fifth M49 a49)) x) in O. rewrite O, (feqb_refl M49 L49) in H. discriminate H.
Qed.
(** Statements for Properties/GeneratedCurves.v *)
Lemma runs13 :
  (cm_curve F 13 is_sqr13 sqrt13 (c13 2) [8; -9; 1] 11 0 [c13 5; c13 0; c13 2] = Ok (c13 6, c13 4, [c13 2]) /\ ~ killed F (c13 6) (c13 4) 11) /\
  (cm_curve F 13 is_sqr13 sqrt13 (c13 2) [8; -9; 1] 11 1 [c13 5; c13 0; c13 2] = Ok (c13 11, c13 6, []) /\ killed F (c13 11) (c13 6) 11).
Proof.
  pose proof run13_0 as R0. pose proof run13_1 as R1. unfold run13 in R0, R1. change (Z.of_nat (13 ^ 1)) with 13 in R0, R1.
  split; split; [exact R0 | | exact R1 | exact right_killed].
  intro KL. destruct wrong_not_killed as [O N]. apply N. exact (KL _ O).
Qed.
Lemma none13 : (~ exists j : F, is_root (map fofz [-2; 0; 1]) j) /\
  cm_curve F 13 is_sqr13 sqrt13 (c13 2) [-2; 0; 1] 11 1 [c13 1; c13 4] = Ok (c13 0, c13 0, []) /\ ~ elliptic F (c13 0) (c13 0).
Proof.
  pose proof run13_none as R. change (Z.of_nat (13 ^ 1)) with 13 in R. split; [exact no_root13 | split; [exact R | ]].
  intros [_ H]. apply H. apply zval_inj. vm_compute. reflexivity.
Qed.
Lemma cm_linear : forall K, fld_laws K -> forall order is_sqr sqrt nqr c n x src, cm_curve K order is_sqr sqrt nqr [c; 1] n x src = UB.
Proof.
  intros K HK order is_sqr sqrt nqr c n x src. unfold cm_curve. cbv zeta.
  rewrite (findroot_low K order src (map fofz [c; 1])) by (cbn; lia). reflexivity.
Qed.
Lemma e_choice : forall K, fld_laws K -> f2 K <> f0 -> f3 K <> f0 -> forall is_sqr sqrt, good_roots K is_sqr sqrt ->
  forall nqr n x src a b s, nqr <> f0 -> 0 <= n -> 0 <= x -> e_curve K is_sqr sqrt nqr n x src = Ok (a, b, s) ->
  elliptic K a b /\ (a, b) = (f0, f1) \/ elliptic K a b /\ a = f0 /\ b = fmul (fmul nqr nqr) nqr /\ ~ killed K f0 f1 n.
Proof.
  intros K HK C2 C3 is_sqr sqrt GR nqr n x src a b s Nv Hn Hx H.
  assert (EL : elliptic K f0 f1) by (apply (elliptic_b K HK C2 C3), (f_1_neq_0 K HK)).
  destruct (choice_ok K HK is_sqr sqrt GR f0 f1 EL nqr n x src _ Hn Hx H) as (G & s' & _ & O & N & [(_ & E) | (T & TW)]).
  - left. inversion E; subst. split; auto.
  - right. cbn [fst] in TW. split; [apply (twist_elliptic K HK nqr f0 f1 a b Nv TW EL) | ]. destruct TW as [E1 E2]. cbn [fst snd] in E1, E2.
    destruct (fl_field K HK) as [R _ _ _]. split; [rewrite E1, (Rmul_comm R); apply (ARmul_0_l (Rth_ARth (Eqsth K) (Eq_ext _ _ _) R)) | ].
    split; [rewrite E2, (Rmul_comm R); apply (Rmul_1_l R) | ].
    intro KL. apply T, KL. destruct EL as (D2 & SM). apply (pzmul_on K HK f0 f1 D2); auto.
Qed.
Section Q.
Variables (isprime : Z -> bool) (nextprime : Z -> Z).
Hypothesis Hip : forall m, 1 <= m -> isprime m = true <-> prime m.
Hypothesis Hnp : forall p, prime p -> p < nextprime p /\ prime (nextprime p) /\ forall q, prime q -> p < q -> nextprime p <= q.
Lemma nqr_zero : extension_gen F 13 isprime nextprime 1 3 (cube13 ++ [f0]) = Ok (cube13 ++ [f1], f0, []) /\ is_square (const F 3 (cube13 ++ [f1]) f0).
Proof.
  split.
  - apply (gen_draw F F_laws 13 1 prime13 (Zp_order 13 lt13) eq_refl isprime nextprime Hip Hnp 3 ltac:(lia)); auto using cube13_irreducible.
  - apply (const_square F F_laws 3 (cube13 ++ [f1]) f0 cube13_monic ltac:(lia)). exists f0. apply zval_inj. vm_compute. reflexivity.
Qed.
Lemma twists49 : (exists s, gen49 isprime nextprime 1 = Ok (a49, s)) /\ (exists Q, order_r M49 f0 (b49 a49) 13 Q) /\
  (exists s, gen49 isprime nextprime 0 = Ok (fifth M49 a49, s)) /\ (forall Q, ~ order_r M49 f0 (b49 (fifth M49 a49)) 13 Q).
Proof. exact (conj (gen49_1 isprime nextprime Hip Hnp) (conj twist_order (conj (gen49_0 isprime nextprime Hip Hnp) twist_none))). Qed.
Lemma whole_cases : extension_gen F 13 isprime nextprime 1 3 (cube13 ++ [c13 2]) = Ok (cube13 ++ [f1], c13 2, []) /\
  type_d F 3 (cube13 ++ [f1]) (c13 2) (c13 11) (c13 6) 13 157 /\
  (exists s, gen49 isprime nextprime 1 = Ok (a49, s)) /\ type_f F7 (e7 3) a49 (e7 3) 7 13.
Proof. exact (conj (d_case isprime nextprime Hip Hnp) (conj (d_case_type isprime nextprime Hip Hnp) (conj (gen49_1 isprime nextprime Hip Hnp) (gen49_type isprime nextprime Hip Hnp)))). Qed.
End Q.
