(** The product that pbc_hilbert accumulates, and its rounding. *)
From Coq Require Import ZArith List Bool Lia Ring Field Setoid Morphisms QArith Qcanon Lqa.
From Verif.Base Require Import Outcome Algebra.
From Verif.Spec Require Import FiniteField Quadratic Polynomials ClassPolynomial.
From Verif.Model Require Import Mpc Hilbert.
From Verif.Proofs Require Import FieldFacts PolyAlgebra QuadFacts MpcFacts HilbertForms.
Import ListNotations.
Open Scope Z_scope.

(** ** Lists of coefficients, the highest first, times X + p and X^2 + p1 X + p0 *)
Section L.
Variable L : fld.
Hypothesis HL : fld_laws L.
Add Field LFh : (fl_field L HL).
Add Ring PolyRh : (poly_ring L HL) (setoid (eqp_equiv L) (poly_ext L HL)).
Existing Instance eqp_equiv.
Notation poly := (list L).
Instance addp_pr : Proper (eqp ==> eqp ==> eqp) (addp L) := addp_proper L HL.
Instance mulp_pr : Proper (eqp ==> eqp ==> eqp) (mulp L) := mulp_proper L HL.
Fixpoint mono (n : nat) : poly := match n with O => [f1] | S n' => f0 :: mono n' end.
Lemma mono_S : forall n, eqp (mono (S n)) (mulp L [f0; f1] (mono n)). Proof. intro n. cbn [mono]. apply (shift_mulp L HL). Qed.
Lemma snoc : forall (l : poly) c, eqp (l ++ [c]) (addp L l (mulp L [c] (mono (length l)))).
Proof.
  induction l as [ | a l IH]; intros c.
  - cbn [app length mono]. intro i. rewrite (coef_addp L HL), (coef_nil L), (coef_mulp L HL), <- (coef_mulp L HL).
    assert (E : eqp (mulp L [c] [f1]) [c]) by (rewrite (mulp_comm L HL); apply (mulp_1_l L HL)). rewrite (E i). ring.
  - cbn [app length]. rewrite (cons_split L HL a (l ++ [c])), (cons_split L HL a l), mono_S, IH. ring.
Qed.
Fixpoint mul1 (p prev : L) (l : poly) : poly := match l with [] => [fmul prev p] | c :: l' => fadd c (fmul prev p) :: mul1 p c l' end.
Lemma mul1_length : forall l p prev, length (mul1 p prev l) = S (length l). Proof. induction l; intros; cbn [mul1 length]; auto. Qed.
Lemma split_add : forall a b : L, eqp [fadd a b] (addp L [a] [b]). Proof. intros a b. cbn [addp]. reflexivity. Qed.
Lemma split_mul : forall a b : L, eqp [fmul a b] (mulp L [a] [b]).
Proof. intros a b. cbn [mulp scalp map addp]. intro i. rewrite !coef_cons. destruct i; [ring | ]. rewrite !coef_nil. destruct i; cbn; auto. Qed.
Lemma lin_split : forall p q : L, eqp [p; q] (addp L [p] (mulp L [f0; f1] [q])). Proof. intros. apply (cons_split L HL). Qed.
Lemma mul1_ok : forall l p prev, eqp (rev (mul1 p prev l)) (addp L (mulp L (rev l) [p; f1]) (mulp L [fmul prev p] (mono (length l)))).
Proof.
  induction l as [ | c l IH]; intros p prev.
  - cbn [mul1 rev app length mono]. ring.
  - cbn [mul1 rev length]. rewrite !snoc, !rev_length, mul1_length, IH, mono_S, split_add, !split_mul, (lin_split p f1). ring.
Qed.
Lemma mul1_top : forall l p, eqp (rev (mul1 p f1 l) ++ [f1]) (mulp L (rev l ++ [f1]) [p; f1]).
Proof.
  intros l p. rewrite !snoc, !rev_length, mul1_length, mul1_ok, mono_S, split_mul, (lin_split p f1). ring.
Qed.
Fixpoint mul2 (p0 p1 z1 z2 : L) (l : poly) : poly :=
  match l with [] => [fadd (fmul p1 z1) (fmul z2 p0); fmul p0 z1] | c :: l' => fadd c (fadd (fmul z2 p0) (fmul z1 p1)) :: mul2 p0 p1 c z1 l' end.
Lemma mul2_length : forall l p0 p1 z1 z2, length (mul2 p0 p1 z1 z2 l) = S (S (length l)). Proof. induction l; intros; cbn [mul2 length]; auto. Qed.
Lemma mul2_ok : forall l p0 p1 z1 z2, eqp (rev (mul2 p0 p1 z1 z2 l))
  (addp L (mulp L (rev l) [p0; p1; f1]) (addp L (mulp L [fadd (fmul p1 z1) (fmul z2 p0)] (mono (S (length l)))) (mulp L [fmul p0 z1] (mono (length l))))).
Proof.
  induction l as [ | c l IH]; intros p0 p1 z1 z2.
  - cbn [mul2 rev app length]. rewrite mono_S. cbn [mono]. rewrite lin_split. ring.
  - cbn [mul2 rev length]. rewrite !snoc, !rev_length, mul2_length, IH, !mono_S, !split_add, !split_mul, (cons_split L HL p0 [p1; f1]), (lin_split p1 f1). ring.
Qed.
Lemma mul2_top : forall l p0 p1, eqp (rev (match l with [] => [p1; p0] | c :: l' => fadd c p1 :: mul2 p0 p1 c f1 l' end) ++ [f1]) (mulp L (rev l ++ [f1]) [p0; p1; f1]).
Proof.
  intros [ | c l] p0 p1.
  - cbn [rev app]. rewrite (mulp_1_l L HL). reflexivity.
  - cbn [rev]. do 4 (rewrite snoc, ?app_length, ?rev_length, ?mul2_length). rewrite mul2_ok. cbn [length]. rewrite !Nat.add_1_r, !mono_S, !split_add, !split_mul, (cons_split L HL p0 [p1; f1]), (lin_split p1 f1). ring.
Qed.
End L.

Section C.
Variable K : fld.
Hypothesis HK : fld_laws K.
Hypothesis Hi : ~ is_square (fopp (f1 : K)).
Add Field KFhp : (fl_field K HK).
Notation C := (Cx K).
Let HC : fld_laws C := C_laws K HK Hi.
Add Field CFhp : (fl_field C HC).
Add Ring PolyRhc : (poly_ring C HC) (setoid (eqp_equiv C) (poly_ext C HC)).
Existing Instance eqp_equiv.
Instance addp_prc : Proper (eqp ==> eqp ==> eqp) (addp C) := addp_proper C HC.
Instance mulp_prc : Proper (eqp ==> eqp ==> eqp) (mulp C) := mulp_proper C HC.
Lemma vmul_ok : forall x y : C, vmul K x y = fmul x y.
Proof. intros x y. unfold vmul. change (fmul x y) with (qmul K (fopp f1) x y). unfold qmul. apply (f_equal2 (@pair K K)); ring. Qed.
Lemma vadd_ok : forall x y : C, vadd K x y = fadd x y. Proof. reflexivity. Qed.
Lemma vneg_ok : forall x : C, vneg K x = fopp x. Proof. reflexivity. Qed.
Lemma times1_loop_ok : forall l p z, (let '(l', z') := times1_loop K p z l in l' ++ [vmul K p z']) = mul1 C p z l :> list C.
Proof.
  induction l as [ | c l IH]; intros p z; cbn [times1_loop mul1].
  - cbn [app]. rewrite vmul_ok. f_equal. ring.
  - specialize (IH p c). destruct (times1_loop K p c l) as [l' z']. cbn [app]. rewrite IH, vadd_ok, vmul_ok. reflexivity.
Qed.
Lemma times1_ok : forall (Pz : list C) (j : C), eqp ((rev (times1 K Pz j) : list C) ++ [f1]) (mulp C (rev Pz ++ [f1]) [fopp j; f1]).
Proof.
  intros Pz j. rewrite <- (mul1_top C HC). unfold times1. rewrite vneg_ok. destruct Pz as [ | c l].
  - cbn [mul1]. replace (fmul (f1 : C) (fopp j)) with (fopp j : C) by ring. reflexivity.
  - cbn [mul1]. pose proof (times1_loop_ok l (fopp (j : C)) c) as E. destruct (times1_loop K (fopp (j : C)) c l) as [l' z']. cbn [app].
    rewrite E, vadd_ok. replace (fmul (f1 : C) (fopp j)) with (fopp j : C) by ring. reflexivity.
Qed.
Lemma times2_loop_ok : forall l p0 p1 z1 z2,
  (let '(l', y1, y2) := times2_loop K p0 p1 z1 z2 l in l' ++ [vadd K (vmul K p1 y1) (vmul K y2 p0); vmul K p0 y1]) = mul2 C p0 p1 z1 z2 l.
Proof.
  induction l as [ | c l IH]; intros p0 p1 z1 z2; cbn [times2_loop mul2].
  - cbn [app]. rewrite !vmul_ok, vadd_ok. auto.
  - specialize (IH p0 p1 c z1). destruct (times2_loop K p0 p1 c z1 l) as [[l' y1] y2]. cbn [app]. rewrite IH, !vadd_ok, !vmul_ok. reflexivity.
Qed.
Lemma times2_ok : forall (Pz : list C) (j : C), eqp ((rev (times2 K Pz j) : list C) ++ [f1]) (mulp C (rev Pz ++ [f1]) (mulp C [fopp j; f1] [fopp (conj_c (j : C)); f1])).
Proof.
  intros Pz j. set (p1 := (fopp (fadd (fst j) (fst j)), f0) : C). set (p0 := (fadd (fmul (snd j) (snd j)) (fmul (fst j) (fst j)), f0) : C).
  assert (E : eqp (mulp C [fopp j; f1] [fopp (conj_c (j : C)); f1]) [p0; p1; f1]).
  { assert (E0 : fmul (j : C) (conj_c (j : C)) = p0).
    { change (fmul (j : C) (conj_c (j : C))) with (qmul K (fopp f1) j (conj_c (j : C))). unfold p0, qmul, conj_c. cbn [fst snd]. apply (f_equal2 (@pair K K)); ring. }
    assert (E1 : fopp (fadd (j : C) (conj_c (j : C))) = p1).
    { unfold p1, conj_c. cbn [fadd fopp Cx Quad fst snd]. apply (f_equal2 (@pair K K)); ring. }
    rewrite <- E0, <- E1. cbn [mulp scalp map addp]. intro i. destruct i as [ | [ | [ | i]]]; rewrite ?coef_cons, ?coef_nil; ring. }
  rewrite E, <- (mul2_top C HC). unfold times2. fold p0 p1. destruct Pz as [ | c [ | c1 l]].
  - reflexivity.
  - cbn [mul2]. rewrite !vadd_ok, !vmul_ok.
    replace (fadd (fmul p1 c) (fmul (f1 : C) p0)) with (fadd (fmul (c : C) p1) p0) by ring. reflexivity.
  - cbn [mul2]. rewrite !vadd_ok, !vmul_ok. pose proof (times2_loop_ok l p0 p1 c1 c) as E2. destruct (times2_loop K p0 p1 c1 c l) as [[l' y1] y2].
    rewrite !vadd_ok, !vmul_ok in E2. cbn [app]. rewrite !vadd_ok, !vmul_ok, E2.
    replace (fadd (c1 : C) (fadd (fmul (f1 : C) p0) (fmul c p1))) with (fadd (fadd (c1 : C) (fmul c p1)) p0) by ring. reflexivity.
Qed.
Lemma class_app : forall (j : Z -> Z -> C) l l', eqp (class_polynomial j (l ++ l')) (mulp C (class_polynomial j l) (class_polynomial j l')).
Proof.
  intros j l l'. unfold class_polynomial. induction l as [ | [[a b] c] l IH]; cbn [app fold_right].
  - rewrite (mulp_1_l C HC). reflexivity.
  - rewrite !(Xmul_eqp C HC), IH. ring.
Qed.
Lemma visit_ok : forall (j : Z -> Z -> C), (forall a b, j a (- b) = conj_c (j a b)) -> forall v (Pz : list C),
  eqp ((rev (visit K j Pz v) : list C) ++ [f1]) (mulp C (rev Pz ++ [f1]) (class_polynomial j (both v))).
Proof.
  intros j HJ [[a b] t] Pz. unfold visit, both. destruct ((a =? b) || (a * a =? t) || (b =? 0)); unfold class_polynomial; cbn [fold_right].
  - rewrite times1_ok, (Xmul_eqp C HC). ring.
  - rewrite times2_ok, !(Xmul_eqp C HC), HJ. ring.
Qed.
Lemma visits_ok : forall (j : Z -> Z -> C), (forall a b, j a (- b) = conj_c (j a b)) -> forall l (Pz : list C),
  eqp ((rev (fold_left (visit K j) l Pz) : list C) ++ [f1]) (mulp C (rev Pz ++ [f1]) (class_polynomial j (flat_map both l))).
Proof.
  intros j HJ. induction l as [ | v l IH]; intro Pz.
  - cbn [fold_left flat_map class_polynomial fold_right]. rewrite (mulp_comm C HC), (mulp_1_l C HC). reflexivity.
  - cbn [fold_left flat_map]. rewrite IH, visit_ok, class_app by auto. ring.
Qed.
Lemma times1_length : forall Pz j, length (times1 K Pz j) = S (length Pz).
Proof.
  intros Pz j. unfold times1. destruct Pz as [ | c l]; [reflexivity | ].
  pose proof (times1_loop_ok l (vneg K j) c) as E. destruct (times1_loop K (vneg K j) c l) as [l' z']. apply (f_equal (@length _)) in E.
  rewrite (mul1_length C) in E. cbn [app length]. f_equal. exact E.
Qed.
Lemma times2_length : forall Pz j, length (times2 K Pz j) = S (S (length Pz)).
Proof.
  intros Pz j. unfold times2. destruct Pz as [ | c [ | c1 l]]; [reflexivity | reflexivity | ]. cbv zeta.
  match goal with |- context [times2_loop K ?p0 ?p1 c1 c l] => pose proof (times2_loop_ok l p0 p1 c1 c) as E; destruct (times2_loop K p0 p1 c1 c l) as [[l' y1] y2] end.
  apply (f_equal (@length _)) in E. rewrite (mul2_length C) in E. cbn [app length]. do 2 f_equal. exact E.
Qed.
Lemma visits_length : forall j l Pz, length (fold_left (visit K j) l Pz) = (length Pz + length (flat_map both l))%nat.
Proof.
  induction l as [ | [[a b] t] l IH]; intro Pz; cbn [fold_left flat_map]; [cbn; lia | ]. rewrite IH, app_length. unfold visit, both.
  destruct ((a =? b) || (a * a =? t) || (b =? 0)); [rewrite times1_length | rewrite times2_length]; cbn [length]; lia.
Qed.

Theorem hilbert_exact : forall D, discriminant D -> D < 2 ^ 30 -> forall fuel, D < Z.of_nat fuel ->
  forall j : Z -> Z -> C, (forall a b, j a (- b) = conj_c (j a b)) ->
  exists l : list (Z * Z * Z), NoDup l /\ (forall a b c, In (a, b, c) l <-> reduced D a b c) /\
    class_number fuel D = Ok (Z.of_nat (length l)) /\
    exists Pz, accumulate K fuel j D = Ok Pz /\ length Pz = length l /\ eqp ((rev Pz : list C) ++ [f1]) (class_polynomial j l).
Proof.
  intros D HD U fuel F j HJ. destruct (forms_ok D HD U fuel F) as (l & E & N & I). exists (flat_map both l).
  split; [apply (both_nodup D); auto | ]. split; [apply (both_in D l I) | ].
  split; [rewrite both_length; apply count_ok; auto | ].
  unfold accumulate. rewrite E. cbn [bind]. eexists. split; [reflexivity | ]. split; [rewrite visits_length; auto | ].
  rewrite visits_ok by auto. cbn [rev app]. apply (mulp_1_l C HC).
Qed.
End C.

(** ** Rationals *)
Lemma Qfield_laws : fld_laws Qfield.
Proof.
  constructor; [exact Qcft | ]. intros x y. cbn [feqb Qfield]. split; [apply Qc_eq_bool_correct | intros ->].
  unfold Qc_eq_bool. destruct (Qc_eq_dec y y); auto.
Qed.
Lemma Qfield_i : ~ is_square (fopp (f1 : Qfield)).
Proof.
  intros [x E]. cbn in E. assert (H : (0 <= x * x)%Qc).
  { unfold Qcle, Qcmult, Q2Qc. cbn [this]. rewrite !Qred_correct.
    destruct (this x) as [n d]. unfold Qle, Qmult. cbn. nia. }
  rewrite E in H. apply H. reflexivity.
Qed.
Lemma trunc_ok : forall (y : Qc) n, (0 < n -> (inject_Z n <= y < inject_Z n + 1)%Q) -> (n < 0 -> (inject_Z n - 1 < y <= inject_Z n)%Q) ->
  (n = 0 -> (- (1) < y < 1)%Q) -> trunc y = n.
Proof.
  intros [[p d] c] n P N Z0. unfold trunc. cbn [this Qnum Qden] in *. destruct (Z.lt_trichotomy 0 n) as [H | [H | H]].
  - specialize (P H). unfold Qle, Qlt, Qplus, inject_Z in P. cbn [Qnum Qden] in P. symmetry. apply Z.quot_unique with (p - n * Zpos d); lia.
  - subst n. specialize (Z0 eq_refl). unfold Qlt, Qopp in Z0. cbn [Qnum Qden] in Z0. apply Z.quot_small_iff; lia.
  - specialize (N H). unfold Qle, Qlt, Qminus, Qplus, Qopp, inject_Z in N. cbn [Qnum Qden] in N.
    rewrite <- (Z.opp_involutive p), Z.quot_opp_l by lia. assert (E : - n = Z.quot (- p) (Zpos d)) by (apply Z.quot_unique with (- (p - n * Zpos d)); lia). lia.
Qed.
Lemma round_ok : forall x n, within_half x n -> round_re x = n.
Proof.
  intros x n [A B]. unfold round_re.
  assert (A' : (inject_Z n - (1 # 2) < x)%Q).
  { unfold Qclt, Qcminus, Qcplus, Qcopp, Qc_of, half, Q2Qc in A. cbn [this] in A. rewrite !Qred_correct in A. exact A. }
  assert (B' : (x < inject_Z n + (1 # 2))%Q).
  { unfold Qclt, Qcplus, Qc_of, half, Q2Qc in B. cbn [this] in B. rewrite !Qred_correct in B. exact B. }
  clear A B. assert (I : (n < 0 -> (inject_Z n <= - (1))%Q) /\ (0 < n -> (1 <= inject_Z n)%Q) /\ (n = 0 -> (inject_Z n == 0)%Q)).
  { repeat split; intro H; [ | | subst; reflexivity]; unfold Qle, inject_Z, Qopp; cbn; lia. }
  destruct I as (I1 & I2 & I3). destruct (Qle_bool 0 x) eqn:Q.
  - apply Qle_bool_iff in Q. apply trunc_ok; unfold Qcplus, Q2Qc; cbn [this]; rewrite !Qred_correct; intro H.
    + split; lra.
    + specialize (I1 H). split; lra.
    + specialize (I3 H). split; lra.
  - assert (Q' : (x < 0)%Q) by (apply Qnot_le_lt; intro W; apply Qle_bool_iff in W; congruence).
    apply trunc_ok; unfold Qcplus, Q2Qc; cbn [this]; rewrite !Qred_correct; intro H.
    + specialize (I2 H). split; lra.
    + split; lra.
    + specialize (I3 H). split; lra.
Qed.

Lemma rounded : forall (R : list (Qc * Qc)) H n, length R = n -> length H = S n ->
  (forall i, within_half (fst (nth i (R ++ [(Q2Qc 1, Q2Qc 0)]) (Q2Qc 0, Q2Qc 0))) (nth i H 0%Z)) -> map (fun c => round_re (fst c)) R ++ [1%Z] = H.
Proof.
  intros R H n RL LH W. apply nth_ext with (d := 0) (d' := 0).
  { rewrite app_length, map_length, RL, LH. cbn. lia. }
  intros i Hi. rewrite app_length, map_length, RL in Hi. cbn [length] in Hi. specialize (W i).
  destruct (Nat.lt_ge_cases i n) as [Q | Q].
  - rewrite app_nth1 in W by (rewrite RL; auto). rewrite app_nth1 by (rewrite map_length, RL; auto).
    rewrite nth_indep with (d' := (fun c : Qc * Qc => round_re (fst c)) (Q2Qc 0, Q2Qc 0)) by (rewrite map_length, RL; auto).
    rewrite (map_nth (fun c : Qc * Qc => round_re (fst c)) R (Q2Qc 0, Q2Qc 0) i). apply round_ok. exact W.
  - assert (i = n) by lia. subst i. rewrite app_nth2 in W by (rewrite RL; auto). rewrite app_nth2 by (rewrite map_length, RL; auto).
    rewrite ?map_length, RL, Nat.sub_diag in *. cbn [nth fst] in *. apply round_ok in W. rewrite <- W. reflexivity.
Qed.
Theorem hilbert_ok : forall D, discriminant D -> D < 2 ^ 30 -> forall fuel, D < Z.of_nat fuel ->
  forall j : Z -> Z -> Cx Qfield, (forall a b, j a (- b) = conj_c (j a b)) ->
  exists l : list (Z * Z * Z), NoDup l /\ (forall a b c, In (a, b, c) l <-> reduced D a b c) /\
    forall H : list Z, length H = S (length l) -> (forall i, within_half (fst (coef (class_polynomial j l) i)) (nth i H 0%Z)) -> 
      pbc_hilbert Qfield round_re fuel j D = Ok H.
Proof.
  intros D HD U fuel F j HJ. destruct (hilbert_exact Qfield Qfield_laws Qfield_i D HD U fuel F j HJ) as (l & N & I & _ & Pz & E & LE & EQ).
  exists l. split; auto. split; auto. intros H LH W. unfold pbc_hilbert. rewrite E. cbn [bind]. f_equal.
  apply (rounded (rev Pz) H (length l)); auto; [rewrite rev_length; exact LE | ].
  intro i. specialize (W i). rewrite <- EQ in W. exact W.
Qed.

(** ** Witnesses *)
Lemma add_ui_bad : exists (s : nat -> Qfield * Qfield) r x n, mpc_add_ui Qfield s r x n r <> fadd (s x : Cx Qfield) (Slots.fofz n).
Proof.
  exists (fun i => match i with O => (f0, f0) | _ => (f0, f1) end), 0%nat, 1%nat, 0%Z. intro H.
  apply (f_equal snd) in H. cbn in H. apply (f_equal this) in H. vm_compute in H. discriminate.
Qed.
Lemma form_imprimitive : discriminant 12 /\ exists l, forms 13 12 = Ok l /\ In (2, 2, 4) l /\ reduced 12 2 2 2 /\ ~ primitive 2 2 2.
Proof.
  split; [split; [lia | left; reflexivity] | ]. eexists. split; [reflexivity | ]. split; [cbn; auto | ]. split; [unfold reduced; lia | ]. intro H. discriminate H.
Qed.
Lemma example_23 : discriminant 23 /\ reduced 23 2 (-1) 3 /\ reduced 23 1 1 6 /\ class_number 24 23 = Ok 3 /\
  let j := fun a b => (Qc_of a, Qc_of b) : Cx Qfield in
  (forall a b, j a (- b) = conj_c (j a b)) /\ pbc_hilbert Qfield round_re 24 j 23 = Ok [-5; 9; -5; 1].
Proof.
  split; [split; [lia | right; reflexivity] | ]. split; [unfold reduced; lia | ]. split; [unfold reduced; lia | ]. split; [reflexivity | ]. cbv zeta. split.
  - intros a b. unfold conj_c. cbn [fst snd]. apply (f_equal2 (@pair Qc Qc)); [reflexivity | ]. cbn [fopp Qfield]. apply Qc_is_canon. unfold Qc_of, Qcopp, Q2Qc. cbn [this]. rewrite !Qred_correct. reflexivity.
  - vm_compute. reflexivity.
Qed.
