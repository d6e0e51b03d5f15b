(** Choice of curves, extension polynomials and nonresidues by the generators. *)
From Coq Require Import ZArith Znumtheory List Bool Lia Arith Ring Field.
From Verif.Base Require Import Outcome Array Algebra Slots.
From Verif.Spec Require Import FiniteField Polynomials Extension Roots Curve CurveCalls HashToCurve CurveChoice PairingValueD.
From Verif.Model Require Import GenericPow IntText Poly PolyTests Curve CurveCodec CurveGen.
From Verif.Proofs Require Import FieldFacts SlotFacts PowFacts PowHom CurveGroup CurveFacts CodecFacts ExtFacts PolyTestsFacts PolySqrtFacts PolySearchWitness.
Import ListNotations.
Open Scope Z_scope.

Section Ext.
Variable K : fld.
Hypothesis HK : fld_laws K.
Variables (p e : nat).
Hypothesis Pp : prime (Z.of_nat p).
Hypothesis HO : has_order K (Z.of_nat (p ^ e)).
Notation q := (Z.of_nat (p ^ e)).
Hypothesis Od : Z.odd q = true.
Variables (isprime : Z -> bool) (nextprime : Z -> Z).
Hypothesis Hip : forall m, 1 <= m -> isprime m = true <-> prime m.
Hypothesis Hnp : forall p, prime p -> p < nextprime p /\ prime (nextprime p) /\ forall q, prime q -> p < q -> nextprime p <= q.
Notation irred_loop := (irred_loop K q isprime nextprime).
Notation nqr_loop := (nqr_loop K q).
Notation extension_gen := (extension_gen K q isprime nextprime).
Variable d : nat.
Hypothesis Hd : (0 < d)%nat.

Lemma block_monic : forall cs : list K, length cs = d -> monic (cs ++ [f1]) d.
Proof. intros cs L. split; [rewrite app_length; cbn; lia | ]. unfold coef. rewrite app_nth2 by lia. rewrite L, Nat.sub_diag. reflexivity. Qed.
Lemma irred_draw : forall fuel cs src, length cs = d ->
  (irreducible (cs ++ [f1]) /\ irred_loop (S fuel) d (cs ++ src) = Ok (cs ++ [f1], src)) \/
  (~ irreducible (cs ++ [f1]) /\ irred_loop (S fuel) d (cs ++ src) = irred_loop fuel d src).
Proof.
  intros fuel cs src L. cbn [CurveGen.irred_loop]. unfold random_monic. rewrite app_length, L.
  rewrite (proj2 (Nat.ltb_ge _ _)) by lia. cbn [bind]. rewrite firstn_app, skipn_app, L, Nat.sub_diag. cbn [firstn skipn].
  rewrite app_nil_r. rewrite firstn_all2, skipn_all2 by lia. cbn [app].
  destruct (is_irred_ok K HK p e Pp HO isprime nextprime Hip Hnp _ d (block_monic cs L) Hd) as (b & E & B). rewrite E. cbn [bind].
  destruct b; [left | right]; split; auto; [apply B; auto | intro Q; apply B in Q; discriminate].
Qed.
Lemma irred_short : forall fuel src, (length src < d)%nat -> irred_loop fuel d src = OutOfFuel.
Proof. intros [ | fuel] src L; auto. cbn [CurveGen.irred_loop]. unfold random_monic. rewrite (proj2 (Nat.ltb_lt _ _)) by lia. reflexivity. Qed.
Lemma irred_sound : forall fuel src, (exists f src', irred_loop fuel d src = Ok (f, src') /\ monic f d /\ irreducible f) \/ irred_loop fuel d src = OutOfFuel.
Proof.
  intro fuel. induction fuel as [ | fuel IH]; intro src; [right; auto | ].
  destruct (Nat.lt_ge_cases (length src) d) as [L | L]; [right; apply irred_short; auto | ].
  rewrite <- (firstn_skipn d src). assert (LF : length (firstn d src) = d) by (apply firstn_length_le; auto).
  destruct (irred_draw fuel (firstn d src) (skipn d src) LF) as [(I & E) | (_ & E)]; rewrite E.
  - left. eexists _, _. split; [reflexivity | ]. split; auto. apply block_monic; auto.
  - apply IH.
Qed.
Lemma coeff0_const : forall f c, coeff0 K d c = const K d f c. Proof. reflexivity. Qed.
Lemma const_0 : forall f, const K d f f0 = f0.
Proof. intro f. unfold const. change (@f0 (Ext K d f)) with (mkvec (K := K) d (fun _ => f0)). apply vec_ext. intros i Hi. rewrite !vcoef_mk. destruct (Nat.eqb i 0), (i <? d)%nat; auto. Qed.
Lemma const_inj0 : forall f c, const K d f c = f0 -> c = f0.
Proof.
  intros f c E. assert (V : vcoef (const K d f c) 0 = vcoef (const K d f f0) 0) by (rewrite const_0, E; reflexivity).
  unfold const in V. rewrite !vcoef_mk in V. rewrite (proj2 (Nat.ltb_lt 0 d) Hd) in V. cbn in V. auto.
Qed.
Lemma nqr_draw : forall f c src, monic f d -> irreducible f ->
  ((c = f0 \/ ~ is_square (const K d f c)) /\ nqr_loop d f (c :: src) = Ok (c, src)) \/
  ((c <> f0 /\ is_square (const K d f c)) /\ nqr_loop d f (c :: src) = nqr_loop d f src).
Proof.
  intros f c src Mf If. cbn [CurveGen.nqr_loop]. rewrite (coeff0_const f).
  destruct (ext_is_sqr K HK q d f HO Od Mf Hd If (const K d f c)) as (b & E & B). unfold const in E. unfold const. rewrite E. cbn [bind].
  destruct b.
  - right. split; auto. destruct (proj1 B eq_refl) as [N S]. split; auto. intros ->. apply N. apply const_0.
  - left. split; auto. destruct (feqb c f0) eqn:Z; [left; apply (fl_eqb K HK); auto | right]. intro S.
    assert (Q : false = true); [ | discriminate]. apply B. split; auto. intro E0. apply const_inj0 in E0. apply (fl_eqb K HK) in E0. congruence.
Qed.
Lemma nqr_sound : forall f src, monic f d -> irreducible f ->
  (exists c src', nqr_loop d f src = Ok (c, src') /\ (c = f0 \/ ~ is_square (const K d f c))) \/ nqr_loop d f src = OutOfFuel.
Proof.
  intros f src Mf If. induction src as [ | c src IH]; [right; auto | ].
  destruct (nqr_draw f c src Mf If) as [(S & E) | (_ & E)]; rewrite E; auto. left. eauto.
Qed.
Theorem gen_sound : forall fuel src,
  (exists f c src', extension_gen fuel d src = Ok (f, c, src') /\ monic f d /\ irreducible f /\ (c = f0 \/ ~ is_square (const K d f c))) \/
  extension_gen fuel d src = OutOfFuel.
Proof.
  intros fuel src. unfold CurveGen.extension_gen.
  destruct (irred_sound fuel src) as [(f & s & E & Mf & If) | E]; rewrite E; cbn [bind]; auto.
  destruct (nqr_sound f s Mf If) as [(c & s' & E' & S) | E']; rewrite E'; cbn [bind]; auto.
  left. exists f, c, s'. auto.
Qed.
Theorem gen_draw : forall fuel cs c src, length cs = d -> irreducible (cs ++ [f1]) -> (c = f0 \/ ~ is_square (const K d (cs ++ [f1]) c)) ->
  extension_gen (S fuel) d (cs ++ c :: src) = Ok (cs ++ [f1], c, src).
Proof.
  intros fuel cs c src L If S. unfold CurveGen.extension_gen.
  destruct (irred_draw fuel cs (c :: src) L) as [(_ & E) | (N & _)]; [ | tauto]. rewrite E. cbn [bind].
  destruct (nqr_draw (cs ++ [f1]) c src (block_monic cs L) If) as [(_ & E') | (N & _)]; [rewrite E'; reflexivity | ]. tauto.
Qed.
Theorem gen_skip : forall fuel cs src, length cs = d -> ~ irreducible (cs ++ [f1]) ->
  extension_gen (S fuel) d (cs ++ src) = extension_gen fuel d src.
Proof.
  intros fuel cs src L N. unfold CurveGen.extension_gen.
  destruct (irred_draw fuel cs src L) as [(I & _) | (_ & E)]; [tauto | ]. rewrite E. reflexivity.
Qed.
Theorem gen_skip_square : forall fuel cs c src, length cs = d -> irreducible (cs ++ [f1]) -> c <> f0 -> is_square (const K d (cs ++ [f1]) c) ->
  extension_gen (S fuel) d (cs ++ c :: src) = extension_gen (S fuel) d (cs ++ src).
Proof.
  intros fuel cs c src L If N S. unfold CurveGen.extension_gen.
  destruct (irred_draw fuel cs (c :: src) L) as [(_ & E) | (X & _)]; [ | tauto]. rewrite E. cbn [bind].
  destruct (irred_draw fuel cs src L) as [(_ & E') | (X & _)]; [ | tauto]. rewrite E'. cbn [bind].
  destruct (nqr_draw (cs ++ [f1]) c src (block_monic cs L) If) as [([X | X] & _) | (_ & E2)]; [tauto | tauto | ]. rewrite E2. reflexivity.
Qed.
End Ext.

Section Choice.
Variable K : fld.
Hypothesis HK : fld_laws K.
Add Field KFcg : (fl_field K HK).
Variables (is_sqr : K -> bool) (sqrt : K -> res K).
Hypothesis GR : good_roots K is_sqr sqrt.
Notation draw_point := (draw_point K is_sqr sqrt).
Notation test_order := (test_order K is_sqr sqrt).
Notation twist_if_wrong := (twist_if_wrong K is_sqr sqrt).

Lemma draw_on : forall a b src, (exists x y src', draw_point a b src = Ok (Some (x, y), src') /\ on_curve K a b (Some (x, y))) \/ draw_point a b src = OutOfFuel.
Proof.
  intros a b src. destruct GR as [G1 G2]. induction src as [ | X src IH]; [right; auto | ].
  cbn [CurveGen.draw_point]. cbv zeta. rewrite (cubic_rhs K HK). destruct (is_sqr (rhs K a b X)) eqn:E; [ | apply IH].
  left. destruct (G2 (rhs K a b X)) as (r & -> & R); [apply G1; auto | ]. exists X, r, src. cbn [bind]. split; auto.
Qed.
Lemma draw_random : forall a b src, random_no_cofac K a b is_sqr sqrt src = r <- draw_point a b src ;; Ok (fst r).
Proof.
  intros a b src. induction src as [ | X src IH]; auto. cbn [CurveGen.draw_point random_no_cofac]. cbv zeta.
  destruct (is_sqr (cubic K a b X)); auto. destruct (sqrt (cubic K a b X)); reflexivity.
Qed.
Lemma choice_any : forall nqr a b n x src r, twist_if_wrong nqr a b n x src = Ok r -> fst r = (a, b) \/ twist_of K nqr (a, b) (fst r).
Proof.
  intros nqr a b n x src r H. unfold CurveGen.twist_if_wrong in H. destruct (test_order a b n x src) as [[[] s] | | | ]; cbn [bind] in H; try discriminate.
  - left. inversion H. reflexivity.
  - right. unfold twist_coeffs in H. match type of H with bind ?d _ = _ => destruct d as [[P s'] | | | ]; cbn [bind] in H; try discriminate end.
    inversion H. split; cbn [fst snd]; ring.
Qed.
Section Ell.
Variables a b : K.
Hypothesis EL : elliptic K a b.
Lemma test_ok : forall n x src, 0 <= n -> 0 <= x ->
  (exists G src', draw_point a b src = Ok (G, src') /\ on_curve K a b G /\ G <> None /\
    test_order a b n x src = Ok (match pzmul K a n (pzmul K a x G) with None => true | Some _ => false end, src')) \/
  draw_point a b src = OutOfFuel /\ test_order a b n x src = OutOfFuel.
Proof.
  intros n x src Hn Hx. unfold CurveGen.test_order. destruct (draw_on a b src) as [(X & Y & src' & E & O) | E]; rewrite E; cbn [bind]; auto.
  left. exists (Some (X, Y)), src'. split; auto. split; auto. split; [discriminate | ]. destruct EL as (C2 & SM).
  unfold random_pointmul, clear_cofactor. rewrite (pow_value K HK a b C2 SM) by auto. cbn [bind].
  rewrite (pow_value K HK a b C2 SM); auto. apply (pzmul_on K HK a b C2); auto.
Qed.
Theorem choice_ok : forall nqr n x src r, 0 <= n -> 0 <= x -> twist_if_wrong nqr a b n x src = Ok r ->
  exists G src', draw_point a b src = Ok (G, src') /\ on_curve K a b G /\ G <> None /\
  ((pzmul K a n (pzmul K a x G) = None /\ r = (a, b, src')) \/
   (pzmul K a n (pzmul K a x G) <> None /\ twist_of K nqr (a, b) (fst r))).
Proof.
  intros nqr n x src r Hn Hx H. unfold CurveGen.twist_if_wrong in H.
  destruct (test_ok n x src Hn Hx) as [(G & src' & D & O & N & E) | (_ & E)]; rewrite E in H; cbn [bind] in H; [ | discriminate].
  exists G, src'. split; auto. split; auto. split; auto. destruct (pzmul K a n (pzmul K a x G)) as [P | ] eqn:T.
  - right. split; [discriminate | ]. cbn [twist_coeffs] in H. unfold twist_coeffs in H.
    destruct (draw_on (fmul (fmul a nqr) nqr) (fmul (fmul (fmul b nqr) nqr) nqr) src') as [(X & Y & s & E' & _) | E']; rewrite E' in H; cbn [bind] in H; [ | discriminate].
    inversion H. cbn. split; cbn [fst snd]; ring.
  - left. split; auto. congruence.
Qed.
Theorem choice_right : forall nqr n x src a' b' s, 0 <= n -> 0 <= x -> killed K a b n -> twist_if_wrong nqr a b n x src = Ok (a', b', s) -> (a', b') = (a, b).
Proof.
  intros nqr n x src a' b' s Hn Hx KL H. destruct (choice_ok nqr n x src _ Hn Hx H) as (G & src' & D & O & N & [(_ & E) | (T & _)]); [congruence | ].
  exfalso. apply T, KL. destruct EL as (C2 & SM). apply (pzmul_on K HK a b C2); auto.
Qed.
Theorem choice_zero : forall nqr n src G src', 0 <= n -> draw_point a b src = Ok (G, src') -> twist_if_wrong nqr a b n 0 src = Ok (a, b, src').
Proof.
  intros nqr n src G src' Hn D. unfold CurveGen.twist_if_wrong. destruct (test_ok n 0 src Hn ltac:(lia)) as [(G' & s & D' & O & N & E) | (E & _)]; [ | congruence].
  rewrite E. cbn [bind]. change (pzmul K a 0 G') with (None : point K). rewrite pzmul_0. congruence.
Qed.
End Ell.

(** twists *)
Lemma twist_j : forall v a b a' b' j, twist_of K v (a, b) (a', b') -> has_j K a b j -> has_j K a' b' j.
Proof.
  intros v a b a' b' j [E1 E2] H. cbn [fst snd] in E1, E2. unfold has_j, disc, four_a3 in *. subst a' b'.
  set (A := fmul (fmul (f2 K) (f2 K)) (fmul (fmul a a) a)) in *. set (B := fmul (fmul (fmul (f3 K) (f3 K)) (f3 K)) (fmul b b)) in *.
  set (v6 := fmul (fmul (fmul v v) (fmul v v)) (fmul v v)).
  transitivity (fmul v6 (fmul (fofz 1728) A)); [unfold v6, A; ring | ]. rewrite H. unfold v6, A, B. ring.
Qed.
Lemma twist_elliptic : forall v a b a' b', v <> f0 -> twist_of K v (a, b) (a', b') -> elliptic K a b -> elliptic K a' b'.
Proof.
  intros v a b a' b' Nv [E1 E2] [C2 D]. cbn [fst snd] in E1, E2. split; auto. intro Z. apply D. subst a' b'.
  set (v6 := fmul (fmul (fmul v v) (fmul v v)) (fmul v v)). assert (N6 : v6 <> f0) by (unfold v6; repeat apply (f_mul_nz K HK); auto).
  assert (Z' : fmul v6 (fadd (fmul (fmul (f2 K) (f2 K)) (fmul (fmul a a) a)) (fmul (fmul (fmul (f3 K) (f3 K)) (f3 K)) (fmul b b))) = f0).
  { rewrite <- Z. unfold v6. ring. }
  destruct (f_integral K HK _ _ Z'); [contradiction | auto].
Qed.
Lemma j_zero : f2 K <> f0 -> f3 K <> f0 -> j_coeffs K f0 = Ok (f0, f0).
Proof.
  intros C2 C3. unfold j_coeffs. cbv zeta.
  assert (M : (fofz 1728 : K) = fmul (fmul (fmul (fmul (fmul (fmul (f2 K) (f2 K)) (f2 K)) (f2 K)) (f2 K)) (f2 K)) (fmul (fmul (f3 K) (f3 K)) (f3 K))).
  { assert (E2 : f2 K = fofz 2) by (cbn; unfold f2; ring). assert (E3 : f3 K = fofz 3) by (cbn; unfold f3; ring).
    rewrite E2, E3, <- !(fofz_mul K HK). reflexivity. }
  assert (N : (fofz 1728 : K) <> f0) by (rewrite M; repeat apply (f_mul_nz K HK); auto).
  set (m := fofz 1728 : K) in *. clearbody m. replace (fsub m f0) with m by ring.
  rewrite (finvert_ok K HK) by auto. cbn [bind]. f_equal. apply (f_equal2 (@pair K K)); ring.
Qed.
Lemma twist_zero : forall v ab, ab = (f0, f0) \/ twist_of K v (f0, f0) ab -> ab = (f0, f0).
Proof. intros v [a b] [E | [E1 E2]]; auto. cbn [fst snd] in *. subst. apply (f_equal2 (@pair K K)); ring. Qed.
End Choice.

(** ** The CM curve *)
Section CM.
Variable K : fld.
Hypothesis HK : fld_laws K.
Add Field KFcm : (fl_field K HK).
Variables (p e : nat).
Hypothesis Pp : prime (Z.of_nat p).
Hypothesis HO : has_order K (Z.of_nat (p ^ e)).
Notation q := (Z.of_nat (p ^ e)).
Hypothesis C2 : f2 K <> f0.
Hypothesis C3 : f3 K <> f0.
Variables (is_sqr : K -> bool) (sqrt : K -> res K).
Hypothesis GR : good_roots K is_sqr sqrt.
Notation cm_curve := (cm_curve K q is_sqr sqrt).
Notation twist_if_wrong := (twist_if_wrong K is_sqr sqrt).
Variables (coeffs : list Z) (d : nat).
Notation hp := (map fofz coeffs : list K).
Hypothesis Mh : monic hp d.
Hypothesis Hd : (2 <= d)%nat.

Lemma cm_run : forall nqr n x src,
  ((exists j src1, is_root hp j /\ forall n x, cm_curve nqr coeffs n x src = ' (a, b) <- j_coeffs K j ;; twist_if_wrong nqr a b n x src1) \/
   ((~ exists j, is_root hp j) /\ forall n x, cm_curve nqr coeffs n x src = ' (a, b) <- j_coeffs K f0 ;; twist_if_wrong nqr a b n x src)) \/
  cm_curve nqr coeffs n x src = OutOfFuel.
Proof.
  intros nqr n x src. unfold CurveGen.cm_curve. cbv zeta. destruct (findroot_ok K HK p e Pp HO hp d Mh Hd) as (A & B & _).
  destruct (A src) as [E | [(j & s & E & R) | E]].
  - left. right. split; [apply (B src); auto | ]. intros. rewrite E. reflexivity.
  - left. left. exists j, s. split; auto. intros. rewrite E. reflexivity.
  - right. rewrite E. reflexivity.
Qed.
Theorem cm_sound : forall nqr n x src a b src', nqr <> f0 -> 0 <= n -> 0 <= x -> cm_curve nqr coeffs n x src = Ok (a, b, src') ->
  ((exists j, is_root hp j /\ j <> fofz 1728 /\ has_j K a b j /\ (j <> f0 -> elliptic K a b)) \/
   ((~ exists j, is_root hp j) /\ a = f0 /\ b = f0)).
Proof.
  intros nqr n x src a b src' Nv Hn Hx H. destruct (cm_run nqr n x src) as [[(j & s1 & R & E) | (R & E)] | E]; rewrite E in H; [ | | discriminate].
  - left. exists j. split; auto. destruct (feqb (fofz 1728) j) eqn:T.
    { exfalso. apply (fl_eqb K HK) in T. unfold j_coeffs in H. cbv zeta in H. rewrite T in H. replace (fsub j j) with (f0 : K) in H by ring.
      unfold finvert in H. rewrite (proj2 (fl_eqb K HK f0 f0) eq_refl) in H. discriminate. }
    assert (N : fofz 1728 <> j) by (intro Q; apply (fl_eqb K HK) in Q; congruence).
    split; [congruence | ]. destruct (j_ok K HK j N C2 C3) as (a0 & b0 & J & D & HJ). rewrite J in H. cbn [bind] in H.
    destruct (feqb j f0) eqn:Zj.
    + apply (fl_eqb K HK) in Zj. split; [ | congruence]. subst j. rewrite (j_zero K HK C2 C3) in J. inversion J; subst a0 b0.
      pose proof (choice_any K HK is_sqr sqrt _ _ _ _ _ _ _ H) as W. apply (twist_zero K HK) in W. inversion W; subst. auto.
    + assert (Nj : j <> f0) by (intro Q; apply (fl_eqb K HK) in Q; congruence). assert (EL : elliptic K a0 b0) by (split; auto).
      destruct (choice_ok K HK is_sqr sqrt GR a0 b0 EL nqr n x s1 _ Hn Hx H) as (G & s & _ & _ & _ & [(_ & E') | (_ & TW)]).
      * inversion E'; subst. split; auto.
      * cbn [fst] in TW. split; [apply (twist_j K HK nqr a0 b0); auto | ]. intros _. apply (twist_elliptic K HK nqr a0 b0); auto.
  - right. split; auto. rewrite (j_zero K HK C2 C3) in H. cbn [bind] in H.
    pose proof (choice_any K HK is_sqr sqrt _ _ _ _ _ _ _ H) as W. apply (twist_zero K HK) in W. inversion W; subst. auto.
Qed.
End CM.
