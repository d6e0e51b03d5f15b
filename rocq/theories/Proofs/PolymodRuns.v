(** K[X]/(m): multiplication, inversion and histories of calls. *)
From Coq Require Import ZArith List Bool Lia Arith Ring Field Setoid Morphisms.
From Verif.Base Require Import Outcome Array Algebra Slots.
From Verif.Spec Require Import FieldCalls Polynomials Extension ExtensionRuns.
From Verif.Model Require Import Poly Polymod.
From Verif.Proofs Require Import FieldFacts SlotFacts PolyAlgebra PolyFacts ExtFacts PolymodFacts PolymodSmall.
Import ListNotations.
Open Scope nat_scope.

Lemma forallb_vec : forall (g : nat -> bool) q, forallb g (seq 0 q) = true <-> forall i, i < q -> g i = true.
Proof. intros g q. rewrite forallb_forall. split; intros H i Hi'; apply H; [apply in_seq; lia | apply in_seq in Hi'; lia]. Qed.

Section P.
Variable K : fld.
Hypothesis HK : fld_laws K.
Add Field KFr : (fl_field K HK).
Add Ring PolyRr : (poly_ring K HK) (setoid (eqp_equiv K) (poly_ext K HK)).
Existing Instance eqp_equiv.
Local Instance addp_properr : Proper (eqp ==> eqp ==> eqp) (addp K) := addp_proper K HK.
Local Instance oppp_properr : Proper (eqp ==> eqp) (oppp K) := oppp_proper K HK.
Local Instance subp_properr : Proper (eqp ==> eqp ==> eqp) (subp K) := subp_proper K HK.
Local Instance mulp_properr : Proper (eqp ==> eqp ==> eqp) (mulp K) := mulp_proper K HK.
Local Instance scalp_properr : Proper (eq ==> eqp ==> eqp) (scalp K) := scalp_proper K HK.
Local Instance cong_equivr m : Equivalence (cong m) := cong_equiv K HK m.
Local Instance eqp_congr m : subrelation (@eqp K) (cong m) := eqp_cong K HK m.
Local Instance addp_congr m : Proper (cong m ==> cong m ==> cong m) (addp K) := addp_cong K HK m.
Local Instance mulp_congr m : Proper (cong m ==> cong m ==> cong m) (mulp K) := mulp_cong K HK m.
Declare Scope kscope. Delimit Scope kscope with k.
Notation "0" := (@f0 K) : kscope. Notation "1" := (@f1 K) : kscope.
Notation "x + y" := (@fadd K x y) : kscope. Notation "x * y" := (@fmul K x y) : kscope. Notation "x - y" := (@fsub K x y) : kscope.
Notation "- x" := (@fopp K x) : kscope.
Notation poly := (list K).
Notation st := (store K).
Implicit Types (s : st).

Section N.
Variables (n : nat) (m : poly).
Hypothesis Hm : monic m n.
Hypothesis Hn : 0 < n.
Notation L := (Ext K n m).
Notation val := (val K n m). Notation does := (does K n m).
Notation vl := (vl K n).

(** ** The table of powers of X *)
Lemma nth_map_seq : forall (c : nat -> K) q i, nth i (map c (seq 0 q)) 0%k = if i <? q then c i else 0%k.
Proof. intros. apply coef_map_seq. Qed.
Definition pwrn : poly := map fopp (truncate K n m).
Lemma pwrn_coef : forall i, coef pwrn i = if i <? n then (- coef m i)%k else 0%k.
Proof.
  intro i. unfold pwrn, truncate. rewrite map_map, coef_map_seq. destruct (Nat.ltb_spec i n); auto. destruct Hm as [Lm _].
  destruct (Nat.ltb_spec i (length m)); [reflexivity | lia].
Qed.
Lemma pwrn_cong : cong m (mono K n 1%k) pwrn.
Proof.
  apply (cong_mulp K HK). exists [1%k]. intro i. rewrite (coef_addp K HK), pwrn_coef, coef_mono. rewrite <- (scalp_mulp K HK [1%k : K] m i) || idtac.
  pose proof (scalp_mulp K HK 1%k m i) as E. rewrite <- E, (coef_scalp K HK). destruct Hm as [Lm Cm].
  destruct (Nat.ltb_spec i n), (Nat.eqb_spec i n); try lia; try ring.
  - subst i. rewrite Cm. ring.
  - rewrite (coef_over K m i) by lia. ring.
Qed.
Lemma x_step_cong : forall prev, length prev = n -> cong m (0%k :: prev) (x_step K n pwrn prev).
Proof.
  intros prev Lp.
  set (low := map (fun j => if j =? 0 then 0%k else nth (j - 1) prev 0%k) (seq 0 n)).
  assert (E1 : eqp (0%k :: prev) (addp K low (mulp K [nth (n - 1) prev 0%k] (mono K n 1%k)))).
  { intro i. rewrite (coef_addp K HK). pose proof (scalp_mulp K HK (nth (n - 1) prev 0%k) (mono K n 1%k) i) as E. rewrite <- E, (coef_scalp K HK), coef_mono.
    unfold low. rewrite coef_map_seq, coef_cons. destruct i as [ | i].
    - destruct (Nat.eqb_spec 0 n); [lia | ]. destruct (Nat.ltb_spec 0 n); [ | lia]. cbn [Nat.eqb]. ring.
    - change (S i =? 0) with false. replace (S i - 1) with i by lia. change (coef prev i) with (nth i prev 0%k).
      destruct (Nat.ltb_spec (S i) n), (Nat.eqb_spec (S i) n); try lia.
      + ring.
      + replace (n - 1) with i by lia. ring.
      + rewrite nth_overflow by lia. ring. }
  assert (E2 : eqp (x_step K n pwrn prev) (addp K low (mulp K [nth (n - 1) prev 0%k] pwrn))).
  { intro i. rewrite (coef_addp K HK). pose proof (scalp_mulp K HK (nth (n - 1) prev 0%k) pwrn i) as E. rewrite <- E, (coef_scalp K HK).
    unfold low, x_step. rewrite !coef_map_seq. fold (coef pwrn i). destruct (Nat.ltb_spec i n) as [Hi | Hi].
    - change (nth i pwrn f0) with (coef pwrn i). ring.
    - rewrite pwrn_coef. destruct (Nat.ltb_spec i n); [lia | ring]. }
  apply (cong_proper K HK m m (reflexivity m) _ _ E1 _ _ E2). rewrite pwrn_cong. reflexivity.
Qed.
Lemma mono_S : forall k, eqp (mono K (S k) 1%k) (0%k :: mono K k 1%k).
Proof. intros k i. rewrite coef_cons, !coef_mono. destruct i as [ | i]; [reflexivity | ]. rewrite coef_mono. reflexivity. Qed.
Lemma cons_0 : forall f g, cong m f g -> cong m (0%k :: f) (0%k :: g).
Proof.
  assert (E : forall f : poly, eqp (0%k :: f) (mulp K [0%k; 1%k] f)).
  { intros f i. cbn [mulp]. rewrite (coef_addp K HK), !coef_cons, (coef_scalp K HK).
    destruct i as [ | i]; [ring | ]. rewrite (coef_addp K HK), (coef_scalp K HK), coef_cons. destruct i as [ | i]; rewrite ?coef_nil; ring. }
  intros f g C. apply (cong_proper K HK m m (reflexivity m) _ _ (E f) _ _ (E g)). rewrite C. reflexivity.
Qed.
Lemma x_powers_ok : forall q prev k, length prev = n -> cong m (mono K k 1%k) prev ->
  forall i, i < q -> length (nth i (x_powers K n q pwrn prev) []) = n /\ cong m (mono K (k + i) 1%k) (nth i (x_powers K n q pwrn prev) []).
Proof.
  induction q as [ | q IH]; intros prev k Lp C i Hi; [lia | ]. cbn [x_powers]. destruct i as [ | i]; cbn [nth].
  - rewrite Nat.add_0_r. auto.
  - replace (k + S i) with (S k + i) by lia. apply IH; [ | | lia].
    + unfold x_step. rewrite map_length, seq_length. auto.
    + rewrite (mono_S k). rewrite (cons_0 _ _ C). apply x_step_cong. auto.
Qed.
Lemma xpwr_cong : forall i, i < n - 1 -> cong m (mono K (n + i) 1%k) (map (xpwr K n m i) (seq 0 n)).
Proof.
  intros i Hi. assert (Lp : length pwrn = n) by (unfold pwrn, truncate; rewrite !map_length, seq_length; auto).
  destruct (x_powers_ok n pwrn n Lp pwrn_cong i ltac:(lia)) as [Li Ci]. rewrite Ci.
  apply (eqp_cong K HK). intro j. rewrite coef_map_seq. unfold xpwr, compute_x_powers. fold pwrn.
  destruct (Nat.ltb_spec j n); [reflexivity | ]. apply coef_over. lia.
Qed.

(** ** Multiplication *)
Lemma small_does : forall q r e f s p, q = n ->
  (exists s', run p s = Ok s' /\ (forall i, i < q -> s' (r, i) = redn K (xpwr K n m) q (fun i => s (e, i)) (fun i => s (f, i)) i) /\
     (forall k i, Reg k <> r -> s' (Reg k, i) = s (Reg k, i))) ->
  does p r s (fmul (val s e) (val s f)).
Proof.
  intros q r e f s p -> (s' & E & V & F). exists s'. split; auto. split; auto.
  apply (reduced K HK n m Hm Hn (xpwr K n m) xpwr_cong). intros k Hk. rewrite val_coef by auto. rewrite V by auto. unfold redn, convn.
  rewrite (conv_val K HK n m Hn s e f k). apply (f_equal (fadd _)). apply sum_ext. intros i Hi. rewrite (conv_val K HK n m Hn s e f (n + i)). auto.
Qed.
Lemma mul_does : forall r e f s, user r -> user e -> user f -> does (pm_mul K n (xpwr K n m) r e f) r s (fmul (val s e) (val s f)).
Proof.
  intros r e f s Ur Ue Uf. unfold pm_mul. destruct (Nat.eqb_spec n 3) as [E | E]; [ | destruct (Nat.eqb_spec n 6) as [E' | E']].
  - apply (small_does 3); auto. rewrite (f_equal (pm_mul_degree3 K) E). apply mul3; auto.
  - apply (small_does 6); auto. rewrite (f_equal (pm_mul_degree6 K) E'). apply mul6; auto.
  - apply (mul_generic_does K HK n m Hm Hn); auto. apply xpwr_cong.
Qed.
Lemma square_does : forall r e s, user r -> user e -> does (pm_square K n (xpwr K n m) r e) r s (fmul (val s e) (val s e)).
Proof.
  intros r e s Ur Ue. unfold pm_square. destruct (Nat.eqb_spec n 3) as [E | E].
  - apply (small_does 3); auto. rewrite (f_equal (pm_square_degree3 K) E). apply sqr3; auto.
  - apply (square_generic_does K HK n m Hm Hn); auto. apply xpwr_cong.
Qed.
Lemma Ext_fofz : forall z, (fofz z : L) = cvec K n m (fofz z).
Proof.
  assert (P : forall c d : K, (fadd (cvec K n m c) (cvec K n m d) : L) = cvec K n m (c + d)%k).
  { intros c d. apply vec_ext. intros i Hi. cbn [fadd Ext]. unfold cvec. rewrite !vcoef_mk. destruct (i <? n); auto. destruct (i =? 0); auto. ring. }
  assert (Q : forall p, (fofz (Zpos p) : L) = cvec K n m (fofz (Zpos p))).
  { intro p. induction p as [ | p IH] using Pos.peano_ind; [reflexivity | ].
    cbn [fofz] in *. rewrite (iter_succ K HK). rewrite Pos.iter_op_succ by (intros; apply (Ring_theory.Radd_assoc (Ext_ring K HK n m Hm Hn))).
    rewrite IH. exact (P 1%k _). }
  intro z. destruct z as [ | p | p].
  - apply vec_ext. intros i Hi. cbn [fofz f0 Ext]. unfold cvec. rewrite !vcoef_mk. destruct (i <? n); auto. destruct (i =? 0); auto.
  - apply Q.
  - cbn [fofz] in *. rewrite Q. apply vec_ext. intros i Hi. cbn [fopp Ext]. unfold cvec. rewrite !vcoef_mk. destruct (i <? n); auto. destruct (i =? 0); auto. ring.
Qed.

(** ** Inversion *)
Hypothesis Hi : irreducible m.
Variable fuel : nat.
Hypothesis Hfuel : length m <= fuel.
Notation HL := (Ext_laws K HK n m Hm Hn Hi).
(** outcome of a call that may fail *)
Definition does' (p : st -> res st) (r : obj) s (x : res L) : Prop :=
  match x with
  | Ok x => exists s', p s = Ok s' /\ val s' r = x /\ (forall l, user (fst l) -> fst l <> r -> s' l = s l)
  | _ => p s = Die
  end.
Lemma to_poly : forall s e, pm_to_poly K n s e = Ok (trim (vl (val s e))).
Proof. intros. unfold pm_to_poly. rewrite remove_ok by auto. reflexivity. Qed.
Lemma invert_does : forall r e s, user r -> user e -> does' (pm_invert K n m fuel r e) r s (finvert (val s e)).
Proof.
  intros r e s Ur Ue. unfold finvert. destruct (feqb (val s e) (f0 : L)) eqn:E.
  - unfold does', pm_invert. rewrite to_poly. cbn [bind]. apply (fl_eqb L HL) in E. rewrite E.
    assert (T : trim (vl (f0 : L)) = []) by (apply (trim_nil_iff K HK); apply E_0; auto). rewrite T.
    unfold poly_invert. destruct fuel as [ | k]; [destruct Hm; lia | reflexivity].
  - assert (N : val s e <> f0) by (intro X; rewrite X in E; rewrite (feqb_refl L HL) in E; discriminate).
    destruct (invert_vec K HK n m Hm Hn Hi (val s e) N) as (g & F & Ng & Lg & C).
    destruct (each_ok K n Hn (fun i => IConst (r, i) (nth i (truncate K n g) 0%k)) r (fun i => nth i (truncate K n g) 0%k) s) as (s' & E' & V & Fr); [intros; reflexivity | ].
    exists s'. split; [ | split].
    + unfold pm_invert. rewrite to_poly. cbn [bind]. rewrite F by auto. cbn [bind]. exact E'.
    + apply vec_ext. intros i Hi'. rewrite val_coef by auto. rewrite V by auto. cbn [finv Ext]. unfold einv. fold (vl (val s e)). rewrite F by auto.
      rewrite vcoef_mk. destruct (Nat.ltb_spec i n); [ | lia]. unfold truncate. rewrite nth_map_seq. destruct (Nat.ltb_spec i n); [ | lia].
      destruct (Nat.ltb_spec i (length g)); [reflexivity | ]. symmetry. apply coef_over. auto.
    + intros l Ul N'. apply Fr. intros [X _]. contradiction.
Qed.
Lemma user8 : user t8. Proof. intros j Hj. unfold t8. intro X. inversion X. lia. Qed.
Lemma val_frame : forall s s' o, (forall i, s' (o, i) = s (o, i)) -> val s' o = val s o.
Proof. intros s s' o H. apply val_ext. intros i _. apply H. Qed.
Definition doesr (p : st -> res st) (r : nat) s (x : res L) : Prop :=
  match x with
  | Ok x => exists s', p s = Ok s' /\ val s' (Reg r) = x /\ (forall k i, k <> r -> s' (Reg k, i) = s (Reg k, i))
  | _ => p s = Die
  end.
Lemma inv_reg : forall r e s, doesr (pm_invert K n m fuel (Reg r) (Reg e)) r s (finvert (val s (Reg e))).
Proof.
  intros r e s. pose proof (invert_does (Reg r) (Reg e) s (user_reg r) (user_reg e)) as D. unfold does', doesr in *.
  destruct (finvert (val s (Reg e))); auto. destruct D as (s' & E & V & F). exists s'. split; auto. split; auto. intros k i N. apply F; [apply user_reg | ]. cbn [fst]. congruence.
Qed.
Lemma halve_does : forall r e s, doesr (pm_halve K n m fuel (Reg r) (Reg e)) r s (if feqb (fofz 2 : L) f0 then UB else Ok (fdiv (val s (Reg e)) (fofz 2))).
Proof.
  intros r e s. unfold pm_halve. destruct (const_does K n m Hm Hn t8 (fofz 2) s) as (s1 & E1 & V1 & F1).
  pose proof (invert_does t8 t8 s1 user8 user8) as D. rewrite V1, <- Ext_fofz in D. unfold finvert in D. unfold doesr.
  destruct (feqb (fofz 2 : L) f0); cbn [does'] in D.
  - rewrite E1. cbn [bind]. rewrite D. reflexivity.
  - destruct D as (s2 & E2 & V2 & F2). destruct (mul_does (Reg r) (Reg e) t8 s2 (user_reg _) (user_reg _) user8) as (s3 & E3 & V3 & F3).
    exists s3. rewrite E1. cbn [bind]. rewrite E2. cbn [bind]. split; auto. split.
    + rewrite V3, V2. rewrite (val_frame s s2 (Reg e)); [reflexivity | ]. intro i. rewrite F2 by (first [discriminate | apply user_reg]). apply F1. discriminate.
    + intros k i N. rewrite F3 by congruence. rewrite F2 by (first [discriminate | apply user_reg]). apply F1. discriminate.
Qed.
Lemma L_comm : forall a b : L, fmul a b = fmul b a.
Proof. intros a b. apply (Ring_theory.Rmul_comm (Ext_ring K HK n m Hm Hn)). Qed.
Lemma div_does : forall r a b s, doesr (pm_div K n m fuel (Reg r) (Reg a) (Reg b)) r s (if feqb (val s (Reg b)) (f0 : L) then UB else Ok (fdiv (val s (Reg a)) (val s (Reg b)))).
Proof.
  intros r a b s. unfold pm_div. destruct (obj_eqb_spec (Reg r) (Reg a)) as [E | E].
  - pose proof (invert_does t8 (Reg b) s user8 (user_reg b)) as D. unfold finvert in D. unfold doesr.
    destruct (feqb (val s (Reg b)) (f0 : L)); cbn [does'] in D.
    + rewrite D. reflexivity.
    + destruct D as (s2 & E2 & V2 & F2). destruct (mul_does (Reg r) t8 (Reg a) s2 (user_reg _) user8 (user_reg _)) as (s3 & E3 & V3 & F3).
      exists s3. rewrite E2. cbn [bind]. split; auto. split.
      * rewrite V3, V2, L_comm. rewrite (val_frame s s2 (Reg a)); [reflexivity | ]. intro i. apply F2; [apply user_reg | discriminate].
      * intros k i N. rewrite F3 by congruence. apply F2; [apply user_reg | discriminate].
  - pose proof (invert_does (Reg r) (Reg b) s (user_reg r) (user_reg b)) as D. unfold finvert in D. unfold doesr.
    destruct (feqb (val s (Reg b)) (f0 : L)); cbn [does'] in D.
    + rewrite D. reflexivity.
    + destruct D as (s2 & E2 & V2 & F2). destruct (mul_does (Reg r) (Reg r) (Reg a) s2 (user_reg _) (user_reg _) (user_reg _)) as (s3 & E3 & V3 & F3).
      exists s3. rewrite E2. cbn [bind]. split; auto. split.
      * rewrite V3, V2, L_comm. rewrite (val_frame s s2 (Reg a)); [reflexivity | ]. intro i. apply F2; [apply user_reg | cbn [fst]; congruence].
      * intros k i N. rewrite F3 by congruence. apply F2; [apply user_reg | cbn [fst]; congruence].
Qed.

(** ** Histories *)
Definition rep s (v : nat -> L) : Prop := forall k, v k = val s (Reg k).
Definition same_step (r : res (st * list (bool + list K))) (q : res ((nat -> L) * list (fobs L))) : Prop :=
  match q with
  | Ok (v, os) => exists s os', r = Ok (s, os') /\ rep s v /\ map (ext_obs K n m) os' = os
  | _ => r = Die
  end.
Lemma doesr_same : forall p r s v x, rep s v -> doesr p r s x -> same_step (s <- p s ;; Ok (s, [])) (x <- x ;; Ok (setr L v r x, [])).
Proof.
  intros p r s v x R D. destruct x as [x | | | ]; cbn [doesr] in D; cbn [bind same_step]; try (rewrite D; reflexivity).
  destruct D as (s' & -> & V & F). exists s', []. split; [reflexivity | ]. split; auto. intro k. unfold setr. destruct (Nat.eqb_spec k r) as [-> | N]; auto.
  rewrite R. symmetry. apply val_frame. intro i. apply F. auto.
Qed.
Lemma does_doesr : forall p r s x, does p (Reg r) s x -> doesr (run p) r s (Ok x).
Proof. intros p r s x (s' & E & V & F). exists s'. split; auto. split; auto. intros k i N. apply F. congruence. Qed.
Lemma is0_ok : forall s a, forallb (fun x => feqb x 0%k) (pm_value K n s a) = feqb (val s (Reg a)) (f0 : L).
Proof.
  intros s a. cbn [feqb Ext f0]. unfold pm_value. apply eq_true_iff_eq. rewrite forallb_vec. rewrite forallb_forall. split; intros H.
  - intros i Hi'. rewrite val_coef, vcoef_mk by auto. destruct (Nat.ltb_spec i n); [ | lia]. apply H. apply in_map_iff. exists i. split; auto. apply in_seq. lia.
  - intros x Ix. apply in_map_iff in Ix. destruct Ix as (i & <- & Ii). apply in_seq in Ii. specialize (H i ltac:(lia)). rewrite val_coef, vcoef_mk in H by lia.
    destruct (Nat.ltb_spec i n); [auto | lia].
Qed.
Lemma is1_ok : forall s a, match pm_value K n s a with x :: l => feqb x 1%k && forallb (fun x => feqb x 0%k) l | [] => true end = feqb (val s (Reg a)) (f1 : L).
Proof.
  intros s a. cbn [feqb Ext f1]. unfold pm_value. assert (Es : seq 0 n = O :: seq 1 (n - 1)) by (replace n with (S (n - 1)) at 1 by lia; reflexivity).
  rewrite Es at 1. cbn [map]. apply eq_true_iff_eq. rewrite andb_true_iff, forallb_vec, forallb_forall. split.
  - intros [H0 H] i Hi'. rewrite val_coef, vcoef_mk by auto. destruct (Nat.ltb_spec i n); [ | lia]. destruct i as [ | i]; auto. change (S i =? 0) with false. cbv iota.
    apply H. apply in_map_iff. exists (S i). split; auto. apply in_seq. lia.
  - intro H. split.
    + specialize (H O ltac:(lia)). rewrite val_coef, vcoef_mk in H by lia. destruct (Nat.ltb_spec 0 n); [auto | lia].
    + intros x Ix. apply in_map_iff in Ix. destruct Ix as (i & <- & Ii). apply in_seq in Ii. specialize (H i ltac:(lia)). rewrite val_coef, vcoef_mk in H by lia.
      destruct (Nat.ltb_spec i n); [ | lia]. destruct (Nat.eqb_spec i 0); [lia | auto].
Qed.
Lemma cmp_ok : forall s a b, existsb (fun i => negb (feqb (s (Reg a, i)) (s (Reg b, i)))) (seq 0 n) = negb (feqb (val s (Reg a)) (val s (Reg b))).
Proof.
  intros s a b. cbn [feqb Ext]. rewrite <- (negb_involutive (existsb _ _)). f_equal. apply eq_true_iff_eq. rewrite negb_true_iff, <- not_true_iff_false, existsb_exists, forallb_vec. split.
  - intros H i Hi'. rewrite !val_coef by auto. destruct (feqb (s (Reg a, i)) (s (Reg b, i))) eqn:E; auto. exfalso. apply H. exists i. rewrite E. split; auto. apply in_seq. lia.
  - intros H (i & Ii & E). apply in_seq in Ii. specialize (H i ltac:(lia)). rewrite !val_coef in H by lia. rewrite H in E. discriminate.
Qed.
Lemma step_ok : forall c s v, rep s v -> same_step (pm_step K n m fuel s c) (fstep L v c).
Proof.
  intros c s v R. assert (RV : forall k, v k = val s (Reg k)) by exact R.
  assert (DS : forall p r x q, doesr p r s x -> q = (x <- x ;; Ok (setr L v r x, [])) -> same_step (s <- p s ;; Ok (s, [])) q) by (intros; subst; apply doesr_same; auto).
  assert (DG : forall p r x, does p (Reg r) s x -> same_step (s <- run p s ;; Ok (s, [])) (Ok (setr L v r x, []))) by (intros; eapply DS; [apply does_doesr; eassumption | reflexivity]).
  destruct c; cbn [pm_step fstep]; cbv zeta; rewrite ?RV.
  - apply DG. apply set_does; auto.
  - apply DG. apply set0_does; auto.
  - apply DG. apply (const_does K n m Hm Hn (Reg d) 1%k).
  - apply DG. rewrite Ext_fofz. apply (const_does K n m Hm Hn).
  - apply DG. apply add_does; auto.
  - apply DG. apply sub_does; auto.
  - apply DG. apply mul_does; apply user_reg.
  - eapply DS; [apply div_does | ]. destruct (feqb (val s (Reg b)) f0); reflexivity.
  - apply DG. apply neg_does; auto.
  - apply DG. apply square_does; apply user_reg.
  - apply DG. apply double_does; auto.
  - eapply DS; [apply halve_does | ]. destruct (feqb (fofz 2 : L) f0); reflexivity.
  - eapply DS; [apply inv_reg | ]. unfold finvert. destruct (feqb (val s (Reg a)) (f0 : L)); reflexivity.
  - apply DG. rewrite Ext_fofz. apply (mulz_does K HK n m Hm Hn).
  - exists s. eexists. split; [reflexivity | ]. split; auto. cbn [map ext_obs]. rewrite is0_ok. reflexivity.
  - exists s. eexists. split; [reflexivity | ]. split; auto. cbn [map ext_obs]. rewrite is1_ok. reflexivity.
  - exists s. eexists. split; [reflexivity | ]. split; auto. cbn [map ext_obs]. rewrite cmp_ok. reflexivity.
  - exists s. eexists. split; [reflexivity | ]. split; auto. cbn [map ext_obs]. do 2 f_equal. apply vec_ext. intros i Hi'. rewrite val_coef, vcoef_mk by auto.
    destruct (Nat.ltb_spec i n); [ | lia]. unfold pm_value. rewrite coef_map_seq. destruct (Nat.ltb_spec i n); [auto | lia].
Qed.
Theorem pm_run_ok : forall h s v, rep s v -> session K n m (pm_run K n m fuel s h) (frun L v h).
Proof.
  induction h as [ | c h IH]; intros s v R; [exists []; auto | ].
  cbn [pm_run frun]. pose proof (step_ok c s v R) as S. unfold session.
  destruct (fstep L v c) as [[v' o'] | | | ]; cbn [same_step bind] in *; try (rewrite S; reflexivity).
  destruct S as (s' & os' & -> & R' & O). cbn [bind fst snd]. specialize (IH s' v' R'). unfold session in IH.
  destruct (frun L v' h) as [os | | | ]; cbn [bind]; try (rewrite IH; reflexivity).
  destruct IH as (os2 & -> & O2). cbn [bind]. exists (os' ++ os2). split; auto. rewrite map_app, O, O2. auto.
Qed.
End N.
End P.

(** The reduced product, by coefficients. *)
Section M.
Variable K : fld.
Hypothesis HK : fld_laws K.
Add Field KFq : (fl_field K HK).
Lemma product_exact : forall n m, monic m n -> 0 < n -> forall p (s : store K) (r a b : nat),
  does K n m p (Reg r) s (fmul (val K n m s (Reg a)) (val K n m s (Reg b))) ->
  exists s' h, run p s = Ok s' /\
  (forall i, conv (map (fun i => s (Reg a, i)) (seq 0 n)) (map (fun i => s (Reg b, i)) (seq 0 n)) i =
             fadd (coef (map (fun i => s' (Reg r, i)) (seq 0 n)) i) (conv h m i)) /\
  forall k i, k <> r -> s' (Reg k, i) = s (Reg k, i).
Proof.
  intros n m Hm Hn p s r a b (s' & E & V & F).
  pose proof (E_mul K HK n m Hm Hn (val K n m s (Reg a)) (val K n m s (Reg b))) as C. rewrite <- V in C.
  pose proof (cong_equiv K HK m) as Q. destruct (@Equivalence_Symmetric _ _ Q _ _ C) as [h H].
  exists s', h. split; auto. split.
  - intro i. rewrite <- (coef_mulp K HK). exact (H i).
  - intros k i N. apply F. congruence.
Qed.
End M.
Section M2.
Variable K : fld.
Hypothesis HK : fld_laws K.
Lemma mul_exact : forall n m, monic m n -> 0 < n -> forall (s : store K) (r a b : nat),
  exists s' h, run (pm_mul K n (xpwr K n m) (Reg r) (Reg a) (Reg b)) s = Ok s' /\
  (forall i, conv (map (fun i => s (Reg a, i)) (seq 0 n)) (map (fun i => s (Reg b, i)) (seq 0 n)) i =
             fadd (coef (map (fun i => s' (Reg r, i)) (seq 0 n)) i) (conv h m i)) /\
  forall k i, k <> r -> s' (Reg k, i) = s (Reg k, i).
Proof. intros n m Hm Hn s r a b. apply (product_exact K HK n m Hm Hn). apply (mul_does K HK n m Hm Hn); apply user_reg. Qed.
Lemma square_exact : forall n m, monic m n -> 0 < n -> forall (s : store K) (r a : nat),
  exists s' h, run (pm_square K n (xpwr K n m) (Reg r) (Reg a)) s = Ok s' /\
  (forall i, conv (map (fun i => s (Reg a, i)) (seq 0 n)) (map (fun i => s (Reg a, i)) (seq 0 n)) i =
             fadd (coef (map (fun i => s' (Reg r, i)) (seq 0 n)) i) (conv h m i)) /\
  forall k i, k <> r -> s' (Reg k, i) = s (Reg k, i).
Proof. intros n m Hm Hn s r a. apply (product_exact K HK n m Hm Hn). apply (square_does K HK n m Hm Hn); apply user_reg. Qed.
End M2.
