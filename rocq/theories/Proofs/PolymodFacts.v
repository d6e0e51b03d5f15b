(** K[X]/(m): the C functions on slots. *)
From Coq Require Import ZArith List Bool Lia Arith Ring Field Setoid Morphisms.
From Verif.Base Require Import Outcome Array Algebra Slots.
From Verif.Spec Require Import Polynomials Extension.
From Verif.Model Require Import Poly Polymod.
From Verif.Proofs Require Import FieldFacts SlotFacts PolyAlgebra PolyFacts ExtFacts.
Import ListNotations.
Open Scope nat_scope.

Lemma flat_map_flat_map : forall A B C (g : B -> list C) (h : A -> list B) l, flat_map g (flat_map h l) = flat_map (fun x => flat_map g (h x)) l.
Proof. induction l as [ | x l IH]; auto. cbn [flat_map]. rewrite flat_map_app, IH. auto. Qed.
Lemma flat_map_map : forall A B C (g : B -> list C) (h : A -> B) l, flat_map g (map h l) = flat_map (fun x => g (h x)) l.
Proof. induction l as [ | x l IH]; auto. cbn [flat_map map]. rewrite IH. auto. Qed.
Lemma flat_map_ext_in : forall A B (g h : A -> list B) l, (forall x, In x l -> g x = h x) -> flat_map g l = flat_map h l.
Proof. induction l as [ | x l IH]; intro H; auto. cbn [flat_map]. rewrite H by (left; auto). rewrite IH; auto. intros. apply H. right. auto. Qed.

Section P.
Variable K : fld.
Hypothesis HK : fld_laws K.
Add Field KFm : (fl_field K HK).
Add Ring PolyRm : (poly_ring K HK) (setoid (eqp_equiv K) (poly_ext K HK)).
Existing Instance eqp_equiv.
Local Instance addp_properm : Proper (eqp ==> eqp ==> eqp) (addp K) := addp_proper K HK.
Local Instance oppp_properm : Proper (eqp ==> eqp) (oppp K) := oppp_proper K HK.
Local Instance subp_properm : Proper (eqp ==> eqp ==> eqp) (subp K) := subp_proper K HK.
Local Instance mulp_properm : Proper (eqp ==> eqp ==> eqp) (mulp K) := mulp_proper K HK.
Local Instance scalp_properm : Proper (eq ==> eqp ==> eqp) (scalp K) := scalp_proper K HK.
Local Instance cong_equivm m : Equivalence (cong m) := cong_equiv K HK m.
Local Instance eqp_congm m : subrelation (@eqp K) (cong m) := eqp_cong K HK m.
Local Instance addp_congm m : Proper (cong m ==> cong m ==> cong m) (addp K) := addp_cong K HK m.
Local Instance mulp_congm m : Proper (cong m ==> cong m ==> cong m) (mulp K) := mulp_cong K HK m.
Declare Scope kscope. Delimit Scope kscope with k.
Notation "0" := (@f0 K) : kscope. Notation "1" := (@f1 K) : kscope.
Notation "x + y" := (@fadd K x y) : kscope. Notation "x * y" := (@fmul K x y) : kscope. Notation "x - y" := (@fsub K x y) : kscope.
Notation "- x" := (@fopp K x) : kscope.
Notation poly := (list K).
Notation st := (store K).
Implicit Types (s : st).

Section N.
Variables (n : nat) (m : poly).
Hypothesis Hm : monic m n.
Hypothesis Hn : 0 < n.
Notation L := (Ext K n m).

(** ** Loops over the slots *)
Lemma upd_same : forall s l v, upd s l v l = v.
Proof. intros s [o i] v. unfold upd, loc_eqb. cbn [fst snd]. rewrite obj_eqb_refl, Nat.eqb_refl. auto. Qed.
Lemma loc_eqb_spec : forall a b, reflect (a = b) (loc_eqb a b).
Proof.
  intros [o i] [p j]. unfold loc_eqb. cbn [fst snd]. destruct (obj_eqb_spec o p), (Nat.eqb_spec i j); cbn [andb]; constructor; congruence.
Qed.
Lemma upd_other : forall s l v a, a <> l -> upd s l v a = s a.
Proof. intros s l v a N. unfold upd. destruct (loc_eqb_spec a l); [contradiction | auto]. Qed.
Lemma loop_ok : forall (ins : nat -> instr K) d (v : nat -> K) len k s,
  (forall i s', (k <= i < k + len) -> (forall l, fst l <> d -> s' l = s l) -> (forall j, i <= j -> s' (d, j) = s (d, j)) ->
     exec s' (ins i) = Ok (upd s' (d, i) (v i))) ->
  exists s', run (map ins (seq k len)) s = Ok s' /\ (forall i, (k <= i < k + len) -> s' (d, i) = v i) /\
  (forall l, ~ (fst l = d /\ (k <= snd l < k + len)) -> s' l = s l).
Proof.
  intros ins d v. induction len as [ | len IH]; intros k s H.
  - exists s. split; [reflexivity | ]. split; [lia | auto].
  - cbn [seq map run]. rewrite (H k s) by (auto; lia). cbn [bind].
    destruct (IH (S k) (upd s (d, k) (v k))) as (s' & E & V & F).
    + intros i s' Hi H1 H2. apply H; [lia | | ].
      * intros l Nl. rewrite H1 by auto. apply upd_other. intro X. subst l. apply Nl. auto.
      * intros j Hj. rewrite H2 by auto. apply upd_other. intro X. inversion X. lia.
    + exists s'. split; auto. split.
      * intros i Hi. destruct (Nat.eq_dec i k) as [E' | E']; [ | apply V; lia].
        subst i. rewrite F by (cbn [fst snd]; lia). apply upd_same.
      * intros l Nl. rewrite F by (intros [? ?]; apply Nl; split; [auto | lia]). apply upd_other. intro X. subst l. apply Nl. cbn [fst snd]. split; [auto | lia].
Qed.
Lemma read : forall s s' d a i, (forall l, fst l <> d -> s' l = s l) -> (forall j, i <= j -> s' (d, j) = s (d, j)) -> s' (a, i) = s (a, i).
Proof. intros s s' d a i H1 H2. destruct (obj_eqb_spec a d) as [E | E]; [subst; apply H2; auto | apply H1; auto]. Qed.

Definition val s (o : obj) : L := mkvec n (fun i => s (o, i)).
Definition frame s s' (r : obj) : Prop := forall l, fst l <> r -> s' l = s l.
Definition does (p : list (instr K)) (r : obj) s (x : L) : Prop :=
  exists s', run p s = Ok s' /\ val s' r = x /\ (forall k i, Reg k <> r -> s' (Reg k, i) = s (Reg k, i)).
Lemma val_ext : forall s s' a b, (forall i, i < n -> s (a, i) = s' (b, i)) -> val s a = val s' b.
Proof. intros s s' a b H. apply vec_ext. intros i Hi. unfold val. rewrite !vcoef_mk. destruct (i <? n) eqn:E; auto. Qed.
Lemma val_coef : forall s a i, i < n -> vcoef (val s a) i = s (a, i).
Proof. intros s a i Hi. unfold val. rewrite vcoef_mk. destruct (Nat.ltb_spec i n); [auto | lia]. Qed.

(** each slot of r becomes v i *)
Lemma each_ok : forall ins (r : obj) (v : nat -> K) s,
  (forall i s', i < n -> (forall a, s' (a, i) = s (a, i)) -> (forall l, fst l <> r -> s' l = s l) -> exec s' (ins i) = Ok (upd s' (r, i) (v i))) ->
  exists s', run (each K n ins) s = Ok s' /\ (forall i, i < n -> s' (r, i) = v i) /\ (forall l, ~ (fst l = r /\ snd l < n) -> s' l = s l).
Proof.
  intros ins r v s H. destruct (loop_ok ins r v n 0 s) as (s' & E & V & F).
  - intros i s' Hi H1 H2. apply H; [lia | | auto]. intro a. apply (read s s' r); auto.
  - exists s'. split; auto. split; [intros; apply V; lia | ]. intros l Nl. apply F. intros [? ?]. apply Nl. split; [auto | lia].
Qed.
Lemma each_does : forall ins (r : obj) (v : nat -> K) s,
  (forall i s', i < n -> (forall a, s' (a, i) = s (a, i)) -> (forall l, fst l <> r -> s' l = s l) -> exec s' (ins i) = Ok (upd s' (r, i) (v i))) ->
  does (each K n ins) r s (mkvec n v).
Proof.
  intros ins r v s H. destruct (each_ok ins r v s H) as (s' & E & V & F). exists s'. split; auto. split.
  - apply vec_ext. intros i Hi. rewrite val_coef, V, vcoef_mk by auto. destruct (Nat.ltb_spec i n); [auto | lia].
  - intros k i Nk. apply F. cbn [fst]. intros [X _]. contradiction.
Qed.
Lemma does_eq : forall p r s x y, does p r s x -> (forall i, i < n -> vcoef x i = vcoef y i) -> does p r s y.
Proof. intros p r s x y D H. assert (E : x = y) by (apply vec_ext; auto). rewrite <- E. auto. Qed.
Ltac coeff := intros i Hi; rewrite !vcoef_mk; destruct (Nat.ltb_spec i n); [ | lia]; rewrite ?val_coef by auto.
Lemma set_does : forall r a s, does (pm_set K n r a) r s (val s a).
Proof. intros. eapply does_eq; [apply each_does; intros i s' Hi R W; cbn [exec]; rewrite R; reflexivity | ]. coeff. reflexivity. Qed.
Lemma set0_does : forall r s, does (pm_set0 K n r) r s f0.
Proof. intros. eapply does_eq; [apply each_does with (v := fun _ => 0%k); intros i s' Hi R W; cbn [exec]; reflexivity | ]. cbn [f0 Ext]. coeff. reflexivity. Qed.
Lemma neg_does : forall r a s, does (pm_neg K n r a) r s (fopp (val s a)).
Proof. intros. eapply does_eq; [apply each_does; intros i s' Hi R W; cbn [exec]; rewrite R; reflexivity | ]. cbn [fopp Ext]. coeff. reflexivity. Qed.
Lemma double_does : forall r a s, does (pm_double K n r a) r s (fadd (val s a) (val s a)).
Proof. intros. eapply does_eq; [apply each_does; intros i s' Hi R W; cbn [exec]; rewrite R; reflexivity | ]. cbn [fadd Ext]. coeff. reflexivity. Qed.
Lemma add_does : forall r a b s, does (pm_add K n r a b) r s (fadd (val s a) (val s b)).
Proof. intros. eapply does_eq; [apply each_does; intros i s' Hi R W; cbn [exec]; rewrite !R; reflexivity | ]. cbn [fadd Ext]. coeff. reflexivity. Qed.
Lemma sub_does : forall r a b s, does (pm_sub K n r a b) r s (fsub (val s a) (val s b)).
Proof. intros. eapply does_eq; [apply each_does; intros i s' Hi R W; cbn [exec]; rewrite !R; reflexivity | ]. cbn [fsub Ext]. coeff. reflexivity. Qed.
(** scaling *)
Definition cvec (c : K) : L := mkvec n (fun i => if i =? O then c else 0%k).
Lemma cvec_eqp : forall c, eqp (vl K n (cvec c)) [c].
Proof.
  intros c i. unfold cvec. change (vcoef (mkvec n (fun i => if i =? O then c else 0%k)) i = coef [c] i). rewrite vcoef_mk, coef_cons.
  destruct i as [ | i]; cbn [Nat.eqb]; [destruct (Nat.ltb_spec 0 n); [auto | lia] | ]. rewrite coef_nil. destruct (_ <? n); auto.
Qed.
Lemma cvec_mul : forall c (a : L), fmul (cvec c) a = mkvec n (fun i => (c * vcoef a i)%k).
Proof.
  intros c a. apply (vec_cong K HK n m Hm). rewrite (E_mul K HK n m Hm Hn). apply (eqp_cong K HK). rewrite cvec_eqp.
  rewrite <- (scalp_mulp K HK). intro i. rewrite (coef_scalp K HK). change ((c * vcoef a i)%k = vcoef (mkvec n (fun i => (c * vcoef a i)%k)) i).
  rewrite vcoef_mk. destruct (Nat.ltb_spec i n); auto. rewrite vcoef_over by auto. ring.
Qed.
Lemma const_does : forall r c s, does (pm_const K n r c) r s (cvec c).
Proof.
  intros r c s. unfold pm_const. replace (seq 1 (n - 1)) with (map S (seq 0 (n - 1))) by apply seq_shift.
  assert (E : IConst (r, O) c :: map (fun i => IConst (r, i) 0%k) (map S (seq 0 (n - 1))) = each K n (fun i => IConst (r, i) (if i =? O then c else 0%k))).
  { unfold each. destruct n as [ | k] eqn:En; [lia | ]. replace (S k - 1) with k by lia. cbn [seq map]. rewrite <- seq_shift, !map_map. reflexivity. }
  rewrite E. apply each_does. intros i s' Hi R W. reflexivity.
Qed.
Lemma mulz_does : forall r a z s, does (pm_mul_z K n r a z) r s (fmul (cvec (fofz z)) (val s a)).
Proof. intros. rewrite cvec_mul. eapply does_eq; [apply each_does; intros i s' Hi R W; cbn [exec]; rewrite R; reflexivity | ]. coeff. reflexivity. Qed.

(** ** Reduction *)
Fixpoint psum (q : nat) (t : nat -> poly) : poly := match q with O => [] | S q' => addp K (psum q' t) (t q') end.
Lemma coef_psum : forall t q i, coef (psum q t) i = sum q (fun j => coef (t j) i).
Proof. intros t q i. induction q as [ | q IH]; cbn [psum sum]; [apply coef_nil | ]. rewrite (coef_addp K HK), IH. auto. Qed.
Lemma psum_cong : forall q t u, (forall j, j < q -> cong m (t j) (u j)) -> cong m (psum q t) (psum q u).
Proof. induction q as [ | q IH]; intros t u H; cbn [psum]; [reflexivity | ]. rewrite (IH t u) by (intros; apply H; lia). rewrite (H q) by lia. reflexivity. Qed.
Lemma sum_extend : forall (t : nat -> K) a b, a <= b -> (forall i, a <= i < b -> t i = 0%k) -> sum b t = sum a t.
Proof.
  intros t a b H Z. induction b as [ | b IH]; [replace a with O by lia; auto | ]. destruct (Nat.eq_dec a (S b)) as [E | E]; [subst; auto | ].
  cbn [sum]. rewrite IH by (try lia; intros; apply Z; lia). rewrite (Z b) by lia. ring.
Qed.

Variable xp : nat -> nat -> K.
Hypothesis Hxp : forall i, i < n - 1 -> cong m (mono K (n + i) 1%k) (map (xp i) (seq 0 n)).
Lemma mono_scal : forall k c, eqp (mono K k c) (mulp K [c] (mono K k 1%k)).
Proof. intros k c. rewrite <- (scalp_mulp K HK). intro i. rewrite (coef_scalp K HK), !coef_mono. destruct (i =? k); ring. Qed.
(** a vector of this form is the product *)
Lemma reduced : forall (a b : L) (v : L),
  (forall k, k < n -> vcoef v k = (conv (vl K n a) (vl K n b) k + sum (n - 1)%nat (fun i => conv (vl K n a) (vl K n b) (n + i)%nat * xp i k))%k) ->
  v = fmul a b.
Proof.
  intros a b v H. apply (vec_cong K HK n m Hm). rewrite (E_mul K HK n m Hm Hn). set (A := vl K n a) in *. set (B := vl K n b) in *.
  set (low := map (conv A B) (seq 0 n)).
  assert (E1 : eqp (mulp K A B) (addp K low (psum (n - 1) (fun i => mono K (n + i) (conv A B (n + i)))))).
  { intro k. rewrite (coef_mulp K HK), (coef_addp K HK), coef_psum. unfold low. rewrite coef_map_seq.
    destruct (Nat.ltb_spec k n) as [Hk | Hk].
    - rewrite (sum_0 K HK); [ring | ]. intros i Hi. rewrite coef_mono. destruct (Nat.eqb_spec k (n + i)); [lia | auto].
    - destruct (lt_dec k (n + (n - 1))) as [Hk2 | Hk2].
      + rewrite (sum_single K HK _ (k - n)); [ | lia | ].
        * rewrite coef_mono. replace (n + (k - n)) with k by lia. rewrite Nat.eqb_refl. ring.
        * intros i Hi Ni. rewrite coef_mono. destruct (Nat.eqb_spec k (n + i)); [lia | auto].
      + rewrite (sum_0 K HK).
        * rewrite (conv_over K HK); [ring | ]. unfold A, B. rewrite !vl_length. lia.
        * intros i Hi. rewrite coef_mono. destruct (Nat.eqb_spec k (n + i)); [lia | auto]. }
  assert (E2 : eqp (vl K n v) (addp K low (psum (n - 1) (fun i => mulp K [conv A B (n + i)] (map (xp i) (seq 0 n)))))).
  { intro k. rewrite (coef_addp K HK), coef_psum. unfold low. rewrite coef_map_seq. change (coef (vl K n v) k) with (vcoef v k).
    destruct (Nat.ltb_spec k n) as [Hk | Hk].
    - rewrite H by auto. f_equal. apply sum_ext. intros i Hi.
      pose proof (scalp_mulp K HK (conv A B (n + i)) (map (xp i) (seq 0 n)) k) as E. rewrite <- E, (coef_scalp K HK), coef_map_seq.
      destruct (Nat.ltb_spec k n); [auto | lia].
    - rewrite vcoef_over by auto. rewrite (sum_0 K HK); [ring | ]. intros i Hi.
      pose proof (scalp_mulp K HK (conv A B (n + i)) (map (xp i) (seq 0 n)) k) as E. rewrite <- E, (coef_scalp K HK), coef_over; [ring | ].
      rewrite map_length, seq_length. auto. }
  apply (cong_proper K HK m m (reflexivity m) _ _ E2 _ _ E1). rewrite (psum_cong (n - 1) (fun i => mulp K [conv A B (n + i)] (map (xp i) (seq 0 n))) (fun i => mono K (n + i) (conv A B (n + i)))); [reflexivity | ].
  intros i Hi. pose proof (mono_scal (n + i) (conv A B (n + i))) as E.
  apply (cong_proper K HK m m (reflexivity m) _ _ (reflexivity _) _ _ E). rewrite (Hxp i Hi). reflexivity.
Qed.

(** ** Accumulation into prod and high *)
Fixpoint acc_sum (l : list (loc * K)) (a : loc) : K :=
  (match l with [] => 0 | e :: l' => (if loc_eqb a (fst e) then snd e else 0) + acc_sum l' a end)%k.
Lemma acc_sum_app : forall l l' a, acc_sum (l ++ l') a = (acc_sum l a + acc_sum l' a)%k.
Proof. intros l l' a. induction l as [ | e l IH]; cbn [app acc_sum]; [ring | rewrite IH; ring]. Qed.
Lemma acc_sum_seq : forall (t : nat -> loc) (w : nat -> K) a len k,
  acc_sum (map (fun j => (t j, w j)) (seq k len)) a = sum len (fun j => if loc_eqb a (t (k + j)) then w (k + j) else 0%k).
Proof.
  intros t w a. induction len as [ | len IH]; intro k; [reflexivity | ]. cbn [seq map acc_sum fst snd]. rewrite IH.
  rewrite (sum_first K HK). rewrite Nat.add_0_r. f_equal. apply sum_ext. intros j _. replace (S k + j) with (k + S j) by lia. auto.
Qed.
Lemma acc_sum_flat : forall (g : nat -> list (loc * K)) a len k,
  acc_sum (flat_map g (seq k len)) a = sum len (fun i => acc_sum (g (k + i)) a).
Proof.
  intros g a. induction len as [ | len IH]; intro k; [reflexivity | ]. cbn [seq flat_map]. rewrite acc_sum_app, IH, (sum_first K HK). rewrite Nat.add_0_r.
  f_equal. apply sum_ext. intros j _. replace (S k + j) with (k + S j) by lia. auto.
Qed.
Notation prod := (Polymod.prod). Notation high := (Polymod.high).
Definition isacc (l : loc) : Prop := fst l = prod \/ fst l = high.
Definition keeps s s' : Prop := forall l, user (fst l) -> s' l = s l.
Definition entry : Type := list (instr K) * loc * K.
Definition code (e : entry) : list (instr K) := fst (fst e) ++ [IAdd (snd (fst e)) (snd (fst e)) c0].
Definition computes (blk : list (instr K)) (w : K) s : Prop :=
  forall s', keeps s s' -> exists s'', run blk s' = Ok s'' /\ s'' c0 = w /\ forall l, l <> c0 -> s'' l = s' l.
Lemma acc_neq : forall l, isacc l -> l <> c0.
Proof. intros l [E | E] X; subst l; discriminate. Qed.
Lemma user_neq : forall l, user (fst l) -> l <> c0 /\ ~ isacc l.
Proof.
  intros l U. split.
  - intro X. subst l. apply (U 3); [lia | auto].
  - intros [E | E]; rewrite E in U; [apply (U 1); [lia | auto] | apply (U O); [lia | auto]].
Qed.
Lemma acc_run : forall (l : list entry) s, (forall e, In e l -> isacc (snd (fst e)) /\ computes (fst (fst e)) (snd e) s) ->
  exists s', run (flat_map code l) s = Ok s' /\ keeps s s' /\
  (forall a, isacc a -> s' a = (s a + acc_sum (map (fun e => (snd (fst e), snd e)) l) a)%k).
Proof.
  induction l as [ | e l IH]; intros s H.
  - exists s. split; [reflexivity | ]. split; [intros ? ?; auto | ]. intros a _. cbn [map acc_sum]. ring.
  - destruct e as [[blk t] w]. destruct (H (blk, t, w) (or_introl eq_refl)) as [IA C]. cbn [fst snd] in IA, C.
    destruct (C s (fun l _ => eq_refl)) as (s1 & E1 & V1 & F1).
    set (s2 := upd s1 t (s1 t + w)%k).
    assert (R2 : run (code (blk, t, w)) s = Ok s2) by (unfold code; cbn [fst snd]; rewrite run_app, E1; cbn [bind run exec]; rewrite V1; reflexivity).
    assert (Keep : keeps s s2).
    { intros l0 U. destruct (user_neq _ U) as [N1 N2]. unfold s2. rewrite upd_other by (intro X; subst; contradiction). apply F1. auto. }
    destruct (IH s2) as (s' & E' & K' & V').
    + intros e Ie. destruct (H e (or_intror Ie)) as [Ia Ca]. split; auto. intros s'' Ks. apply Ca. intros l0 U. rewrite (Ks l0 U). auto.
    + exists s'. split; [ | split].
      * cbn [flat_map]. rewrite run_app, R2. cbn [bind]. auto.
      * intros l0 U. rewrite (K' l0 U). auto.
      * intros a Ia. rewrite V' by auto. cbn [map acc_sum fst snd]. unfold s2. destruct (loc_eqb_spec a t) as [E | E].
        -- subst a. rewrite upd_same, F1 by (apply acc_neq; auto). ring.
        -- rewrite upd_other by auto. rewrite F1 by (apply acc_neq; auto). ring.
Qed.
Definition target (k : nat) : loc := if k <? n then (prod, k) else (high, k - n).
Lemma target_acc : forall k, isacc (target k). Proof. intro k. unfold target, isacc. destruct (k <? n); auto. Qed.
Lemma target_eqb : forall j k, loc_eqb (target j) (target k) = (j =? k).
Proof.
  intros j k. unfold target. destruct (Nat.ltb_spec j n), (Nat.ltb_spec k n); unfold loc_eqb; cbn [fst snd obj_eqb Polymod.prod Polymod.high Nat.eqb andb]; auto.
  - destruct (Nat.eqb_spec j k); auto; lia.
  - destruct (Nat.eqb_spec j k); auto; lia.
  - destruct (Nat.eqb_spec j k), (Nat.eqb_spec (j - n) (k - n)); auto; lia.
Qed.
(** what accumulating the products gives *)
Lemma pair_sum : forall (a b : nat -> K) k, (forall i, n <= i -> a i = 0%k) -> (forall i, n <= i -> b i = 0%k) ->
  sum n (fun i => sum n (fun j => if k =? (i + j) then (a i * b j)%k else 0%k)) = sum (S k) (fun i => (a i * b (k - i)%nat)%k).
Proof.
  intros a b k A B.
  assert (I : forall i, sum n (fun j => if k =? (i + j) then (a i * b j)%k else 0%k) = if i <=? k then (a i * b (k - i)%nat)%k else 0%k).
  { intro i. destruct (Nat.leb_spec i k) as [Hi | Hi].
    - destruct (lt_dec (k - i) n) as [J | J].
      + rewrite (sum_single K HK _ (k - i)); [ | auto | intros j Hj Nj; destruct (Nat.eqb_spec k (i + j)); [lia | auto]].
        destruct (Nat.eqb_spec k (i + (k - i))); [auto | lia].
      + rewrite (B (k - i)) by lia. rewrite (sum_0 K HK); [ring | ]. intros j Hj. destruct (Nat.eqb_spec k (i + j)); [lia | auto].
    - apply (sum_0 K HK). intros j Hj. destruct (Nat.eqb_spec k (i + j)); [lia | auto]. }
  rewrite (sum_ext K n _ (fun i => if i <=? k then (a i * b (k - i)%nat)%k else 0%k)) by (intros; apply I).
  rewrite <- (sum_extend (fun i => if i <=? k then (a i * b (k - i)%nat)%k else 0%k) n (max n (S k))).
  - rewrite (sum_extend (fun i => if i <=? k then (a i * b (k - i)%nat)%k else 0%k) (S k) (max n (S k))).
    + apply sum_ext. intros i Hi. destruct (Nat.leb_spec i k); [auto | lia].
    + lia.
    + intros i Hi. destruct (Nat.leb_spec i k); [lia | auto].
  - lia.
  - intros i Hi. destruct (Nat.leb_spec i k); auto. rewrite A by lia. ring.
Qed.
Lemma sum_square : forall (g : nat -> nat -> K) q, (forall i j, g i j = g j i) ->
  sum q (fun i => sum q (g i)) = sum q (fun i => (g i i + sum (q - (i + 1))%nat (fun j => g i (i + 1 + j)%nat + g i (i + 1 + j)%nat))%k).
Proof.
  intros g q S. induction q as [ | q IH]; [reflexivity | ].
  cbn [sum]. rewrite (sum_plus K HK), IH. replace (Datatypes.S q - (q + 1)) with O by lia. cbn [sum].
  assert (E : sum q (fun i => (g i i + sum (Datatypes.S q - (i + 1))%nat (fun j => g i (i + 1 + j)%nat + g i (i + 1 + j)%nat))%k) =
              (sum q (fun i => (g i i + sum (q - (i + 1))%nat (fun j => g i (i + 1 + j)%nat + g i (i + 1 + j)%nat))%k) + (sum q (fun i => g i q) + sum q (fun i => g i q)))%k).
  { rewrite <- !(sum_plus K HK). apply sum_ext. intros i Hi. replace (Datatypes.S q - (i + 1)) with (Datatypes.S (q - (i + 1))) by lia. cbn [sum].
    replace (i + 1 + (q - (i + 1))) with q by lia. ring. }
  rewrite E. rewrite (sum_ext K q (g q) (fun i => g i q)) by (intros; apply S). ring.
Qed.

(** ** The generic frame *)
Definition val_nat s (o : obj) (i : nat) : K := if i <? n then s (o, i) else 0%k.
Lemma val_vl : forall s o i, coef (vl K n (val s o)) i = val_nat s o i.
Proof. intros s o i. change (vcoef (val s o) i = val_nat s o i). unfold val, val_nat. apply vcoef_mk. Qed.
Lemma reduce_loop : forall q s, q <= n - 1 ->
  exists s', run (flat_map (fun i => pm_const_mul K n p0 (high, i) (xp i) ++ pm_add K n prod prod p0) (seq 0 q)) s = Ok s' /\ keeps s s' /\
  (forall i, s' (high, i) = s (high, i)) /\ (forall k, k < n -> s' (prod, k) = (s (prod, k) + sum q (fun i => s (high, i) * xp i k))%k).
Proof.
  induction q as [ | q IH]; intros s Hq.
  - exists s. split; [reflexivity | ]. split; [intros ? ?; auto | ]. split; auto. intros k _. cbn [sum]. ring.
  - destruct (IH s ltac:(lia)) as (s1 & E1 & K1 & H1 & V1). rewrite seq_S, flat_map_app, run_app, E1. cbn [bind flat_map]. rewrite app_nil_r, run_app. cbn [Nat.add].
    destruct (each_ok (fun i => IMulC (p0, i) (high, q) (xp q i)) p0 (fun i => (s1 (high, q) * xp q i)%k) s1) as (s2 & E2 & V2 & F2).
    + intros i s' Hi R W. cbn [exec]. rewrite (W (high, q)) by discriminate. reflexivity.
    + unfold pm_const_mul. rewrite E2. cbn [bind].
      destruct (each_ok (fun i => IAdd (prod, i) (prod, i) (p0, i)) prod (fun i => (s2 (prod, i) + s2 (p0, i))%k) s2) as (s3 & E3 & V3 & F3).
      * intros i s' Hi R W. cbn [exec]. rewrite !R. reflexivity.
      * exists s3. split; [exact E3 | ]. split; [ | split].
        -- intros l U. destruct (user_neq _ U) as [_ N]. rewrite F3, F2, K1; auto; intros [X _]; [rewrite X in U; apply (U 2); [lia | auto] | apply N; left; auto].
        -- intro i. rewrite F3, F2, H1; auto; intros [X _]; discriminate.
        -- intros k Hk. rewrite V3, V2 by auto. rewrite F2 by (intros [X _]; discriminate). rewrite V1, H1 by auto. cbn [sum]. ring.
Qed.
Lemma generic_does : forall r body s (a b : L), user r ->
  (forall s0, keeps s s0 -> (forall k, k < n + (n - 1) -> s0 (target k) = 0%k) ->
     exists s1, run body s0 = Ok s1 /\ keeps s0 s1 /\ forall k, k < n + (n - 1) -> s1 (target k) = conv (vl K n a) (vl K n b) k) ->
  does (pm_generic K n xp r body) r s (fmul a b).
Proof.
  intros r body s a b U H. unfold pm_generic.
  destruct (loop_ok (fun i => IConst (high, i) 0%k) high (fun _ => 0%k) (n - 1) 0 s) as (s1 & E1 & V1 & F1); [intros; reflexivity | ].
  destruct (each_ok (fun i => IConst (prod, i) 0%k) prod (fun _ => 0%k) s1) as (s2 & E2 & V2 & F2); [intros; reflexivity | ].
  assert (K2 : keeps s s2).
  { intros l Ul. destruct (user_neq _ Ul) as [_ N]. rewrite F2, F1; auto; intros [X _]; apply N; [right | left]; auto. }
  destruct (H s2 K2) as (s3 & E3 & K3 & V3).
  { intros k Hk. unfold target. destruct (Nat.ltb_spec k n); [apply V2; auto | ]. rewrite F2 by (intros [X _]; discriminate). apply V1. lia. }
  destruct (reduce_loop (n - 1) s3 (le_n _)) as (s4 & E4 & K4 & H4 & V4).
  destruct (set_does r prod s4) as (s5 & E5 & V5 & F5).
  exists s5. rewrite run_app, E1. cbn [bind]. unfold pm_set0. rewrite run_app, E2. cbn [bind]. rewrite run_app, E3. cbn [bind]. rewrite run_app, E4. cbn [bind].
  split; auto. split.
  - rewrite V5. apply reduced. intros k Hk. rewrite val_coef, V4 by auto.
    pose proof (V3 k ltac:(lia)) as E. unfold target in E. destruct (Nat.ltb_spec k n); [ | lia]. rewrite E. f_equal.
    apply sum_ext. intros i Hi. f_equal. pose proof (V3 (n + i) ltac:(lia)) as E'. unfold target in E'. destruct (Nat.ltb_spec (n + i) n); [lia | ].
    replace (n + i - n) with i in E' by lia. auto.
  - intros k i N. rewrite F5 by auto. rewrite K4, K3, K2; auto; apply user_reg.
Qed.
Lemma target_low : forall k, k < n -> target k = (prod, k).
Proof. intros k H. unfold target. destruct (Nat.ltb_spec k n); [auto | lia]. Qed.
Lemma target_high : forall k, n <= k -> target k = (high, k - n).
Proof. intros k H. unfold target. destruct (Nat.ltb_spec k n); [lia | auto]. Qed.
Lemma c0_reg : c0 = (Tmp 3, O). Proof. reflexivity. Qed.
Lemma mul_computes : forall e f i j s, user e -> user f -> computes [IMul c0 (e, i) (f, j)] (s (e, i) * s (f, j))%k s.
Proof.
  intros e f i j s Ue Uf s' Ks. eexists. split; [reflexivity | ]. split; [rewrite upd_same, !Ks by auto; auto | ]. intros l Nl. apply upd_other. auto.
Qed.
Lemma sqr_computes : forall e i s, user e -> computes [ISqr c0 (e, i)] (s (e, i) * s (e, i))%k s.
Proof.
  intros e i s Ue s' Ks. eexists. split; [reflexivity | ]. split; [rewrite upd_same, !Ks by auto; auto | ]. intros l Nl. apply upd_other. auto.
Qed.
Lemma dbl_computes : forall e i j s, user e -> computes [IMul c0 (e, i) (e, j); IAdd c0 c0 c0] (s (e, i) * s (e, j) + s (e, i) * s (e, j))%k s.
Proof.
  intros e i j s Ue s' Ks. cbn [run exec bind]. eexists. split; [reflexivity | ]. split.
  - rewrite !upd_same, !Ks by auto. auto.
  - intros l Nl. rewrite !upd_other by auto. auto.
Qed.
Lemma conv_val : forall s e f k, conv (vl K n (val s e)) (vl K n (val s f)) k = sum n (fun i => sum n (fun j => if k =? (i + j) then (s (e, i) * s (f, j))%k else 0%k)).
Proof.
  intros s e f k. unfold conv. rewrite (sum_ext K (S k) _ (fun i => (val_nat s e i * val_nat s f (k - i))%k)) by (intros; rewrite !val_vl; auto).
  rewrite <- (pair_sum (val_nat s e) (val_nat s f)) by (intros; unfold val_nat; destruct (Nat.ltb_spec i n); [lia | auto]).
  apply sum_ext. intros i Hi. apply sum_ext. intros j Hj. unfold val_nat. destruct (Nat.ltb_spec i n), (Nat.ltb_spec j n); try lia. auto.
Qed.

Lemma mul_generic_does : forall r e f s, user r -> user e -> user f -> does (pm_mul_generic K n xp r e f) r s (fmul (val s e) (val s f)).
Proof.
  intros r e f s Ur Ue Uf. apply generic_does; auto. intros s0 K0 Z0.
  set (l := flat_map (fun i => map (fun j => ([IMul c0 (e, i) (f, j)], target (i + j), (s0 (e, i) * s0 (f, j))%k) : entry) (seq 0 n)) (seq 0 n)).
  destruct (acc_run l s0) as (s1 & E1 & K1 & V1).
  { intros x Ix. apply in_flat_map in Ix. destruct Ix as (i & _ & Ix). apply in_map_iff in Ix. destruct Ix as (j & E & _). subst x. cbn [fst snd].
    split; [apply target_acc | apply mul_computes; auto]. }
  exists s1. split; [ | split; auto].
  - rewrite <- E1. f_equal. unfold l. rewrite flat_map_flat_map. apply flat_map_ext_in. intros i Hi. apply in_seq in Hi. rewrite flat_map_map.
    replace (seq 0 n) with (seq 0 ((n - i) + (n - (n - i)))) by (f_equal; lia). rewrite seq_app, flat_map_app. cbn [Nat.add]. f_equal; apply flat_map_ext_in; intros j Hj; apply in_seq in Hj; unfold code; cbn [fst snd app].
    + rewrite target_low by lia. reflexivity.
    + rewrite target_high by lia. replace (i + j - n) with (j - (n - i)) by lia. reflexivity.
  - intros k Hk. rewrite V1 by apply target_acc. rewrite Z0 by auto. rewrite conv_val. unfold l.
    rewrite (flat_map_concat_map _ (seq 0 n)), concat_map, map_map, <- flat_map_concat_map, acc_sum_flat.
    match goal with |- (0 + ?x)%k = _ => replace (0 + x)%k with x by ring end.
    apply sum_ext. intros i Hi. cbn [Nat.add]. rewrite map_map. cbn [fst snd]. rewrite acc_sum_seq. apply sum_ext. intros j Hj. cbn [Nat.add].
    rewrite target_eqb. destruct (k =? i + j); auto. rewrite !(K0 _) by auto. auto.
Qed.
Lemma square_generic_does : forall r e s, user r -> user e -> does (pm_square_generic K n xp r e) r s (fmul (val s e) (val s e)).
Proof.
  intros r e s Ur Ue. apply generic_does; auto. intros s0 K0 Z0.
  set (l := flat_map (fun i => (([ISqr c0 (e, i)], target (i + i), (s0 (e, i) * s0 (e, i))%k) : entry) ::
    map (fun j => ([IMul c0 (e, i) (e, j); IAdd c0 c0 c0], target (i + j), (s0 (e, i) * s0 (e, j) + s0 (e, i) * s0 (e, j))%k) : entry) (seq (i + 1) (n - (i + 1)))) (seq 0 n)).
  destruct (acc_run l s0) as (s1 & E1 & K1 & V1).
  { intros x Ix. apply in_flat_map in Ix. destruct Ix as (i & _ & [Ix | Ix]).
    - subst x. cbn [fst snd]. split; [apply target_acc | apply sqr_computes; auto].
    - apply in_map_iff in Ix. destruct Ix as (j & E & _). subst x. cbn [fst snd]. split; [apply target_acc | apply dbl_computes; auto]. }
  exists s1. split; [ | split; auto].
  - rewrite <- E1. f_equal. unfold l. rewrite flat_map_flat_map. apply flat_map_ext_in. intros i Hi. apply in_seq in Hi. cbn [flat_map]. rewrite flat_map_map. cbv zeta. f_equal.
    + unfold code. cbn [fst snd app]. replace (2 * i) with (i + i) by lia. destruct (Nat.ltb_spec (i + i) n); [rewrite target_low by lia | rewrite target_high by lia]; reflexivity.
    + set (mid := max (i + 1) (n - i)). replace (n - (i + 1)) with ((mid - (i + 1)) + (n - mid)) by lia. rewrite seq_app, flat_map_app.
      replace (i + 1 + (mid - (i + 1))) with mid by lia. f_equal; apply flat_map_ext_in; intros j Hj; apply in_seq in Hj; unfold code; cbn [fst snd app].
      * rewrite target_low by lia. reflexivity.
      * rewrite target_high by lia. reflexivity.
  - intros k Hk. rewrite V1 by apply target_acc. rewrite Z0 by auto. rewrite conv_val. unfold l.
    rewrite (flat_map_concat_map _ (seq 0 n)), concat_map, map_map, <- flat_map_concat_map, acc_sum_flat.
    match goal with |- (0 + ?x)%k = _ => replace (0 + x)%k with x by ring end.
    rewrite (sum_square (fun i j => if k =? i + j then (s (e, i) * s (e, j))%k else 0%k)).
    + apply sum_ext. intros i Hi. cbn [Nat.add map acc_sum]. rewrite map_map. cbn [fst snd]. rewrite acc_sum_seq. rewrite target_eqb. f_equal.
      * destruct (k =? i + i); auto. rewrite !(K0 _) by auto. auto.
      * apply sum_ext. intros j Hj. rewrite target_eqb. destruct (k =? i + (i + 1 + j)); [ | ring]. rewrite !(K0 _) by auto. auto.
    + intros i j. rewrite (Nat.add_comm i j). destruct (k =? j + i); auto. ring.
Qed.
End N.
End P.
