(** Polynomial rings: the C functions. *)
From Coq Require Import ZArith List Bool Lia Arith Ring Field Setoid Morphisms.
From Verif.Base Require Import Outcome Array Algebra Slots.
From Verif.Spec Require Import Polynomials PolynomialCalls.
From Verif.Model Require Import Poly.
From Verif.Proofs Require Import FieldFacts SlotFacts PolyAlgebra.
Import ListNotations.
Open Scope nat_scope.

Lemma get_nth : forall A (l : list A) i x, nth_error l i = Some x -> get l i = Ok x.
Proof. intros. unfold get. rewrite H. auto. Qed.
Lemma put_in : forall A (l : list A) i x, i < length l -> put l i x = Ok (firstn i l ++ x :: skipn (S i) l).
Proof. intros A l i x H. unfold put. destruct (Nat.ltb_spec i (length l)); [auto | lia]. Qed.
Lemma nth_error_upd : forall A (l : list A) i x j, i < length l ->
  nth_error (firstn i l ++ x :: skipn (S i) l) j = if j =? i then Some x else nth_error l j.
Proof.
  intros A l i x j H. assert (L : length (firstn i l) = i) by (apply firstn_length_le; lia).
  destruct (Nat.eqb_spec j i) as [E | E].
  - subst j. rewrite nth_error_app2 by lia. rewrite L, Nat.sub_diag. auto.
  - destruct (lt_dec j i) as [J | J].
    + rewrite nth_error_app1 by lia. rewrite <- (firstn_skipn i l) at 2. rewrite nth_error_app1 by lia. auto.
    + rewrite nth_error_app2 by lia. rewrite L. replace (j - i) with (S (j - S i)) by lia. cbn [nth_error].
      rewrite <- (firstn_skipn (S i) l) at 2. rewrite nth_error_app2 by (rewrite firstn_length_le; lia). rewrite firstn_length_le by lia. auto.
Qed.
Lemma length_upd : forall A (l : list A) i x, i < length l -> length (firstn i l ++ x :: skipn (S i) l) = length l.
Proof. intros. rewrite app_length. cbn [length]. rewrite firstn_length_le, skipn_length by lia. lia. Qed.

Section P.
Variable K : fld.
Hypothesis HK : fld_laws K.
Add Field KFpf : (fl_field K HK).
Add Ring PolyRf : (poly_ring K HK) (setoid (eqp_equiv K) (poly_ext K HK)).
Existing Instance eqp_equiv.
Local Instance addp_proper' : Proper (eqp ==> eqp ==> eqp) (addp K) := addp_proper K HK.
Local Instance oppp_proper' : Proper (eqp ==> eqp) (oppp K) := oppp_proper K HK.
Local Instance subp_proper' : Proper (eqp ==> eqp ==> eqp) (subp K) := subp_proper K HK.
Local Instance scalp_proper' : Proper (eq ==> eqp ==> eqp) (scalp K) := scalp_proper K HK.
Local Instance mulp_proper' : Proper (eqp ==> eqp ==> eqp) (mulp K) := mulp_proper K HK.
Notation "0" := (@f0 K). Notation "1" := (@f1 K).
Notation "x + y" := (@fadd K x y). Notation "x * y" := (@fmul K x y). Notation "x - y" := (@fsub K x y).
Notation "- x" := (@fopp K x).
Notation poly := (list K).
Notation pst := (pst K).
Implicit Types f g h m : poly.

Lemma get_coef : forall f i, i < length f -> get f i = Ok (coef f i).
Proof. intros f i H. apply get_nth. apply nth_error_nth'. auto. Qed.
Lemma coef_nth_error : forall f i, coef f i = match nth_error f i with Some x => x | None => 0 end.
Proof. intros. unfold coef. destruct (nth_error f i) eqn:E; [apply nth_error_nth; auto | apply nth_overflow; apply nth_error_None; auto]. Qed.

(** ** Arrays *)
Lemma alloc_length : forall f n, length (poly_alloc K f n) = n.
Proof. intros. unfold poly_alloc. rewrite app_length, repeat_length, firstn_length. lia. Qed.
Lemma coef_alloc : forall f n i, coef (poly_alloc K f n) i = if i <? n then coef f i else 0.
Proof.
  intros f n i. destruct (Nat.ltb_spec i n) as [H | H]; [ | apply coef_over; rewrite alloc_length; auto].
  unfold poly_alloc, coef. destruct (le_lt_dec (length f) i) as [L | L].
  - rewrite app_nth2 by (rewrite firstn_length; lia). rewrite nth_repeat. symmetry. apply nth_overflow. auto.
  - rewrite app_nth1 by (rewrite firstn_length; lia). rewrite <- (firstn_skipn n f) at 2. rewrite app_nth1 by (rewrite firstn_length; lia). auto.
Qed.
Lemma alloc_nth_error : forall f n i, i < n -> i < length f -> nth_error (poly_alloc K f n) i = nth_error f i.
Proof.
  intros f n i H L. unfold poly_alloc. rewrite nth_error_app1 by (rewrite firstn_length; lia).
  rewrite <- (firstn_skipn n f) at 2. rewrite nth_error_app1 by (rewrite firstn_length; lia). auto.
Qed.
Lemma remove_ok : forall f, poly_remove_leading_zeroes K f = Ok (trim f).
Proof.
  intro f. unfold poly_remove_leading_zeroes. induction f as [ | c f IH] using rev_ind; [reflexivity | ].
  rewrite app_length, Nat.add_1_r. cbn [remove_loop]. rewrite (get_nth _ _ _ c) by (rewrite nth_error_app2, Nat.sub_diag by lia; auto).
  cbn [bind]. destruct (feqb c 0) eqn:E.
  - apply (feqb_eq K HK) in E. subst c. rewrite firstn_app, Nat.sub_diag, firstn_all. cbn [firstn]. rewrite app_nil_r, IH. f_equal.
    apply (eqp_trim K HK). intro i. unfold coef. destruct (le_lt_dec (length f) i) as [L | L].
    + rewrite (nth_overflow f) by auto. rewrite app_nth2 by auto. destruct (i - length f)%nat as [ | [ | ]]; auto.
    + rewrite app_nth1 by auto. auto.
  - f_equal. symmetry. apply (trim_of_normal K HK). intros _. rewrite last_last. apply (feqb_neq K HK); auto.
Qed.

(** The call changes only variable d. *)
Definition assigns (r : res pst) (st : pst) (d : nat) (c : nat -> K) : Prop :=
  exists st', r = Ok st' /\ becomes K st d c st'.
Definition only (st st' : pst) (d : nat) : Prop := forall v, v <> d -> st' v = st v.
Lemma pset_same : forall (st : pst) d f, pset K st d f d = f. Proof. intros. unfold pset. rewrite Nat.eqb_refl. auto. Qed.
Lemma pset_other : forall (st : pst) d f v, v <> d -> pset K st d f v = st v. Proof. intros. unfold pset. destruct (Nat.eqb_spec v d); [contradiction | auto]. Qed.
Lemma pset_only : forall (st : pst) d f, only st (pset K st d f) d. Proof. intros st d f v N. apply pset_other; auto. Qed.
Lemma only_trans : forall (a b c : pst) d, only a b d -> only b c d -> only a c d.
Proof. intros a b c d H1 H2 v N. rewrite H2, H1; auto. Qed.
Lemma cell_ok : forall d i v (st : pst), i < length (st d) ->
  exists st', cell_set K d i v st = Ok st' /\ only st st' d /\ length (st' d) = length (st d) /\
  (forall j, nth_error (st' d) j = if j =? i then Some v else nth_error (st d) j).
Proof.
  intros d i v st H. unfold cell_set. rewrite put_in by auto. cbn [bind]. eexists. split; [reflexivity | ].
  split; [apply pset_only | ]. rewrite pset_same. split; [apply length_upd; auto | ]. intro j. apply nth_error_upd. auto.
Qed.
Lemma coef_cell : forall f g i v, (forall j, nth_error g j = if j =? i then Some v else nth_error f j) -> forall j, coef g j = if j =? i then v else coef f j.
Proof. intros f g i v H j. rewrite !coef_nth_error, H. destruct (j =? i); auto. Qed.

(** A loop that writes cell i of d from values not yet overwritten. *)
Lemma fill : forall d (v : nat -> K) (body : nat -> pst -> res pst) k i (st : pst),
  (forall j st', i <= j < (i + k)%nat -> only st st' d -> length (st' d) = length (st d) ->
     (forall t, j <= t -> nth_error (st' d) t = nth_error (st d) t) -> body j st' = cell_set K d j (v j) st') ->
  (i + k <= length (st d))%nat ->
  exists st', for_up k i body st = Ok st' /\ only st st' d /\ length (st' d) = length (st d) /\
  (forall j, nth_error (st' d) j = if (i <=? j) && (j <? (i + k)%nat) then Some (v j) else nth_error (st d) j).
Proof.
  intros d v body. induction k as [ | k IH]; intros i st B L.
  - exists st. split; [reflexivity | ]. split; [intros ? ?; auto | ]. split; auto. intro j.
    destruct (Nat.leb_spec i j), (Nat.ltb_spec j (i + 0)%nat); cbn [andb]; auto. lia.
  - cbn [for_up]. rewrite (B i st) by (auto; try lia; intros ? ?; auto).
    destruct (cell_ok d i (v i) st ltac:(lia)) as (st1 & E1 & O1 & L1 & N1). rewrite E1. cbn [bind].
    destruct (IH (S i) st1) as (st2 & E2 & O2 & L2 & N2).
    + intros j st' Hj Ho Hl Ht. apply B; [lia | apply (only_trans _ st1); auto | congruence | ].
      intros t T. rewrite Ht by auto. rewrite N1. destruct (Nat.eqb_spec t i); [lia | auto].
    + lia.
    + exists st2. split; auto. split; [apply (only_trans _ st1); auto | ]. split; [congruence | ].
      intro j. rewrite N2, N1. destruct (Nat.leb_spec (S i) j), (Nat.leb_spec i j), (Nat.ltb_spec j (S i + k)%nat), (Nat.ltb_spec j (i + S k)%nat), (Nat.eqb_spec j i);
        cbn [andb]; subst; auto; lia.
Qed.
Lemma coef_fill : forall f g i k (v : nat -> K), (forall j, nth_error g j = if (i <=? j) && (j <? (i + k)%nat) then Some (v j) else nth_error f j) ->
  forall j, coef g j = if (i <=? j) && (j <? (i + k)%nat) then v j else coef f j.
Proof. intros f g i k v H j. rewrite !coef_nth_error, H. destruct ((i <=? j) && (j <? (i + k)%nat)); auto. Qed.

Lemma map_ok : forall op d a (st : pst),
  exists st', poly_map K op d a st = Ok st' /\ only st st' d /\ length (st' d) = length (st a) /\
  (forall j, coef (st' d) j = if j <? length (st a) then op (coef (st a) j) else 0).
Proof.
  intros op d a st. unfold poly_map. set (st0 := pset K st d (poly_alloc K (st d) (length (st a)))).
  assert (L0 : length (st0 d) = length (st a)) by (unfold st0; rewrite pset_same; apply alloc_length).
  destruct (fill d (fun i => op (coef (st a) i)) (fun i (st : pst) => c <- get (st a) i ;; cell_set K d i (op c) st) (length (st a)) 0 st0) as (st' & E & O & L & N).
  - intros j st' Hj Ho Hl Ht.
    assert (G : get (st' a) j = Ok (coef (st a) j)).
    { destruct (Nat.eq_dec a d) as [A | A].
      - subst a. apply get_nth. rewrite Ht by lia. unfold st0. rewrite pset_same, alloc_nth_error by lia. apply nth_error_nth'. lia.
      - rewrite Ho by auto. unfold st0. rewrite pset_other by auto. apply get_coef. lia. }
    rewrite G. reflexivity.
  - lia.
  - exists st'. split; [exact E | ]. split; [apply (only_trans _ st0); auto; apply pset_only | ]. split; [congruence | ].
    intro j. rewrite (coef_fill _ _ _ _ _ N). cbn [Nat.leb andb]. destruct (Nat.ltb_spec j (0 + length (st a))%nat), (Nat.ltb_spec j (length (st a))); auto; try lia.
    rewrite coef_over by lia. auto.
Qed.
Lemma strip_ok : forall d (st : pst), strip K d st = Ok (pset K st d (trim (st d))).
Proof. intros. unfold strip. rewrite remove_ok. reflexivity. Qed.
Lemma strip_assigns : forall d (st st1 : pst) c, only st st1 d -> (forall i, coef (st1 d) i = c i) -> assigns (strip K d st1) st d c.
Proof.
  intros d st st1 c O H. rewrite strip_ok. exists (pset K st1 d (trim (st1 d))). split; auto. split; [ | split].
  - rewrite pset_same. apply (trim_normal K HK).
  - intro i. rewrite pset_same, (coef_trim K HK). auto.
  - intros v N. rewrite pset_other by auto. auto.
Qed.
(** A pass that keeps the leading coefficient non-zero. *)
Lemma map_assigns : forall op d a (st : pst), normal (st a) -> op 0 = 0 -> (forall c, c <> 0 -> op c <> 0) ->
  assigns (poly_map K op d a st) st d (fun i => op (coef (st a) i)).
Proof.
  intros op d a st N O1 O2. destruct (map_ok op d a st) as (st' & E & O & L & C). exists st'. split; auto.
  assert (C' : forall i, coef (st' d) i = op (coef (st a) i)).
  { intro i. rewrite C. destruct (Nat.ltb_spec i (length (st a))); auto. rewrite coef_over by auto. auto. }
  split; [ | split]; auto. apply lead_normal. intro Z. rewrite C', L. apply O2. apply normal_lead; auto.
  intro Z'. apply Z. apply length_0. rewrite L, Z'. auto.
Qed.
Lemma const_mul_assigns : forall d c a (st : pst), assigns (poly_const_mul K d c a st) st d (fun i => c * coef (st a) i).
Proof.
  intros d c a st. unfold poly_const_mul. destruct (map_ok (fmul c) d a st) as (st' & E & O & L & C). rewrite E. cbn [bind].
  apply strip_assigns; auto. intro i. rewrite C. destruct (Nat.ltb_spec i (length (st a))); auto. rewrite coef_over by auto. ring.
Qed.

(** Addition and subtraction: op is the operation, keep and tail what happens
    to the coefficients of the longer operand. *)
Lemma addsub_assigns : forall (op : K -> K -> K) (tl : bool -> K -> K) (s f g : nat) (st : pst) n n1 big isf,
  (if length (st g) <? length (st f) then (length (st g), length (st f), f, true) else (length (st f), length (st g), g, false)) = (n, n1, big, isf) ->
  (forall c, op c 0 = tl true c) -> (forall c, op 0 c = tl false c) -> op 0 0 = 0 ->
  assigns
    (bind (A := pst) (for_up n 0 (fun i (st : pst) => a <- get (st f) i ;; b <- get (st g) i ;; cell_set K s i (op a b) st) (pset K st s (poly_alloc K (st s) n1))) (fun st0 =>
     st0 <- for_up (n1 - n)%nat n (fun i (st : pst) => a <- get (st big) i ;; cell_set K s i (tl isf a) st) st0 ;;
     strip K s st0))
    st s (fun i => op (coef (st f) i) (coef (st g) i)).
Proof.
  intros op tl s f g st n n1 big isf E T1 T2 T0.
  assert (Hn : n <= length (st f) /\ n <= length (st g) /\ n <= n1 /\ length (st big) = n1 /\ n = min (length (st f)) (length (st g)) /\ n1 = max (length (st f)) (length (st g)) /\
     (forall i, n <= i -> op (coef (st f) i) (coef (st g) i) = tl isf (coef (st big) i))).
  { destruct (Nat.ltb_spec (length (st g)) (length (st f))); inversion E; subst; repeat split; auto; try lia; intros i Hi.
    - rewrite (coef_over K (st g)) by lia. auto.
    - rewrite (coef_over K (st f)) by lia. auto. }
  clear E. destruct Hn as (H1 & H2 & H3 & H4 & Hn & Hn1 & H5).
  set (st0 := pset K st s (poly_alloc K (st s) n1)).
  assert (L0 : length (st0 s) = n1) by (unfold st0; rewrite pset_same; apply alloc_length).
  destruct (fill s (fun i => op (coef (st f) i) (coef (st g) i)) (fun i (st : pst) => a <- get (st f) i ;; b <- get (st g) i ;; cell_set K s i (op a b) st) n 0 st0) as (st1 & E1 & O1 & L1 & N1).
  - intros j st' Hj Ho Hl Ht.
    assert (G : forall w, n <= length (st w) -> length (st w) <= n1 -> get (st' w) j = Ok (coef (st w) j)).
    { intros w Hw Hw1. destruct (Nat.eq_dec w s) as [A | A].
      - subst w. apply get_nth. rewrite Ht by lia. unfold st0. rewrite pset_same, alloc_nth_error by lia. apply nth_error_nth'. lia.
      - rewrite Ho by auto. unfold st0. rewrite pset_other by auto. apply get_coef. lia. }
    rewrite (G f), (G g) by lia. reflexivity.
  - lia.
  - rewrite E1. cbn [bind].
    destruct (fill s (fun i => tl isf (coef (st big) i)) (fun i (st : pst) => a <- get (st big) i ;; cell_set K s i (tl isf a) st) (n1 - n)%nat n st1) as (st2 & E2 & O2 & L2 & N2).
    + intros j st' Hj Ho Hl Ht.
      assert (G : get (st' big) j = Ok (coef (st big) j)).
      { destruct (Nat.eq_dec big s) as [A | A].
        - subst s. apply get_nth. rewrite Ht by lia. rewrite N1. destruct (Nat.leb_spec 0 j), (Nat.ltb_spec j (0 + n)%nat); try lia. cbn [andb].
          unfold st0. rewrite pset_same, alloc_nth_error by lia. apply nth_error_nth'. lia.
        - rewrite Ho by auto. rewrite O1 by auto. unfold st0. rewrite pset_other by auto. apply get_coef. lia. }
      rewrite G. reflexivity.
    + rewrite L1. lia.
    + rewrite E2. cbn [bind]. apply strip_assigns.
      * apply (only_trans _ st1); auto. apply (only_trans _ st0); auto. apply pset_only.
      * intro i. rewrite (coef_fill _ _ _ _ _ N2), (coef_fill _ _ _ _ _ N1).
        destruct (Nat.leb_spec n i), (Nat.ltb_spec i (n + (n1 - n))%nat), (Nat.leb_spec 0 i), (Nat.ltb_spec i (0 + n)%nat); cbn [andb]; auto; try lia.
        -- symmetry. apply H5. lia.
        -- rewrite !coef_over by lia. auto.
Qed.
Lemma add_assigns : forall (s f g : nat) (st : pst), assigns (poly_add K s f g st) st s (fun i => coef (st f) i + coef (st g) i).
Proof.
  intros s f g st. unfold poly_add.
  pose proof (addsub_assigns fadd (fun _ c => c) s f g st) as A.
  destruct (length (st g) <? length (st f)) eqn:E; eapply A; try reflexivity; intros; ring.
Qed.
Lemma sub_assigns : forall (s f g : nat) (st : pst), assigns (poly_sub K s f g st) st s (fun i => coef (st f) i - coef (st g) i).
Proof.
  intros s f g st. unfold poly_sub.
  pose proof (addsub_assigns fsub (fun isf c => if isf : bool then c else - c) s f g st) as A.
  destruct (length (st g) <? length (st f)) eqn:E.
  - rewrite Nat.eqb_refl. refine (A _ _ _ _ eq_refl _ _ _); intros; ring.
  - destruct (Nat.eqb_spec g f) as [G | G].
    + subst g. pose proof (A _ _ _ _ eq_refl) as A1. rewrite Nat.sub_diag in A1 |- *. refine (A1 _ _ _); intros; ring.
    + refine (A _ _ _ _ eq_refl _ _ _); intros; ring.
Qed.

(** ** Multiplication *)
Lemma for_up_ext : forall A (b1 b2 : nat -> A -> res A) k i x, (forall j y, i <= j < (i + k)%nat -> b1 j y = b2 j y) -> for_up k i b1 x = for_up k i b2 x.
Proof.
  intros A b1 b2. induction k as [ | k IH]; intros i x H; [reflexivity | ]. cbn [for_up]. rewrite H by lia.
  destruct (b2 i x); cbn [bind]; auto. apply IH. intros. apply H. lia.
Qed.
Lemma for_up_sum : forall (t : nat -> K) k i x, for_up k i (fun j x => Ok (x + t j)) x = Ok (x + sum k (fun j => t (i + j)%nat)).
Proof.
  intros t. induction k as [ | k IH]; intros i x; [cbn [for_up sum]; f_equal; ring | ]. cbn [for_up bind]. rewrite IH. f_equal.
  rewrite (sum_first K HK). rewrite Nat.add_0_r. rewrite (sum_ext K k (fun j => t (S i + j)%nat) (fun j => t (i + S j)%nat)) by (intros; f_equal; lia). ring.
Qed.
Lemma mul_coeff_ok : forall f g i, mul_coeff K f g i = Ok (conv f g i).
Proof.
  intros f g i. unfold mul_coeff. rewrite for_up_ext with (b2 := fun j x => Ok (x + coef f j * coef g (i - j)%nat)).
  - rewrite (for_up_sum (fun j => coef f j * coef g (i - j)%nat)). unfold conv. f_equal. cbn [Nat.add]. generalize (sum (S i) (fun j => coef f j * coef g (i - j)%nat)). intro. ring.
  - intros j x _. destruct (Nat.ltb_spec j (length f)) as [J | J]; cbn [andb].
    + destruct (Nat.ltb_spec (i - j) (length g)) as [I | I].
      * rewrite !get_coef by auto. reflexivity.
      * f_equal. rewrite (coef_over K g) by auto. ring.
    + f_equal. rewrite (coef_over K f) by auto. ring.
Qed.
Lemma fill_list : forall off (v : nat -> K) (body : nat -> poly -> res poly) k i f,
  (forall j f', i <= j < (i + k)%nat -> length f' = length f -> (forall t, (j + off <= t)%nat -> nth_error f' t = nth_error f t) ->
     body j f' = put f' (j + off) (v j)) ->
  (i + k + off <= length f)%nat ->
  exists f', for_up k i body f = Ok f' /\ length f' = length f /\
  (forall t, nth_error f' t = if ((i + off)%nat <=? t) && (t <? (i + off + k)%nat) then Some (v (t - off)%nat) else nth_error f t).
Proof.
  intros off v body. induction k as [ | k IH]; intros i f B L.
  - exists f. split; [reflexivity | ]. split; auto. intro j.
    destruct (Nat.leb_spec (i + off) j), (Nat.ltb_spec j (i + off + 0)%nat); cbn [andb]; auto. lia.
  - cbn [for_up]. rewrite (B i f) by (auto; lia). rewrite put_in by lia. cbn [bind].
    set (f1 := firstn (i + off) f ++ v i :: skipn (S (i + off)) f).
    assert (N1 : forall j, nth_error f1 j = if j =? (i + off)%nat then Some (v i) else nth_error f j) by (intro; apply nth_error_upd; lia).
    assert (L1 : length f1 = length f) by (apply length_upd; lia). clearbody f1.
    destruct (IH (S i) f1) as (f2 & E2 & L2 & N2).
    + intros j f' Hj Hl Ht. apply B; [lia | congruence | ].
      intros t T. rewrite Ht by auto. rewrite N1. destruct (Nat.eqb_spec t (i + off)%nat); [lia | auto].
    + lia.
    + exists f2. split; auto. split; [congruence | ].
      intro j. rewrite N2, N1. destruct (Nat.leb_spec (S i + off) j), (Nat.leb_spec (i + off) j), (Nat.ltb_spec j (S i + off + k)%nat), (Nat.ltb_spec j (i + off + S k)%nat), (Nat.eqb_spec j (i + off)%nat);
        cbn [andb]; subst; auto; try lia. f_equal. f_equal. lia.
Qed.
Lemma mul_value_ok : forall f g, exists p, mul_value K f g = Ok p /\ normal p /\ eqp p (mulp K f g).
Proof.
  intros f g. unfold mul_value. destruct (Nat.eqb_spec (length f) 0) as [F | F]; [ | destruct (Nat.eqb_spec (length g) 0) as [G | G]]; cbn [orb].
  - exists []. apply length_0 in F. subst. split; [reflexivity | ]. split; [apply normal_nil | reflexivity].
  - exists []. apply length_0 in G. subst. split; [reflexivity | ]. split; [apply normal_nil | ]. rewrite (mulp_nil_r K HK). reflexivity.
  - set (n := (length f + length g - 1)%nat).
    destruct (fill_list 0 (conv f g) (fun i p => x <- mul_coeff K f g i ;; put p i x) n 0 (poly_alloc K [] n)) as (p & E & L & N).
    + intros j f' _ _ _. rewrite mul_coeff_ok, Nat.add_0_r. reflexivity.
    + rewrite alloc_length. lia.
    + rewrite E. cbn [bind]. rewrite remove_ok. exists (trim p). split; auto. split; [apply (trim_normal K HK) | ].
      rewrite (trim_eqp K HK). intro i. rewrite (coef_mulp K HK), coef_nth_error, N. rewrite !Nat.add_0_r, Nat.sub_0_r. cbn [Nat.leb andb].
      destruct (Nat.ltb_spec i (0 + n)%nat) as [I | I]; auto.
      rewrite <- coef_nth_error, coef_over by (rewrite alloc_length; lia). symmetry. apply (conv_over K HK). lia.
Qed.

(** ** Division *)
Definition mono (k : nat) (c : K) : poly := repeat 0 k ++ [c].
Lemma coef_mono : forall k c i, coef (mono k c) i = if i =? k then c else 0.
Proof.
  intros k c i. unfold coef, mono. destruct (Nat.eqb_spec i k) as [E | E].
  - subst. rewrite app_nth2; rewrite repeat_length; auto. rewrite Nat.sub_diag. auto.
  - destruct (lt_dec i k) as [L | L].
    + rewrite app_nth1 by (rewrite repeat_length; auto). apply nth_repeat.
    + apply nth_overflow. rewrite app_length, repeat_length. cbn [length]. lia.
Qed.
Lemma coef_mono_mul : forall k c b i, coef (mulp K (mono k c) b) i = if k <=? i then c * coef b (i - k)%nat else 0.
Proof.
  intros k c b i. rewrite (coef_mulp K HK). unfold conv. destruct (Nat.leb_spec k i) as [L | L].
  - rewrite (sum_single K HK _ k); [rewrite coef_mono, Nat.eqb_refl; auto | lia | ]. intros j Hj Nj. rewrite coef_mono.
    destruct (Nat.eqb_spec j k); [contradiction | ring].
  - apply (sum_0 K HK). intros j Hj. rewrite coef_mono. destruct (Nat.eqb_spec j k); [lia | ring].
Qed.
Lemma div_loop_ok : forall a b binv n, length b = S n -> coef b n <> 0 -> binv = finv (coef b n) ->
  forall i q r, (n + i <= length r)%nat -> i <= length q -> eqp a (addp K (mulp K q b) r) ->
  (forall j, (n + i <= j)%nat -> coef r j = 0) -> (forall j, j < i -> coef q j = 0) ->
  exists q' r', div_loop K b binv n i q r = Ok (q', r') /\ length q' = length q /\ eqp a (addp K (mulp K q' b) r') /\ (forall j, n <= j -> coef r' j = 0).
Proof.
  intros a b binv n Lb Nb Eb. induction i as [ | k IH]; intros q r Lr Lq E R Q.
  - exists q, r. split; [reflexivity | ]. split; auto. split; auto. intros j J. apply R. lia.
  - cbn [div_loop]. rewrite get_coef by lia. cbn [bind]. set (qe := binv * coef r (n + k)). rewrite put_in by lia. cbn [bind].
    set (q1 := firstn k q ++ qe :: skipn (S k) q).
    assert (Q1 : forall j, coef q1 j = if j =? k then qe else coef q j) by (apply coef_cell; intro; apply nth_error_upd; lia).
    assert (L1 : length q1 = length q) by (apply length_upd; lia). clearbody q1.
    destruct (fill_list k (fun i => coef r (i + k) - qe * coef b i) (fun i r => x <- get b i ;; y <- get r (i + k)%nat ;; put r (i + k) (y - qe * x)) (S n) 0 r) as (r1 & E1 & Lr1 & N1).
    + intros j f' Hj Hl Ht. rewrite (get_coef b) by lia. rewrite (get_nth _ f' _ (coef r (j + k))); [reflexivity | ].
      rewrite Ht by lia. apply nth_error_nth'. lia.
    + lia.
    + rewrite E1. cbn [bind].
      assert (R1 : eqp r1 (subp K r (mulp K (mono k qe) b))).
      { intro j. rewrite coef_nth_error, N1, (coef_subp K HK), coef_mono_mul. cbn [Nat.add].
        destruct (Nat.leb_spec k j) as [J | J], (Nat.ltb_spec j (k + S n)%nat) as [J2 | J2]; cbn [andb]; rewrite <- ?coef_nth_error; try ring.
        - replace (j - k + k)%nat with j by lia. auto.
        - rewrite (coef_over K b) by lia. ring. }
      assert (Q2 : eqp q1 (addp K q (mono k qe))).
      { intro j. rewrite Q1, (coef_addp K HK), coef_mono. destruct (Nat.eqb_spec j k); [subst; rewrite Q by lia; ring | ring]. }
      destruct (IH q1 r1) as (q' & r' & E' & L' & A' & R').
      * lia.
      * lia.
      * rewrite E, R1, Q2. ring.
      * intros j J. transitivity (coef (subp K r (mulp K (mono k qe) b)) j); [apply R1 | ]. rewrite (coef_subp K HK), coef_mono_mul. destruct (Nat.leb_spec k j) as [J1 | J1].
        -- destruct (Nat.eq_dec j (n + k)) as [J2 | J2].
           ++ subst j. replace (n + k - k)%nat with n by lia. unfold qe. rewrite Eb. field. auto.
           ++ rewrite R by lia. rewrite (coef_over K b) by lia. ring.
        -- lia.
      * intros j J. rewrite Q1. destruct (Nat.eqb_spec j k); [lia | ]. apply Q. lia.
      * exists q', r'. split; auto. split; [congruence | auto].
Qed.
Definition is_div (a b q r : poly) : Prop := normal q /\ normal r /\ eqp a (addp K (mulp K q b) r) /\ length r < length b.
Lemma div_value_ok : forall a b, normal a -> normal b -> b <> [] ->
  match div_value K a b with
  | Ok None => length a < length b
  | Ok (Some (q, r)) => is_div a b q r
  | _ => False
  end.
Proof.
  intros a b Na Nb Zb. pose proof (length_pos K b Zb) as Pb. unfold div_value, poly_is0. destruct (Nat.eqb_spec (length b) 0) as [ | _]; [lia | ].
  destruct (Nat.ltb_spec (length a) (length b)) as [L | L]; auto.
  rewrite get_coef by lia. cbn [bind]. pose proof (normal_lead K b Nb Zb) as Lb. rewrite (finvert_ok K HK) by auto. cbn [bind].
  destruct (div_loop_ok a b _ (length b - 1) ltac:(lia) Lb eq_refl (S (length a - length b)) (poly_alloc K [] (S (length a - length b))) a) as (q & r & E & Lq & A & R).
  - lia.
  - rewrite alloc_length. lia.
  - assert (Z : eqp (poly_alloc K [] (S (length a - length b))) []) by (intro i; rewrite coef_alloc, coef_nil; destruct (_ <? _); auto).
    rewrite Z. ring.
  - intros j J. apply coef_over. lia.
  - intros j J. rewrite coef_alloc, coef_nil. destruct (_ <? _); auto.
  - rewrite E. cbn [bind]. rewrite remove_ok. cbn [bind]. rewrite alloc_length in Lq. split; [ | split; [ | split]].
    + apply lead_normal. intros _ Q. rewrite Lq in Q. replace (S (length a - length b) - 1)%nat with (length a - length b)%nat in Q by lia.
      assert (Za : a <> []) by (intro; subst; cbn [length] in L; lia).
      apply (normal_lead K a Na Za). rewrite A, (coef_addp K HK), (coef_mulp K HK), R by lia.
      replace (length a - 1)%nat with ((length a - length b) + (length b - 1))%nat by lia.
      rewrite (conv_lead K HK) by (intros; apply coef_over; lia). rewrite Q. ring.
    + apply (trim_normal K HK).
    + rewrite (trim_eqp K HK). auto.
    + assert (length (trim r) <= length b - 1) by (apply normal_length; [apply (trim_normal K HK) | intros; rewrite (coef_trim K HK); auto]). lia.
Qed.
Lemma divmod_ok : forall a b, normal a -> normal b -> b <> [] -> exists q r, divmod K a b = Ok (q, r) /\ is_div a b q r.
Proof.
  intros a b Na Nb Zb. pose proof (div_value_ok a b Na Nb Zb) as H. unfold divmod. destruct (div_value K a b) as [[[q r] | ] | | | ]; try contradiction; cbn [bind].
  - exists q, r. auto.
  - exists [], a. split; auto. split; [apply normal_nil | split; [auto | split; [ring | auto]]].
Qed.
Lemma divmod_length : forall a b q r, normal a -> normal b -> b <> [] -> is_div a b q r -> length b <= length a ->
  (length q + length b = length a + 1)%nat.
Proof.
  intros a b q r Na Nb Zb (Nq & Nr & E & L) H. pose proof (length_pos K b Zb).
  assert (Zq : q <> []).
  { intro. subst q. assert (E2 : eqp a r) by (rewrite E; ring). rewrite (normal_unique K a r Na Nr E2) in H. lia. }
  pose proof (length_pos K q Zq).
  assert (C : coef a (length q - 1 + (length b - 1)) <> 0).
  { rewrite E, (coef_addp K HK), (coef_mulp K HK), (conv_lead K HK) by (intros; apply coef_over; lia). rewrite (coef_over K r) by lia.
    intro C. apply (f_mul_nz K HK _ _ (normal_lead K q Nq Zq) (normal_lead K b Nb Zb)). rewrite <- C. ring. }
  assert (U : length a <= length q + length b - 1).
  { apply normal_length; auto. intros i Hi. rewrite E, (coef_addp K HK), (coef_mulp K HK), (conv_over K HK) by lia. rewrite (coef_over K r) by lia. ring. }
  destruct (le_lt_dec (length a) (length q - 1 + (length b - 1))) as [B | B]; [rewrite coef_over in C by auto; contradiction | lia].
Qed.

(** ** gcd *)
Lemma is0_spec : forall f, poly_is0 K f = true <-> f = [].
Proof. intro f. unfold poly_is0. rewrite Nat.eqb_eq. split; [apply length_0 | intro; subst; auto]. Qed.
Lemma gcd_loop_ok : forall n a b, normal a -> normal b -> b <> [] -> length b <= n ->
  exists d, (forall fuel, n <= fuel -> gcd_loop K fuel a b = Ok d) /\ normal d /\ d <> [] /\
  (exists u, eqp a (mulp K d u)) /\ (exists u, eqp b (mulp K d u)) /\ exists u w, eqp d (addp K (mulp K u a) (mulp K w b)).
Proof.
  induction n as [ | n IH]; intros a b Na Nb Zb L; [pose proof (length_pos K b Zb); lia | ].
  destruct (divmod_ok a b Na Nb Zb) as (q & r & E & Nq & Nr & A & Lr). destruct (poly_is0 K r) eqn:Z.
  - apply is0_spec in Z. subst r. exists b. split; [ | split; [auto | split; [auto | split; [ | split]]]].
    + intros [ | fuel] F; [lia | ]. cbn [gcd_loop]. rewrite E. reflexivity.
    + exists q. rewrite A. ring.
    + exists [1]. ring.
    + exists [], [1]. ring.
  - assert (Zr : r <> []) by (intro; subst; discriminate).
    destruct (IH b r Nb Nr Zr ltac:(lia)) as (d & F & Nd & Zd & (u1 & D1) & (u2 & D2) & (u & w & D3)).
    exists d. split; [ | split; [auto | split; [auto | split; [ | split]]]].
    + intros [ | fuel] Hf; [lia | ]. cbn [gcd_loop]. rewrite E. cbn [bind]. rewrite Z. apply F. lia.
    + exists (addp K (mulp K q u1) u2). rewrite A, D1, D2 at 1. ring.
    + exists u1. auto.
    + exists w, (subp K u (mulp K w q)). rewrite D3. rewrite A. ring.
Qed.

(** ** Inversion modulo m *)
Lemma sub_value_ok : forall f g, exists p, sub_value K f g = Ok p /\ normal p /\ eqp p (subp K f g).
Proof.
  intros f g. unfold sub_value. destruct (sub_assigns 1 0 1 (private K f g)) as (st' & E & N & C & _). rewrite E. exists (st' 1%nat). split; auto. split; auto.
  intro i. rewrite C, (coef_subp K HK). auto.
Qed.
Local Instance cong_equiv' m : Equivalence (cong m) := cong_equiv K HK m.
Local Instance eqp_cong' m : subrelation (@eqp K) (cong m) := eqp_cong K HK m.
Local Instance addp_cong' m : Proper (cong m ==> cong m ==> cong m) (addp K) := addp_cong K HK m.
Local Instance mulp_cong' m : Proper (cong m ==> cong m ==> cong m) (mulp K) := mulp_cong K HK m.
Local Instance subp_cong' m : Proper (cong m ==> cong m ==> cong m) (subp K) := subp_cong K HK m.
Lemma invert_loop_ok : forall m f n b0 b1 r0 r1, normal m -> normal b0 -> normal b1 -> normal r0 -> normal r1 -> r1 <> [] -> b1 <> [] ->
  length r1 <= n -> length r1 < length r0 -> length b0 < length b1 -> (length b1 + length r0 = length m + 1)%nat ->
  cong m (mulp K b0 f) r0 -> cong m (mulp K b1 f) r1 ->
  exists b d, (forall fuel, n <= fuel -> invert_loop K fuel b0 b1 r0 r1 = Ok (b, d)) /\ normal b /\ normal d /\ d <> [] /\
  length b < length m /\ cong m (mulp K b f) d /\ (exists u, eqp r0 (mulp K d u)) /\ (exists u, eqp r1 (mulp K d u)).
Proof.
  intros m f. induction n as [ | n IH]; intros b0 b1 r0 r1 Nm Nb0 Nb1 Nr0 Nr1 Z1 Zb L L1 L2 L3 C0 C1; [pose proof (length_pos K r1 Z1); lia | ].
  destruct (divmod_ok r0 r1 Nr0 Nr1 Z1) as (q & r2 & E & D). pose proof D as (Nq & Nr2 & A & Lr).
  pose proof (divmod_length r0 r1 q r2 Nr0 Nr1 Z1 D ltac:(lia)) as Lq. pose proof (length_pos K r1 Z1) as P1.
  destruct (poly_is0 K r2) eqn:Z.
  - apply is0_spec in Z. subst r2. exists b1, r1. refine (conj _ (conj Nb1 (conj Nr1 (conj Z1 (conj _ (conj C1 (conj _ _))))))).
    + intros [ | fuel] F; [lia | ]. cbn [invert_loop]. rewrite E. reflexivity.
    + lia.
    + exists q; rewrite A; ring.
    + exists [1]; ring.
  - assert (Z2 : r2 <> []) by (intro; subst; discriminate).
    destruct (mul_value_ok b1 q) as (p & Ep & Np & Qp). destruct (sub_value_ok b0 p) as (b2 & E2 & N2 & Q2).
    assert (Zq : q <> []) by (intro; subst; cbn [length] in Lq; lia).
    pose proof (mul_length K HK b1 q p Nb1 Nq Np Zb Zq Qp) as Lp. pose proof (length_pos K q Zq). pose proof (length_pos K b1 Zb).
    assert (L4 : length b2 = length p).
    { apply Nat.le_antisymm.
      - apply normal_length; auto. intros i Hi. rewrite Q2, (coef_subp K HK), !coef_over by lia. ring.
      - destruct (le_lt_dec (length p) (length b2)) as [B | B]; auto. exfalso.
        assert (Zp : p <> []) by (intro; subst; cbn [length] in *; lia). apply (normal_lead K p Np Zp).
        assert (X : coef b2 (length p - 1) = coef b0 (length p - 1) - coef p (length p - 1)) by (rewrite Q2; apply (coef_subp K HK)).
        rewrite (coef_over K b2), (coef_over K b0) in X by lia.
        transitivity (0 - (0 - coef p (length p - 1))); [ring | rewrite <- X; ring]. }
    assert (C2 : cong m (mulp K b2 f) r2).
    { assert (X : eqp (mulp K b2 f) (subp K (mulp K b0 f) (mulp K q (mulp K b1 f)))) by (rewrite Q2, Qp; ring).
      assert (Y : eqp r2 (subp K r0 (mulp K q r1))) by (rewrite A at 1; ring).
      apply (cong_proper K HK m m (reflexivity m) _ _ X _ _ Y). rewrite C0, C1. reflexivity. }
    destruct (IH b1 b2 r1 r2 Nm Nb1 N2 Nr1 Nr2 Z2) as (b & d & F & Nb & Nd & Zd & Lb & Cb & (u1 & D1) & (u2 & D2)); auto; try lia.
    + intro; subst b2; cbn [length] in L4; lia.
    + exists b, d. refine (conj _ (conj Nb (conj Nd (conj Zd (conj Lb (conj Cb (conj _ _))))))).
      * intros [ | fuel] Hf; [lia | ]. cbn [invert_loop]. rewrite E. cbn [bind]. rewrite Z, Ep. cbn [bind]. rewrite E2. cbn [bind]. apply F. lia.
      * exists (addp K (mulp K q u1) u2). rewrite A, D1, D2 at 1. ring.
      * exists u1. auto.
Qed.
Lemma constant_normal : forall f, normal f -> constant f -> length f <= 1%nat.
Proof. intros f N C. apply normal_length; auto. Qed.
(** f and m have a constant greatest common divisor exactly when every common
    divisor is constant; then the inverse is found. *)
Theorem poly_invert_ok : forall f m, normal f -> normal m -> f <> [] -> length f < length m ->
  (forall d, divides d f -> divides d m -> constant d) ->
  exists g, (forall fuel, length m <= fuel -> poly_invert K fuel f m = Ok g) /\ normal g /\ length g < length m /\ cong m (mulp K g f) [1].
Proof.
  intros f m Nf Nm Zf L G. pose proof (length_pos K f Zf).
  assert (N1 : normal [1 : K]) by (intros _; apply (f_1_neq_0 K HK)).
  destruct (invert_loop_ok m f (length f) [] [1] m f Nm (normal_nil K) N1 Nm Nf Zf) as (b & d & F & Nb & Nd & Zd & Lb & Cb & D1 & D2); try (cbn [length]; lia); try discriminate.
  - apply (cong_mulp K HK). exists (oppp K [1]). ring.
  - apply (eqp_cong K HK). ring.
  - assert (Cd : constant d) by (apply G; apply (divides_mulp K HK); auto).
    pose proof (constant_normal d Nd Cd) as Ld. destruct d as [ | c [ | ]]; try contradiction; [ | cbn [length] in Ld; lia].
    assert (Zc : c <> 0) by (apply Nd; discriminate).
    destruct (const_mul_assigns 0 (finv c) 1 (private K [] b)) as (st' & E & N & C & _). exists (st' O). split; [ | split; [auto | split]].
    + intros fuel Hf. unfold poly_invert. rewrite F by lia. cbn [bind]. change (get [c] 0) with (Ok c). cbn [bind]. rewrite (finvert_ok K HK) by auto. cbn [bind]. rewrite E. reflexivity.
    + apply Nat.le_lt_trans with (length b); auto. apply normal_length; auto. intros i Hi. rewrite C. cbn [private Nat.eqb]. rewrite coef_over by auto. ring.
    + assert (X : eqp (st' O) (mulp K [finv c] b)) by (rewrite <- (scalp_mulp K HK); intro i; rewrite C, (coef_scalp K HK); auto).
      assert (Y : eqp (mulp K (st' O) f) (mulp K [finv c] (mulp K b f))) by (rewrite X; ring).
      assert (W : eqp [1] (mulp K [finv c] [c])).
      { rewrite <- (scalp_mulp K HK). intro i. rewrite (coef_scalp K HK), !coef_cons. destruct i; [field; auto | rewrite coef_nil; ring]. }
      apply (cong_proper K HK m m (reflexivity m) _ _ Y _ _ W). rewrite Cb. reflexivity.
Qed.
End P.
