(** Batch doubling on lists of points, and the coefficient tables. *)
From Coq Require Import ZArith List Bool Lia.
From Verif.Base Require Import Outcome Array Algebra Slots.
From Verif.Spec Require Import Curve CurveCalls.
From Verif.Model Require Import Curve Pairing PairingA.
From Verif.Proofs Require Import FieldFacts CurveFacts CurveBatch ArrayFacts.
Import ListNotations.

Section S.
Variable K : fld.
Hypothesis HK : fld_laws K.
Hypothesis C2 : f2 K <> f0.
Local Notation dbl V := (padd K f1 V V).
Local Notation pairs s n := (map (fun i => (i, i)) (seq s n)).
Lemma ind_pairs : forall n s, independent (map double_inputs (pairs s n)).
Proof.
  induction n; intros s; cbn [seq map independent double_inputs fst snd]; auto. split; [ | apply IHn].
  intros d ps H I. apply in_map_iff in H. destruct H as ((c & p) & E & H). apply in_map_iff in H. destruct H as (i & E2 & H). injection E2 as -> ->.
  unfold double_inputs in E. cbn in E. injection E as <- <-. apply in_seq in H. destruct I as [I | []]. lia.
Qed.
Lemma seq_pairs : forall n s v k, seq_double K f1 v (pairs s n) k = if (s <=? k) && (k <? s + n) then dbl (v k) else v k.
Proof.
  induction n; intros s v k; cbn [seq map seq_double].
  - destruct (Nat.leb_spec s k), (Nat.ltb_spec k (s + 0)); cbn [andb]; auto; lia.
  - rewrite IHn. unfold setp. destruct (Nat.eqb_spec k s) as [-> | N].
    + destruct (Nat.leb_spec (S s) s), (Nat.leb_spec s s), (Nat.ltb_spec s (s + S n)), (Nat.ltb_spec s (S s + n)); cbn [andb]; auto; lia.
    + destruct (Nat.leb_spec (S s) k), (Nat.leb_spec s k), (Nat.ltb_spec k (s + S n)), (Nat.ltb_spec k (S s + n)); cbn [andb]; auto; lia.
Qed.
Lemma map_seq_nth : forall {A B} (f : A -> B) (d : A) l, map (fun i => f (nth i l d)) (seq 0 (length l)) = map f l.
Proof.
  intros A B f d l. induction l; cbn [length seq map]; auto. apply f_equal2; [reflexivity | ]. rewrite <- seq_shift, map_map. cbn [nth]. apply IHl.
Qed.
Lemma rep_load : forall Vs, rep K (load_all K Vs) (fun i => nth i Vs None).
Proof.
  intros Vs n. unfold cval, load_all. cbn. destruct (nth n Vs None) as [[u w] | ]; reflexivity.
Qed.
Lemma multi_double_values_ok : forall Vs, Vs <> [] -> (forall V, In V Vs -> exists x y, V = Some (x, y) /\ y <> f0) ->
  multi_double_values K Vs = Ok (map (fun V => dbl V) Vs).
Proof.
  intros Vs N H. unfold multi_double_values.
  match goal with |- context [multi_double K f1 ?l _] => replace l with (map reg2 (pairs 0 (length Vs))) by (rewrite map_map; reflexivity) end.
  destruct (multi_double_ok K HK f1 C2 (pairs 0 (length Vs)) (load_all K Vs) (fun i => nth i Vs None)) as (st & -> & R).
  - destruct Vs; [congruence | discriminate].
  - apply rep_load.
  - apply ind_pairs.
  - rewrite map_map. cbn [fst]. rewrite map_id. apply seq_NoDup.
  - intros c p I. apply in_map_iff in I. destruct I as (i & E & I). injection E as <- <-. apply in_seq in I.
    destruct (H (nth i Vs None)) as (u & w & E & NW); [apply nth_In; lia | ]. unfold load_all. cbn. unfold point in *. rewrite E. auto.
  - intros c p I. apply in_map_iff in I. destruct I as (i & E & I). injection E as <- <-. auto.
  - cbn [bind]. f_equal. rewrite <- (map_seq_nth (fun V => dbl V) None Vs). apply map_ext_in. intros i I. apply in_seq in I. rewrite <- R, seq_pairs.
    unfold point in *. destruct (Nat.leb_spec 0 i), (Nat.ltb_spec i (0 + length Vs)); cbn [andb]; auto; lia.
Qed.

Lemma put_ok : forall {A} (l : list A) i x, i < length l -> exists l', put l i x = Ok l' /\ length l' = length l /\
  nth_error l' i = Some x /\ forall k, k <> i -> nth_error l' k = nth_error l k.
Proof.
  intros A l i x H. unfold put. destruct (Nat.ltb_spec i (length l)); [ | lia]. eexists. split; [reflexivity | ].
  assert (LF : length (firstn i l) = i) by (rewrite firstn_length; lia).
  split; [rewrite app_length, LF; cbn [length]; rewrite skipn_length; lia | ]. split.
  - rewrite nth_error_app2 by lia. rewrite LF, Nat.sub_diag. reflexivity.
  - intros k N. destruct (Nat.lt_ge_cases k i).
    + rewrite nth_error_app1 by lia. rewrite <- (firstn_skipn i l) at 2. rewrite nth_error_app1 by lia. reflexivity.
    + rewrite nth_error_app2 by lia. rewrite LF. replace (k - i) with (S (k - S i)) by lia. cbn [nth_error].
      rewrite <- (firstn_skipn (S i) l) at 2. rewrite nth_error_app2 by (rewrite firstn_length; lia). f_equal. rewrite firstn_length. lia.
Qed.
(** preprocessing visits the same points, and the table holds their tangents *)
Lemma pp_loop_agree : forall n i coeff V Qx0 Qy0 f0' f' V', affine_loop K n Qx0 Qy0 f0' V = Ok (f', V') -> i + n <= length coeff ->
  exists coeff', pp_loop K n i coeff V = Ok (coeff', V') /\ length coeff' = length coeff /\
    (forall k, k < i \/ i + n <= k -> nth_error coeff' k = nth_error coeff k) /\
    (forall t, (forall k, i <= k < i + n -> nth_error t k = nth_error coeff' k) ->
      forall Qx Qy f, affine_loop K n Qx Qy f V = (g <- pp_eval K n i t Qx Qy f ;; Ok (g, V'))).
Proof.
  induction n; intros i coeff V Qx0 Qy0 g0 f' V' E L; cbn [affine_loop pp_loop] in *.
  - injection E as _ <-. exists coeff. split; [auto | split; [auto | split; auto]].
  - destruct (coords K V) as [[vx vy] | | | ] eqn:EC; cbn [bind] in *; try discriminate.
    destruct (put_ok coeff i (Some (compute_abc_tangent K vx vy)) ltac:(lia)) as (c1 & -> & L1 & H1 & H2). cbn [bind].
    destruct (double_value K f1 V) as [V2 | | | ] eqn:ED; cbn [bind] in *; try discriminate.
    destruct (IHn (S i) c1 V2 _ _ _ _ _ E ltac:(lia)) as (c2 & -> & L2 & H3 & H4).
    exists c2. split; [auto | ]. split; [lia | ]. split.
    + intros k Hk. rewrite H3 by lia. apply H2. lia.
    + intros t Ht Qx Qy f. cbn [pp_eval]. unfold get_coeff, get. rewrite Ht by lia. rewrite H3 by lia. rewrite H1. cbn [bind].
      apply H4. intros k Hk. apply Ht. lia.
Qed.
End S.
