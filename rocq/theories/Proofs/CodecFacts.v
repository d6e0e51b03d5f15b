(** Encodings of points, hashing, random points, derived curves. *)
From Coq Require Import ZArith List Bool Lia Ring Field.
From Verif.Base Require Import Outcome Array Algebra Slots.
From Verif.Spec Require Import FiniteField Curve CurveCalls HashToCurve.
From Verif.Model Require Import GenericPow Curve CurveCodec.
From Verif.Proofs Require Import FieldFacts SlotFacts PowFacts PowHom CurveGroup CurveFacts.
Import ListNotations.
Open Scope Z_scope.

Lemma slice_app1 : forall (l m : list Z) n, length l = n -> slice (l ++ m) 0 n = Ok l.
Proof.
  intros l m n <-. unfold slice. rewrite app_length. cbn [Nat.add]. rewrite (proj2 (Nat.leb_le _ _)) by lia.
  cbn [skipn]. rewrite firstn_app, firstn_all, Nat.sub_diag, app_nil_r. reflexivity.
Qed.
Lemma slice_app2 : forall (l m : list Z) n k, length l = n -> length m = k -> slice (l ++ m) n k = Ok m.
Proof.
  intros l m n k <- <-. unfold slice. rewrite app_length, Nat.leb_refl.
  rewrite skipn_app, skipn_all, Nat.sub_diag. cbn [app skipn]. rewrite firstn_all. reflexivity.
Qed.
Lemma get_app : forall (l : list Z) n x, length l = n -> get (l ++ [x]) n = Ok x.
Proof. intros l n x <-. unfold get. rewrite nth_error_app2, Nat.sub_diag by lia. reflexivity. Qed.

Section C.
Variable K : fld.
Hypothesis HK : fld_laws K.
Add Field KFcc : (fl_field K HK).
Notation "x + y" := (fadd x y). Notation "x - y" := (fsub x y). Notation "x * y" := (fmul x y). Notation "- x" := (fopp x).
Notation "x / y" := (fdiv x y).
Variables a b : K.
Notation on := (on_curve K a b).
Lemma cubic_rhs : forall X, cubic K a b X = rhs K a b X.
Proof. intro X. unfold cubic, rhs. ring. Qed.

Variables (blen : nat) (enc : K -> list Z) (dec : list Z -> K) (sign : K -> Z)
          (is_sqr : K -> bool) (sqrt : K -> res K) (hash : list Z -> K).
Hypothesis Elen : forall x, length (enc x) = blen.
Hypothesis Edec : forall x, dec (enc x) = x.
Hypothesis S_opp : forall x, sign (- x) = (- sign x)%Z.
Hypothesis S_0 : forall x, sign x = 0 -> x = f0.
Hypothesis Q_is : forall x, is_sqr x = true <-> is_square x.
Hypothesis Q_sqrt : forall x, is_square x -> exists r, sqrt x = Ok r /\ r * r = x.

Lemma sign_0 : sign f0 = 0.
Proof. pose proof (S_opp f0) as E. replace (- f0 : K) with (f0 : K) in E by ring. lia. Qed.
Lemma upd_same : forall (s : store K) l v, upd s l v l = v.
Proof. intros s [o i] v. unfold upd, loc_eqb. cbn [fst snd]. rewrite obj_eqb_refl, Nat.eqb_refl. reflexivity. Qed.
Lemma upd_xy : forall (s : store K) o v, upd s (o, 1%nat) v (o, 0%nat) = s (o, 0%nat).
Proof. intros s o v. unfold upd, loc_eqb. cbn. rewrite andb_false_r. reflexivity. Qed.
Lemma to_bytes_len : forall (st : cst K) o, length (curve_to_bytes K enc st o) = curve_length blen.
Proof. intros. unfold curve_to_bytes, curve_length. rewrite app_length, !Elen. lia. Qed.
Lemma to_compressed_len : forall (st : cst K) o, length (to_bytes_compressed K enc sign st o) = compressed_length blen.
Proof. intros. unfold to_bytes_compressed, compressed_length. rewrite app_length, Elen. reflexivity. Qed.
Lemma to_x_len : forall (st : cst K) o, length (to_bytes_x_only K enc st o) = x_only_length blen.
Proof. intros. apply Elen. Qed.

Definition others (st st' : cst K) (c : obj) : Prop := forall o, o <> c -> cval st' o = cval st o.
Lemma others_inf : forall (st : cst K) c f, others st (set_inf c f st) c.
Proof. intros st c f o N. unfold cval. cbn. rewrite obj_eqb_neq by auto. auto. Qed.
Lemma others_put : forall (st : cst K) c i v, others st (put_coord K (c, i) v st) c.
Proof.
  intros st c i v o N. unfold cval. cbn. unfold upd, loc_eqb. cbn [fst snd]. rewrite obj_eqb_neq by auto. auto.
Qed.
Lemma others_trans : forall (s1 s2 s3 : cst K) c, others s1 s2 c -> others s2 s3 c -> others s1 s3 c.
Proof. intros s1 s2 s3 c A B o N. rewrite B, A; auto. Qed.

(** decoding anything gives a point of the curve; decoding what was encoded
    gives the point *)
Lemma from_bytes_any : forall o data st, (2 * blen <= length data)%nat ->
  exists st', curve_from_bytes K a b blen dec o data st = Ok st' /\ on (cval st' o) /\ others st st' o /\
    (forall u v, data = enc u ++ enc v -> on (Some (u, v)) -> cval st' o = Some (u, v)) /\
    (forall u v, data = enc u ++ enc v -> ~ on (Some (u, v)) -> cval st' o = None).
Proof.
  intros o data st L. unfold curve_from_bytes. unfold slice.
  rewrite (proj2 (Nat.leb_le (0 + blen) (length data))) by lia. cbn [bind].
  rewrite (proj2 (Nat.leb_le (blen + blen) (length data))) by lia. cbn [bind]. cbn [skipn]. cbv zeta.
  set (d0 := firstn blen data). set (d1 := firstn blen (skipn blen data)).
  set (st1 := put_coord K _ _ _).
  assert (F1 : others st st1 o).
  { unfold st1. eapply others_trans; [ | apply others_put]. eapply others_trans; [ | apply others_put]. apply others_inf. }
  assert (V1 : cval st1 o = Some (dec d0, dec d1)).
  { unfold st1, cval. cbn. rewrite obj_eqb_refl, upd_xy, !upd_same. reflexivity. }
  assert (D : forall u v, data = enc u ++ enc v -> dec d0 = u /\ dec d1 = v).
  { intros u v ->. pose proof (slice_app1 (enc u) (enc v) blen (Elen u)) as S1.
    pose proof (slice_app2 (enc u) (enc v) blen blen (Elen u) (Elen v)) as S2. unfold slice in S1, S2.
    destruct (0 + blen <=? length (enc u ++ enc v))%nat; [ | discriminate].
    destruct (blen + blen <=? length (enc u ++ enc v))%nat; [ | discriminate].
    cbn [skipn] in S1. inversion S1 as [E1]. inversion S2 as [E2]. unfold d0, d1. rewrite E1, E2, !Edec. auto. }
  destruct (curve_is_valid_point K a b st1 o) eqn:V.
  - apply (is_valid_ok K HK a b) in V. exists st1. split; [auto | split; [auto | split; [auto | split]]].
    + intros u v E _. destruct (D u v E) as [<- <-]. auto.
    + intros u v E N. destruct (D u v E) as [<- <-]. rewrite V1 in V. contradiction.
  - assert (NV : ~ on (cval st1 o)) by (intro X; apply (is_valid_ok K HK a b) in X; congruence).
    exists (set_inf o true st1). assert (VN : cval (set_inf o true st1) o = None) by (unfold cval; cbn; rewrite obj_eqb_refl; auto).
    split; [auto | split; [rewrite VN; exact I | split; [ | split]]].
    + eapply others_trans; [exact F1 | apply others_inf].
    + intros u v E H. destruct (D u v E) as [<- <-]. rewrite V1 in NV. contradiction.
    + auto.
Qed.
Theorem bytes_round_trip : forall o o' st st1 u v, cval st o = Some (u, v) -> on (Some (u, v)) ->
  exists st', curve_from_bytes K a b blen dec o' (curve_to_bytes K enc st o) st1 = Ok st' /\ cval st' o' = Some (u, v) /\ others st1 st' o'.
Proof.
  intros o o' st st1 u v V H.
  assert (E : curve_to_bytes K enc st o = enc u ++ enc v).
  { unfold cval in V. unfold curve_to_bytes. destruct (inf st o); inversion V. auto. }
  destruct (from_bytes_any o' (curve_to_bytes K enc st o) st1) as (st' & R & _ & F & G & _).
  - rewrite E, app_length, !Elen. lia.
  - exists st'. split; [auto | split; auto].
Qed.
(** O is written as its stale coordinates *)
Theorem bytes_infinity : forall o o' st st1, cval st o = None ->
  exists st', curve_from_bytes K a b blen dec o' (curve_to_bytes K enc st o) st1 = Ok st' /\
    (cval st' o' = None <-> ~ on (Some (sl st (o, 0%nat), sl st (o, 1%nat)))).
Proof.
  intros o o' st st1 V.
  destruct (from_bytes_any o' (curve_to_bytes K enc st o) st1) as (st' & R & _ & F & G & G').
  - unfold curve_to_bytes. rewrite app_length, !Elen. lia.
  - exists st'. split; [auto | ]. split.
    + intros E H. rewrite (G _ _ eq_refl H) in E. discriminate.
    + intro N. apply (G' _ _ eq_refl N).
Qed.

Lemma root_pm : forall X Y r, Y * Y = rhs K a b X -> r * r = rhs K a b X -> r = Y \/ r = - Y.
Proof. intros X Y r H1 H2. apply (f_sq_eq K HK). congruence. Qed.
Lemma from_x : forall o st Y, Y * Y = rhs K a b (sl st (o, 0%nat)) ->
  exists st', point_from_x K a b sqrt o st = Ok st' /\ others st st' o /\
    exists r, cval st' o = Some (sl st (o, 0%nat), r) /\ (r = Y \/ r = - Y) /\ sl st' (o, 0%nat) = sl st (o, 0%nat) /\ sl st' (o, 1%nat) = r.
Proof.
  intros o st Y H. unfold point_from_x. cbv zeta. cbn [sl set_inf].
  rewrite cubic_rhs. destruct (Q_sqrt (rhs K a b (sl st (o, 0%nat)))) as (r & -> & E); [exists Y; auto | ].
  cbn [bind]. eexists. split; [reflexivity | split].
  - eapply others_trans; [apply others_inf | apply others_put].
  - exists r. unfold cval. cbn. rewrite obj_eqb_refl, upd_xy, upd_same. split; [auto | split; auto]. apply (root_pm (sl st (o, 0%nat))); auto.
Qed.
Theorem compressed_round_trip : forall o o' st st1 u v, cval st o = Some (u, v) -> on (Some (u, v)) ->
  exists st', from_bytes_compressed K a b blen dec sign sqrt o' (to_bytes_compressed K enc sign st o) st1 = Ok st' /\
    cval st' o' = Some (u, v) /\ others st1 st' o'.
Proof.
  intros o o' st st1 u v V H.
  assert (E : to_bytes_compressed K enc sign st o = enc u ++ [if 0 <? sign v then 1 else 0]).
  { unfold cval in V. unfold to_bytes_compressed. destruct (inf st o); inversion V. auto. }
  rewrite E. unfold from_bytes_compressed. rewrite slice_app1 by auto. cbn [bind]. rewrite Edec. cbv zeta.
  set (st2 := put_coord K (o', 0%nat) u st1).
  assert (X2 : sl st2 (o', 0%nat) = u) by apply upd_same.
  destruct (from_x o' st2 v) as (st3 & R & F & r & V3 & PM & SX & SY); [rewrite X2; exact H | ].
  rewrite R. cbn [bind]. rewrite get_app by auto. cbn [bind]. rewrite SY. rewrite X2 in *.
  assert (F3 : others st1 st3 o') by (eapply others_trans; [apply others_put | exact F]).
  assert (NEG : forall w, cval (put_coord K (o', 1%nat) w st3) o' = Some (u, w)).
  { intro w. unfold cval in *. cbn. destruct (inf st3 o'); [discriminate | ]. rewrite upd_xy, upd_same. congruence. }
  assert (FN : forall w, others st1 (put_coord K (o', 1%nat) w st3) o') by (intro w; eapply others_trans; [exact F3 | apply others_put]).
  assert (DN : - (- v) = v) by ring.
  pose proof (S_opp v) as SO.
  destruct (Z.ltb_spec 0 (sign v)) as [L | L]; cbn [Z.eqb negb].
  - destruct PM as [-> | ->].
    + rewrite (proj2 (Z.ltb_ge (sign v) 0)) by lia. exists st3. auto.
    + rewrite SO. rewrite (proj2 (Z.ltb_lt (- sign v) 0)) by lia. eexists. split; [reflexivity | split; auto]. rewrite NEG, DN. auto.
  - destruct (Z.eq_dec (sign v) 0) as [Z0 | NZ].
    + apply S_0 in Z0. subst v.
      assert (R0 : r = f0) by (destruct PM as [-> | ->]; ring). rewrite R0 in *.
      rewrite sign_0. cbn [Z.ltb Z.compare]. exists st3. auto.
    + destruct PM as [-> | ->].
      * rewrite (proj2 (Z.ltb_ge 0 (sign v))) by lia. exists st3. auto.
      * rewrite SO. rewrite (proj2 (Z.ltb_lt 0 (- sign v))) by lia. eexists. split; [reflexivity | split; auto]. rewrite NEG, DN. auto.
Qed.
Theorem x_only_round_trip : forall o o' st st1 u v, cval st o = Some (u, v) -> on (Some (u, v)) ->
  exists st', from_bytes_x_only K a b blen dec sqrt o' (to_bytes_x_only K enc st o) st1 = Ok st' /\
    (cval st' o' = Some (u, v) \/ cval st' o' = pneg (Some (u, v))) /\ others st1 st' o'.
Proof.
  intros o o' st st1 u v V H.
  assert (E : to_bytes_x_only K enc st o = enc u).
  { unfold cval in V. unfold to_bytes_x_only. destruct (inf st o); inversion V. auto. }
  rewrite E. unfold from_bytes_x_only.
  replace (slice (enc u) 0 blen) with (@Ok (list Z) (enc u)) by (rewrite <- (app_nil_r (enc u)) at 2; rewrite slice_app1; auto).
  cbn [bind]. rewrite Edec.
  set (st2 := put_coord K (o', 0%nat) u st1).
  assert (X2 : sl st2 (o', 0%nat) = u) by apply upd_same.
  destruct (from_x o' st2 v) as (st3 & R & F & r & V3 & PM & SX & SY); [rewrite X2; exact H | ].
  exists st3. split; [auto | split].
  - rewrite V3, X2. destruct PM as [-> | ->]; auto.
  - eapply others_trans; [apply others_put | exact F].
Qed.

(** ** Hashing *)
Notation orbit := (orbit K).
Lemma hash_loop_ok : forall n X, is_square (rhs K a b (orbit n X)) -> (forall m, (m < n)%nat -> ~ is_square (rhs K a b (orbit m X))) ->
  forall fuel, hash_loop K a b is_sqr fuel X = (if (n <? fuel)%nat then Ok (orbit n X, rhs K a b (orbit n X)) else OutOfFuel).
Proof.
  induction n as [ | n IH]; intros X SQ N fuel; (destruct fuel as [ | fuel]; [reflexivity | ]); cbn [hash_loop orbit] in *; cbv zeta; rewrite cubic_rhs.
  - rewrite (proj2 (Q_is _) SQ). reflexivity.
  - destruct (is_sqr (rhs K a b X)) eqn:E.
    + exfalso. apply (N 0%nat); [lia | ]. apply Q_is. auto.
    + rewrite (IH (X * X + f1)); auto. intros m Hm. apply (N (S m)). lia.
Qed.
Lemma hash_loop_inv : forall fuel X r, hash_loop K a b is_sqr fuel X = Ok r ->
  exists n, r = (orbit n X, rhs K a b (orbit n X)) /\ is_square (rhs K a b (orbit n X)) /\
    forall m, (m < n)%nat -> ~ is_square (rhs K a b (orbit m X)).
Proof.
  induction fuel as [ | fuel IH]; intros X r H; [discriminate | ]. cbn [hash_loop] in H. cbv zeta in H. rewrite cubic_rhs in H.
  destruct (is_sqr (rhs K a b X)) eqn:E.
  - inversion H; subst. exists 0%nat. split; [auto | split]. { apply Q_is; auto. } intros m Hm. lia.
  - destruct (IH _ _ H) as (n & R & SQ & N). exists (S n). split; [auto | split; auto].
    intros m Hm. destruct m as [ | m]; [intro Q; apply Q_is in Q; cbn in Q; congruence | ]. apply (N m). lia.
Qed.
(** the root chosen: the one of non-negative sign *)
Lemma root_choice : forall X Y, Y * Y = rhs K a b X -> 0 <= sign Y ->
  exists r, sqrt (rhs K a b X) = Ok r /\ (if sign r <? 0 then - r else r) = Y.
Proof.
  intros X Y H P. destruct (Q_sqrt (rhs K a b X)) as (r & -> & E); [exists Y; auto | ]. exists r. split; auto.
  destruct (root_pm X Y r H E) as [-> | ->].
  - rewrite (proj2 (Z.ltb_ge (sign Y) 0)) by lia. auto.
  - pose proof (S_opp Y) as SO. rewrite SO. destruct (Z.ltb_spec (- sign Y) 0).
    + ring.
    + assert (Z0 : sign Y = 0) by lia. apply S_0 in Z0. rewrite Z0. ring.
Qed.
Lemma sign_root : forall X, is_square (rhs K a b X) -> exists Y, Y * Y = rhs K a b X /\ 0 <= sign Y.
Proof.
  intros X [Y E]. destruct (Z_le_dec 0 (sign Y)) as [L | L]; [exists Y; auto | ]. exists (- Y). rewrite S_opp. split; [ | lia]. rewrite <- E. ring.
Qed.
End C.

(** the hash does not depend on how squares are tested and roots taken *)
Section Hash.
Variable K : fld.
Hypothesis HK : fld_laws K.
Add Field KFch : (fl_field K HK).
Variables a b : K.
Hypothesis EL : elliptic K a b.
Notation on := (on_curve K a b).
Variables (sign : K -> Z) (hash : list Z -> K).
Hypothesis S_opp : forall x : K, sign (fopp x) = (- sign x)%Z.
Hypothesis S_0 : forall x : K, sign x = 0 -> x = f0.
Notation good_roots := (good_roots K).
Notation orbit := (orbit K).
Notation first_at n X := (is_square (rhs K a b (orbit n X)) /\ forall m, (m < n)%nat -> ~ is_square (rhs K a b (orbit m X))).
Theorem from_hash_ok : forall is_sqr sqrt cofac data n Y, good_roots is_sqr sqrt -> (forall c, cofac = Some c -> 0 <= c) ->
  first_at n (hash data) -> fmul Y Y = rhs K a b (orbit n (hash data)) -> 0 <= sign Y ->
  forall fuel, curve_from_hash K a b sign is_sqr sqrt hash fuel cofac data =
    if (n <? fuel)%nat then Ok (match cofac with None => Some (orbit n (hash data), Y) | Some c => pzmul K a c (Some (orbit n (hash data), Y)) end)
    else OutOfFuel.
Proof.
  intros is_sqr sqrt cofac data n Y [G1 G2] HC [S N] E P fuel. unfold curve_from_hash.
  rewrite (hash_loop_ok K HK a b is_sqr G1 n _ S N). destruct (n <? fuel)%nat; [ | reflexivity]. cbn [bind].
  destruct (root_choice K HK a b sign sqrt S_opp S_0 G2 _ Y E P) as (r & -> & R). cbn [bind]. cbv zeta. rewrite R.
  destruct cofac as [c | ]; cbn [clear_cofactor]; [ | reflexivity].
  destruct EL as (C2 & SM). apply (pow_value K HK a b C2 SM); auto.
Qed.
Theorem from_hash_sound : forall is_sqr sqrt cofac data fuel P, good_roots is_sqr sqrt -> (forall c, cofac = Some c -> 0 <= c) ->
  curve_from_hash K a b sign is_sqr sqrt hash fuel cofac data = Ok P ->
  on P /\ exists R, on R /\ P = match cofac with None => R | Some c => pzmul K a c R end.
Proof.
  intros is_sqr sqrt cofac data fuel P GR HC H. assert (GR' := GR). destruct GR' as [G1 G2].
  assert (L : exists r, hash_loop K a b is_sqr fuel (hash data) = Ok r).
  { unfold curve_from_hash in H. destruct (hash_loop K a b is_sqr fuel (hash data)); cbn [bind] in H; try discriminate. eauto. }
  destruct L as (r & L). destruct (hash_loop_inv K HK a b is_sqr G1 _ _ _ L) as (n & _ & S & N).
  destruct (sign_root K HK a b sign S_opp _ S) as (Y & E & SY).
  rewrite (from_hash_ok is_sqr sqrt cofac data n Y GR HC (conj S N) E SY) in H.
  destruct (n <? fuel)%nat; [ | discriminate]. destruct EL as (C2 & SM).
  assert (O : on (Some (orbit n (hash data), Y))) by exact E.
  destruct cofac as [c | ]; inversion H; subst.
  - split; [apply (pzmul_on K HK a b C2); auto | ]. exists (Some (orbit n (hash data), Y)). auto.
  - split; [auto | ]. exists (Some (orbit n (hash data), Y)). auto.
Qed.
Theorem from_hash_determined : forall is1 sqrt1 is2 sqrt2 cofac data f1 f2 P1 P2,
  good_roots is1 sqrt1 -> good_roots is2 sqrt2 -> (forall c, cofac = Some c -> 0 <= c) ->
  curve_from_hash K a b sign is1 sqrt1 hash f1 cofac data = Ok P1 ->
  curve_from_hash K a b sign is2 sqrt2 hash f2 cofac data = Ok P2 -> P1 = P2.
Proof.
  intros is1 sqrt1 is2 sqrt2 cofac data n1 n2 P1 P2 G1 G2 HC H1 H2.
  assert (L : exists r, hash_loop K a b is1 n1 (hash data) = Ok r).
  { unfold curve_from_hash in H1. destruct (hash_loop K a b is1 n1 (hash data)); cbn [bind] in H1; try discriminate. eauto. }
  destruct L as (r & L). destruct (hash_loop_inv K HK a b is1 (proj1 G1) _ _ _ L) as (n & _ & S & N).
  destruct (sign_root K HK a b sign S_opp _ S) as (Y & E & SY).
  rewrite (from_hash_ok is1 sqrt1 cofac data n Y G1 HC (conj S N) E SY) in H1.
  rewrite (from_hash_ok is2 sqrt2 cofac data n Y G2 HC (conj S N) E SY) in H2.
  destruct (n <? n1)%nat; [ | discriminate]. destruct (n <? n2)%nat; [ | discriminate]. congruence.
Qed.
(** random points *)
Theorem random_no_cofac_on : forall is_sqr sqrt xs, good_roots is_sqr sqrt ->
  (exists x y, random_no_cofac K a b is_sqr sqrt xs = Ok (Some (x, y)) /\ on (Some (x, y)) /\ In x xs) \/
  random_no_cofac K a b is_sqr sqrt xs = OutOfFuel /\ forall x, In x xs -> ~ is_square (rhs K a b x).
Proof.
  intros is_sqr sqrt xs [G1 G2]. induction xs as [ | X xs IH]; [right; split; [auto | intros x []] | ].
  cbn [random_no_cofac]. cbv zeta. rewrite (cubic_rhs K HK). destruct (is_sqr (rhs K a b X)) eqn:E.
  - left. destruct (G2 (rhs K a b X)) as (r & -> & R); [apply G1; auto | ]. exists X, r. split; [auto | split; [exact R | left; auto]].
  - destruct IH as [(x & y & R & O & I) | (R & N)].
    + left. exists x, y. split; [auto | split; [auto | right; auto]].
    + right. split; auto. intros x [<- | I]; auto. intro Q. apply G1 in Q. congruence.
Qed.
Theorem random_on : forall is_sqr sqrt cofac xs P, good_roots is_sqr sqrt -> (forall c, cofac = Some c -> 0 <= c) ->
  random_solvefory K a b is_sqr sqrt cofac xs = Ok P ->
  on P /\ exists R, on R /\ P = match cofac with None => R | Some c => pzmul K a c R end.
Proof.
  intros is_sqr sqrt cofac xs P GR HC H. unfold random_solvefory in H. destruct EL as (C2 & SM).
  destruct (random_no_cofac_on is_sqr sqrt xs GR) as [(x & y & R & O & _) | (R & _)]; rewrite R in H; cbn [bind] in H; [ | discriminate].
  destruct cofac as [c | ]; cbn [clear_cofactor] in H.
  - rewrite (pow_value K HK a b C2 SM) in H by auto. inversion H; subst.
    split; [apply (pzmul_on K HK a b C2); auto | eauto].
  - inversion H; subst. split; eauto.
Qed.
Theorem random_pointmul_ok : forall gen n, on gen -> 0 <= n -> random_pointmul K a gen n = Ok (pzmul K a n gen).
Proof. intros gen n O H. destruct EL as (C2 & SM). apply (pow_value K HK a b C2 SM); auto. Qed.
(** is_sqr on a group of odd order *)
Theorem odd_is_sqr : forall order P, Z.odd order = true -> on P -> 0 < order -> pzmul K a order P = None ->
  point_is_sqr K a order P = Ok true /\ exists R, on R /\ padd K a R R = P.
Proof.
  intros order P O HP L E. destruct EL as (C2 & SM). unfold point_is_sqr. rewrite O. split; auto.
  exists (pzmul K a ((order + 1) / 2) P). split; [apply (pzmul_on K HK a b C2); auto | ].
  assert (D : (order + 1) / 2 + (order + 1) / 2 = order + 1).
  { rewrite Zodd_mod in O. apply Zeq_bool_eq in O. pose proof (Z.div_mod order 2). 
    assert (order + 1 = ((order / 2) + 1) * 2) by lia. rewrite H0. rewrite Z.div_mul by lia. lia. }
  assert (Hh : 0 <= (order + 1) / 2) by (apply Z.div_pos; lia).
  rewrite <- (zmul_add K HK a b C2 SM) by auto. rewrite D. rewrite (zmul_add K HK a b C2 SM) by (auto; lia).
  rewrite E. cbn [pzmul Pos.to_nat Pos.iter_op pmul]. cbn. destruct P as [[x y] | ]; reflexivity.
Qed.
End Hash.

(** ** Twists, j-invariants, traces *)
Section Tw.
Variable K : fld.
Hypothesis HK : fld_laws K.
Add Field KFct : (fl_field K HK).
Notation "x + y" := (fadd x y). Notation "x - y" := (fsub x y). Notation "x * y" := (fmul x y). Notation "- x" := (fopp x).
Notation "x / y" := (fdiv x y).
Theorem twist_rhs : forall a b v x : K, let '(a', b') := twist_coeffs K a b v in rhs K a' b' (v * x) = v * v * v * rhs K a b x.
Proof. intros. unfold twist_coeffs, rhs. ring. Qed.
Theorem j_ok : forall j : K, fofz 1728 <> j -> f2 K <> f0 -> f3 K <> f0 ->
  exists a b, j_coeffs K j = Ok (a, b) /\
   let d := f2 K * f2 K * (a * a * a) + f3 K * f3 K * f3 K * (b * b) in
   (j <> f0 -> d <> f0) /\ fofz 1728 * (f2 K * f2 K * (a * a * a)) = j * d.
Proof.
  intros j N C2 C3. unfold j_coeffs. cbv zeta.
  assert (D : fofz 1728 - j <> f0) by (intro E; apply N; apply (f_sub_0 K HK); auto).
  rewrite (finvert_ok K HK) by auto. cbn [bind].
  assert (M : (fofz 1728 : K) = f2 K * f2 K * f2 K * f2 K * f2 K * f2 K * (f3 K * f3 K * f3 K)).
  { assert (E2 : f2 K = fofz 2) by (cbn; unfold f2; ring). assert (E3 : f3 K = fofz 3) by (cbn; unfold f3; ring).
    rewrite E2, E3, <- !(fofz_mul K HK). reflexivity. }
  set (m := fofz 1728 : K) in *. set (u := finv (m - j) * j).
  do 2 eexists. split; [reflexivity | ]. cbv zeta.
  assert (U : u * (m - j) = j) by (unfold u; field; auto). clearbody u m.
  replace (u + (u + u)) with (f3 K * u) by (unfold f3; ring). replace (u + u) with (f2 K * u) by (unfold f2; ring).
  assert (DD : f2 K * f2 K * (f3 K * u * (f3 K * u) * (f3 K * u)) + f3 K * f3 K * f3 K * (f2 K * u * (f2 K * u)) =
     f2 K * f2 K * (f3 K * f3 K * f3 K) * (u * u) * (u + f1)) by ring.
  rewrite DD. split.
  - intros J. assert (U0 : u <> f0) by (intro E; apply J; rewrite <- U, E; ring).
    assert (U1 : (u + f1) * (m - j) = m) by (transitivity (u * (m - j) + (m - j)); [ring | rewrite U; ring]).
    assert (M0 : m <> f0) by (rewrite M; repeat apply (f_mul_nz K HK); auto).
    assert (U2 : u + f1 <> f0) by (intro E; rewrite E in U1; apply M0; rewrite <- U1; ring).
    repeat apply (f_mul_nz K HK); auto.
  - apply (f_cancel K HK (m - j)); auto.
    transitivity (f2 K * f2 K * (f3 K * f3 K * f3 K) * (u * u) * m * (u * (m - j))); [ring | ]. rewrite U.
    transitivity (f2 K * f2 K * (f3 K * f3 K * f3 K) * (u * u) * j * (u * (m - j) + (m - j))); [ | ring]. rewrite U. ring.
Qed.
Theorem trace_ok : forall (q t : Z) (alpha beta : K), alpha + beta = fofz t -> alpha * beta = fofz q ->
  forall n, 1 <= n -> fofz (trace_n q t n) = fpow alpha n + fpow beta n.
Proof.
  intros q t al be ES EP.
  assert (P1 : forall x : K, fpow x 1 = x) by (intro x; change (@eq K (x * f1) x); ring).
  assert (PS : forall (x : K) n, 0 <= n -> fpow x (n + 1) = x * fpow x n).
  { intros x n H. unfold fpow, zpow. replace (Z.to_nat (n + 1)) with (S (Z.to_nat n)) by lia. reflexivity. }
  assert (G : forall m i c1 c2, 0 <= i -> fofz c1 = fpow al (i + 1) + fpow be (i + 1) -> fofz c2 = fpow al i + fpow be i ->
    fofz (trace_loop m q t c1 c2) = fpow al (i + 1 + Z.of_nat m) + fpow be (i + 1 + Z.of_nat m)).
  { induction m as [ | m IH]; intros i c1 c2 Hi E1 E2.
    - cbn [trace_loop]. rewrite Z.add_0_r. auto.
    - cbn [trace_loop]. rewrite (IH (i + 1)%Z); [ | lia | | auto].
      + replace (i + 1 + 1 + Z.of_nat m)%Z with (i + 1 + Z.of_nat (S m))%Z by lia. auto.
      + unfold Z.sub. rewrite (fofz_add K HK), (fofz_opp K HK), !(fofz_mul K HK), E1, E2, <- ES, <- EP.
        rewrite (PS al (i + 1)%Z), (PS be (i + 1)%Z), (PS al i), (PS be i) by lia. ring. }
  intros n Hn. unfold trace_n. rewrite (G _ 0); [ | lia | | ].
  - replace (0 + 1 + Z.of_nat (Z.to_nat (n - 1)))%Z with n by lia. auto.
  - change (0 + 1)%Z with 1. rewrite !P1. auto.
  - rewrite fofz_2. unfold fpow, zpow. cbn. auto.
Qed.
End Tw.
