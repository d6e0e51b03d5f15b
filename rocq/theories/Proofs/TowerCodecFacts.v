(** Byte encodings, sign, hashing and random elements of towers. *)
From Coq Require Import ZArith List Bool Lia.
From Verif.Base Require Import Outcome Gmp Array.
From Verif.Model Require Import FieldInt NaiveFp TowerCodec.
From Verif.Spec Require Import PrimeField ElementText.
From Verif.Proofs Require Import GmpFacts ArrayFacts BytesFacts.
Import ListNotations.
Open Scope Z_scope.

Lemma skipn_len : forall (u v : list Z), skipn (length u) (u ++ v) = v.
Proof. intros. rewrite skipn_app, skipn_all, Nat.sub_diag. reflexivity. Qed.
Lemma fixed_len : forall p, 1 < p -> Z.to_nat (fixed_length p) = byte_length p.
Proof. intros p Hp. rewrite <- byte_length_fixed by lia. apply Nat2Z.id. Qed.

(** ** Bytes *)
Definition codes {A} (C : codec A) (n : nat) (e : A) : Prop :=
  exists bs, c_enc C e = Ok bs /\ length bs = n /\ c_len C e = n /\ Forall (fun x => 0 <= x < 256) bs /\ forall rest, c_dec C (bs ++ rest) = Ok (e, n).
Lemma be_bytes_range : forall n x, Forall (fun y => 0 <= y < 256) (be_bytes n x).
Proof. induction n; intros x; cbn [be_bytes]; [constructor | ]. apply Forall_app. split; auto. repeat constructor; apply Z.mod_pos_bound; lia. Qed.
Lemma fp_codes : forall p e, 1 < p -> 0 <= e < p -> codes (fp_codec p) (byte_length p) e.
Proof.
  intros p e Hp He. exists (be_bytes (byte_length p) e). cbn [c_enc c_len c_dec fp_codec]. unfold zp_to_bytes. rewrite fixed_len by auto.
  split; [apply to_bytes_spec; auto | ]. split; [apply be_bytes_length | ]. split; [reflexivity | ]. split; [apply be_bytes_range | ].
  intros rest. pose proof (slice_app Z [] (be_bytes (byte_length p) e) rest 0%nat (byte_length p) eq_refl (be_bytes_length _ _)) as E. cbn [app] in E. rewrite E.
  cbn [bind]. unfold zp_from_bytes. rewrite be_bytes_value. rewrite Z.mod_small; [reflexivity | ]. pose proof (byte_length_bound p ltac:(lia)). lia.
Qed.
Lemma quad_codes : forall A (C : codec A) n x y, codes C n x -> codes C n y -> codes (quad_codec C) (2 * n) (x, y).
Proof.
  intros A C n x y (bx & E1 & L1 & K1 & F1 & D1) (by_ & E2 & L2 & K2 & F2 & D2). exists (bx ++ by_). cbn [c_enc c_len c_dec quad_codec]. unfold fq_enc, fq_len, fq_dec. cbn [fst snd].
  rewrite E1, E2. cbn [bind]. split; [reflexivity | ]. split; [rewrite app_length; lia | ]. split; [lia | ]. split; [apply Forall_app; auto | ].
  intros rest. rewrite <- app_assoc, D1. cbn [bind]. rewrite <- L1 at 1. rewrite skipn_len, D2. cbn [bind]. do 2 f_equal. lia.
Qed.
Lemma pm_codes : forall A (C : codec A) n l, Forall (codes C n) l -> codes (polymod_codec C (length l)) (length l * n) l.
Proof.
  intros A C n l F. induction F as [ | x l (bx & E1 & L1 & K1 & F1 & D1) F (bl & E2 & L2 & K2 & F2 & D2)].
  - exists []. cbn. repeat split; auto.
  - exists (bx ++ bl). cbn [c_enc c_len c_dec polymod_codec length pm_enc pm_len pm_dec] in *. rewrite E1, E2. cbn [bind]. split; [reflexivity | ].
    split; [rewrite app_length; lia | ]. split; [lia | ]. split; [apply Forall_app; auto | ].
    intros rest. rewrite <- app_assoc, D1. cbn [bind]. rewrite <- L1 at 1. rewrite skipn_len, D2. cbn [bind]. reflexivity.
Qed.
Lemma tower_codes : forall p t e, 1 < p -> is_elem p t e -> codes (tower_codec p t) (tower_degree t * byte_length p) e.
Proof.
  intros p t e Hp. revert e. induction t; intros e He; cbn [is_elem tower_codec tower_degree] in *.
  - rewrite Nat.mul_1_l. apply fp_codes; auto.
  - destruct e as [x y]. destruct He. rewrite <- Nat.mul_assoc. apply quad_codes; auto.
  - destruct He as [L F]. rewrite <- Nat.mul_assoc. cbn [carrier] in e. rewrite <- L. apply pm_codes. clear L. induction F; constructor; auto.
Qed.
Lemma tower_bytes : forall p t e, 1 < p -> is_elem p t e ->
  exists bs, c_enc (tower_codec p t) e = Ok bs /\ length bs = (tower_degree t * byte_length p)%nat /\ c_len (tower_codec p t) e = length bs /\
    Forall (fun x => 0 <= x < 256) bs /\ forall rest, c_dec (tower_codec p t) (bs ++ rest) = Ok (e, length bs).
Proof.
  intros p t e Hp He. destruct (tower_codes p t e Hp He) as (bs & E & L & K & F & D). exists bs. rewrite L. auto.
Qed.
Lemma tower_inj : forall p t e e' bs, 1 < p -> is_elem p t e -> is_elem p t e' ->
  c_enc (tower_codec p t) e = Ok bs -> c_enc (tower_codec p t) e' = Ok bs -> e = e'.
Proof.
  intros p t e e' bs Hp He He' E E'. destruct (tower_bytes p t e Hp He) as (b1 & E1 & _ & _ & _ & D1). destruct (tower_bytes p t e' Hp He') as (b2 & E2 & _ & _ & _ & D2).
  assert (b1 = bs) by congruence. assert (b2 = bs) by congruence. subst. specialize (D1 []). specialize (D2 []). congruence.
Qed.
Lemma poly_bytes : forall A (C : codec A) n l, Forall (codes C n) l -> Z.of_nat (length l) < 65536 ->
  exists bs, poly_to_bytes C l = Ok bs /\ length bs = poly_length C l /\ forall rest, poly_from_bytes C (bs ++ rest) = Ok (l, length bs).
Proof.
  intros A C n l F L. destruct (pm_codes A C n l F) as (bs & E & Lb & K & _ & D). cbn [c_enc c_len c_dec polymod_codec] in *.
  set (c := Z.of_nat (length l)) in *. exists (c mod 256 :: (c / 256) mod 256 :: bs). unfold poly_to_bytes. rewrite E. cbn [bind]. split; [reflexivity | ].
  split; [unfold poly_length; cbn [length]; lia | ]. intros rest. unfold poly_from_bytes. cbn [app get nth_error bind skipn].
  replace (c mod 256 + (c / 256) mod 256 * 256) with c.
  - unfold c. rewrite Nat2Z.id, D. cbn [bind length]. do 2 f_equal. lia.
  - rewrite (Z.mod_small (c / 256)) by (split; [apply Z.div_pos; lia | apply Z.div_lt_upper_bound; lia]). pose proof (Z.div_mod c 256 ltac:(lia)). lia.
Qed.
Lemma poly_count : forall A (C : codec A) l bs, poly_to_bytes C l = Ok bs -> Z.of_nat (length l) = 65536 -> exists bs', bs = 0 :: 0 :: bs'.
Proof.
  intros A C l bs H L. unfold poly_to_bytes in H. rewrite L in H. destruct (pm_enc C l) as [b | | | ]; cbn [bind] in H; try discriminate. injection H as <-. exists b. reflexivity.
Qed.
Lemma poly_long : forall p, 1 < p -> exists l bs, Forall (fun x => 0 <= x < p) l /\ l <> [] /\ last l 0 <> 0 /\
  poly_to_bytes (fp_codec p) l = Ok bs /\ poly_from_bytes (fp_codec p) bs = Ok ([], 2%nat).
Proof.
  intros p Hp. assert (XN : exists N, Z.of_nat N = 65536) by (exists (Z.to_nat 65536); apply Z2Nat.id; lia). destruct XN as [N EN]. assert (FN : Forall (fun x => 0 <= x < p) (repeat 1 N)) by (apply Forall_forall; intros x I; apply repeat_spec in I; lia).
  assert (FC : Forall (codes (fp_codec p) (byte_length p)) (repeat 1 N)) by (apply Forall_forall; intros x I; apply repeat_spec in I; apply fp_codes; lia).
  destruct (pm_codes Z (fp_codec p) _ _ FC) as (b & E & _). cbn [c_enc polymod_codec] in E.
  assert (LN : Z.of_nat (length (repeat 1 N)) = 65536) by (rewrite repeat_length; exact EN).
  exists (repeat 1 N), (0 :: 0 :: b). split; [exact FN | ].
  assert (NN : N = S (N - 1)) by (rewrite repeat_length in LN; lia).
  split; [rewrite NN; discriminate | ]. split.
  - assert (A : forall k, last (repeat 1 (S k)) 0 = 1) by (induction k; [reflexivity | exact IHk]). rewrite NN, A. lia.
  - split; [unfold poly_to_bytes; rewrite E, LN; reflexivity | reflexivity].
Qed.

(** ** Sign *)
Definition signed {A} (C : codec A) (zero : A -> Prop) (e : A) : Prop :=
  (c_sign C e = 0 <-> zero e) /\ c_sign C (c_neg C e) = - c_sign C e /\ (c_sign C e = 0 \/ c_sign C e = 1 \/ c_sign C e = -1).
Lemma fp_signed : forall p e, 1 < p -> Z.odd p = true -> 0 <= e < p -> signed (fp_codec p) (fun x => x = 0) e.
Proof.
  intros p e Hp Ho He. unfold signed. cbn [c_sign c_neg fp_codec]. unfold zp_sign, zp_neg, mpz_odd_p. rewrite Ho. unfold zp_sgn_odd, mpz_odd_p.
  destruct (Z.eqb_spec e 0) as [-> | N]; [cbn; intuition lia | ].
  destruct (Z.eqb_spec (p - e) 0); [lia | ]. rewrite Z.odd_sub, Ho. destruct (Z.odd e); cbn; intuition lia.
Qed.
Lemma tower_signed : forall p t e, 1 < p -> Z.odd p = true -> is_elem p t e -> signed (tower_codec p t) (is_zero t) e.
Proof.
  intros p t e Hp Ho. revert e. induction t; intros e He; cbn [is_elem tower_codec] in *.
  - destruct (fp_signed p e Hp Ho He) as (A & B & C). split; auto. unfold is_zero. cbn [coords]. rewrite A. split; intro H; [constructor; auto | inversion H; auto].
  - destruct e as [x y]. destruct He as [Hx Hy]. cbn [fst snd] in *. destruct (IHt x Hx) as (A1 & B1 & C1). destruct (IHt y Hy) as (A2 & B2 & C2).
    unfold signed. cbn [c_sign c_neg quad_codec]. unfold fq_sign, fq_neg. cbn [fst snd]. rewrite B1, B2. unfold is_zero in *. cbn [coords fst snd]. rewrite Forall_app.
    destruct (Z.eqb_spec (c_sign (tower_codec p t) x) 0) as [E | E].
    + rewrite E. cbn [Z.opp Z.eqb]. intuition.
    + destruct (Z.eqb_spec (- c_sign (tower_codec p t) x) 0); [lia | ]. intuition.
  - destruct He as [_ F]. unfold signed. cbn [c_sign c_neg polymod_codec]. unfold is_zero. cbn [coords]. cbn [carrier] in e.
    induction F as [ | x l Hx F (A & B & C)]; [cbn; intuition | ].
    cbn [pm_sign pm_neg map concat]. destruct (IHt x Hx) as (A1 & B1 & C1). unfold is_zero in *. rewrite Forall_app, B1. change (map (c_neg (tower_codec p t)) l) with (pm_neg (tower_codec p t) l). rewrite B.
    destruct (Z.eqb_spec (c_sign (tower_codec p t) x) 0) as [E | E].
    + rewrite E. cbn [Z.opp Z.eqb]. intuition.
    + destruct (Z.eqb_spec (- c_sign (tower_codec p t) x) 0); [lia | ]. intuition.
Qed.
Lemma tower_sign : forall p t e, 1 < p -> Z.odd p = true -> is_elem p t e ->
  (c_sign (tower_codec p t) e = 0 <-> is_zero t e) /\ c_sign (tower_codec p t) (c_neg (tower_codec p t) e) = - c_sign (tower_codec p t) e /\
  (c_sign (tower_codec p t) e = 0 \/ c_sign (tower_codec p t) e = 1 \/ c_sign (tower_codec p t) e = -1).
Proof. exact tower_signed. Qed.

(** ** Random elements *)
Lemma tower_random : forall p t e src, is_elem p t e -> c_rand (tower_codec p t) (coords t e ++ src) = Ok (e, src).
Proof.
  intros p. induction t; intros e src He; cbn [is_elem tower_codec coords] in *.
  - reflexivity.
  - destruct e as [x y]. destruct He as [Hx Hy]. cbn [fst snd c_rand quad_codec] in *. unfold fq_random. rewrite <- app_assoc, IHt by auto. cbn [bind]. rewrite IHt by auto. reflexivity.
  - destruct He as [L F]. cbn [c_rand polymod_codec]. cbn [carrier] in e. revert n L. induction F as [ | x l Hx F IH]; intros n L; cbn [length] in L; subst n.
    + reflexivity.
    + cbn [map concat pm_random]. rewrite <- app_assoc, IHt by auto. cbn [bind]. rewrite IH by auto. reflexivity.
Qed.
Lemma coords_onto : forall p t zs, length zs = tower_degree t -> Forall (fun z => 0 <= z < p) zs -> exists e, is_elem p t e /\ coords t e = zs.
Proof.
  intros p. induction t as [ | t IH | n t IH]; intros zs L F; cbn [tower_degree is_elem coords carrier] in *.
  - destruct zs as [ | z [ | ]]; try discriminate. inversion F. exists z. auto.
  - destruct (IH (firstn (tower_degree t) zs)) as (x & Hx & Ex); [rewrite firstn_length; lia | rewrite <- (firstn_skipn (tower_degree t) zs) in F; apply Forall_app in F; tauto | ].
    destruct (IH (skipn (tower_degree t) zs)) as (y & Hy & Ey); [rewrite skipn_length; lia | rewrite <- (firstn_skipn (tower_degree t) zs) in F; apply Forall_app in F; tauto | ].
    exists (x, y). cbn [fst snd]. rewrite Ex, Ey. split; auto. apply firstn_skipn.
  - revert zs L F. induction n; intros zs L F; cbn [Nat.mul] in L.
    + exists []. destruct zs; [ | discriminate]. repeat split; auto.
    + destruct (IH (firstn (tower_degree t) zs)) as (x & Hx & Ex); [rewrite firstn_length; lia | rewrite <- (firstn_skipn (tower_degree t) zs) in F; apply Forall_app in F; tauto | ].
      destruct (IHn (skipn (tower_degree t) zs)) as (l & [Ll Hl] & El); [rewrite skipn_length; lia | rewrite <- (firstn_skipn (tower_degree t) zs) in F; apply Forall_app in F; tauto | ].
      exists (x :: l). cbn [length map concat]. rewrite Ex, El. split; [split; [lia | constructor; auto] | apply firstn_skipn].
Qed.
Lemma tower_random_elem : forall p t zs src, length zs = tower_degree t -> Forall (fun z => 0 <= z < p) zs ->
  exists e, c_rand (tower_codec p t) (zs ++ src) = Ok (e, src) /\ is_elem p t e /\ coords t e = zs.
Proof. intros p t zs src L F. destruct (coords_onto p t zs L F) as (e & He & <-). exists e. split; auto. apply (tower_random p); auto. Qed.

(** ** Hashing *)
Lemma hash_same : forall A (C : codec A) n data l, pm_hash C n data = Ok l -> forall x y, In x l -> In y l -> x = y.
Proof.
  assert (G : forall A (C : codec A) n data l, pm_hash C n data = Ok l -> forall x, In x l -> c_hash C data = Ok x).
  { induction n; intros data l H x I; cbn [pm_hash] in H; [injection H as <-; destruct I | ].
    destruct (c_hash C data) as [v | | | ] eqn:E; cbn [bind] in H; try discriminate. destruct (pm_hash C n data) as [l' | | | ] eqn:E2; cbn [bind] in H; try discriminate. injection H as <-.
    destruct I as [<- | I]; auto. rewrite <- E. apply (IHn data l'); auto. }
  intros A C n data l H x y Ix Iy. pose proof (G A C n data l H x Ix). pose proof (G A C n data l H y Iy). congruence.
Qed.
Lemma quad_hash : forall A (C : codec A) u v x y, length u = length v \/ S (length u) = length v -> c_hash C u = Ok x -> c_hash C v = Ok y ->
  c_hash (quad_codec C) (u ++ v) = Ok (x, y).
Proof.
  intros A C u v x y L Hx Hy. cbn [c_hash quad_codec]. unfold fq_from_hash. rewrite app_length.
  replace ((length u + length v) / 2)%nat with (length u) by (destruct L as [<- | <-]; [apply Nat.div_unique with 0%nat; lia | apply Nat.div_unique with 1%nat; lia]).
  rewrite firstn_app, firstn_all, Nat.sub_diag. cbn [firstn]. rewrite app_nil_r, skipn_len, Hx. cbn [bind]. rewrite Hy. reflexivity.
Qed.
Lemma hash_refuted : exists p t data e, 1 < p /\ is_elem p t e /\ (forall d, Forall (fun x => 0 <= x < 256) d -> c_hash (tower_codec p t) d <> Ok e) /\ exists e', c_hash (tower_codec p t) data = Ok e'.
Proof.
  exists 7, (TPoly 2 TFp), [1], [1; 2]. split; [lia | ]. split; [cbn; repeat split; repeat constructor; lia | ]. split.
  - intros d _ H. cbn [tower_codec c_hash polymod_codec] in H. pose proof (hash_same _ _ _ _ _ H 1 2 ltac:(left; reflexivity) ltac:(right; left; reflexivity)). discriminate.
  - eexists. vm_compute. reflexivity.
Qed.

(** ** Negation, and decoding any bytes *)
Lemma tower_neg : forall p t e, 1 < p -> is_elem p t e ->
  is_elem p t (c_neg (tower_codec p t) e) /\ coords t (c_neg (tower_codec p t) e) = map (fun z => (- z) mod p) (coords t e).
Proof.
  intros p t e Hp. revert e. induction t; intros e He; cbn [is_elem tower_codec coords] in *.
  - cbn [c_neg fp_codec map]. unfold zp_neg. destruct (Z.eqb_spec e 0) as [-> | N].
    + rewrite Z.mod_0_l by lia. split; [lia | reflexivity].
    + split; [lia | ]. f_equal. apply Z.mod_unique with (-1); lia.
  - destruct e as [x y]. destruct He as [Hx Hy]. destruct (IHt x Hx) as [A1 B1]. destruct (IHt y Hy) as [A2 B2]. cbn [c_neg quad_codec fq_neg fst snd]. rewrite map_app, B1, B2. auto.
  - destruct He as [L F]. cbn [carrier] in e. rewrite <- L. clear L. cbn [c_neg polymod_codec]. induction F as [ | x l Hx F ((A & A') & B)]; [split; [split; [reflexivity | constructor] | reflexivity] | ].
    destruct (IHt x Hx) as [A1 B1]. unfold pm_neg in *. cbn [map length concat]. rewrite map_app, B1, B. split; [split; [cbn [length] in *; congruence | constructor; auto] | reflexivity].
Qed.
Lemma tower_dec_len : forall p t data, 1 < p -> (tower_degree t * byte_length p <= length data)%nat ->
  exists e, c_dec (tower_codec p t) data = Ok (e, (tower_degree t * byte_length p)%nat).
Proof.
  intros p t. induction t; intros data Hp L; cbn [tower_degree tower_codec] in *.
  - rewrite Nat.mul_1_l in *. cbn [c_dec fp_codec]. rewrite fixed_len by auto.
    pose proof (slice_app Z [] (firstn (byte_length p) data) (skipn (byte_length p) data) 0%nat (byte_length p) eq_refl ltac:(rewrite firstn_length; lia)) as E. cbn [app] in E. rewrite firstn_skipn in E. rewrite E.
    cbn [bind]. eexists. reflexivity.
  - cbn [c_dec quad_codec]. unfold fq_dec. destruct (IHt data Hp) as [x Ex]; [lia | ]. rewrite Ex. cbn [bind]. destruct (IHt (skipn (tower_degree t * byte_length p) data) Hp) as [y Ey]; [rewrite skipn_length; lia | ].
    rewrite Ey. cbn [bind]. eexists. do 2 f_equal. lia.
  - cbn [c_dec polymod_codec]. rewrite <- Nat.mul_assoc in *. set (w := (tower_degree t * byte_length p)%nat) in *. revert data L. induction n; intros data L.
    + eexists. reflexivity.
    + cbn [pm_dec]. destruct (IHt data Hp) as [x Ex]; [lia | ]. rewrite Ex. cbn [bind]. destruct (IHn (skipn w data)) as [y Ey]; [rewrite skipn_length; lia | ]. rewrite Ey. cbn [bind]. eexists. reflexivity.
Qed.
Lemma tower_poly_bytes : forall p t l, 1 < p -> Forall (is_elem p t) l -> Z.of_nat (length l) < 65536 ->
  exists bs, poly_to_bytes (tower_codec p t) l = Ok bs /\ length bs = poly_length (tower_codec p t) l /\
    forall rest, poly_from_bytes (tower_codec p t) (bs ++ rest) = Ok (l, length bs).
Proof.
  intros p t l Hp F L. apply (poly_bytes _ _ (tower_degree t * byte_length p)); auto. eapply Forall_impl; [ | exact F]. intros e He. apply tower_codes; auto.
Qed.
