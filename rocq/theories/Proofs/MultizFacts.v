(** Nested integer polynomials: addition, negation and multiplication are exact
    (arith/multiz.c). *)
From Coq Require Import ZArith List Bool Lia.
From Verif.Base Require Import Outcome.
From Verif.Model Require Import Multiz.
From Verif.Spec Require Import Multiz.
Import ListNotations.
Open Scope Z_scope.

Fixpoint mz_ind' (P : mz -> Prop) (Hz : forall z, P (MZ z))
  (Ha : forall l, Forall P l -> P (MA l)) (a : mz) : P a :=
  match a with
  | MZ z => Hz z
  | MA l => Ha l ((fix go l := match l return Forall P l with
                    | [] => Forall_nil _
                    | x :: t => Forall_cons x (mz_ind' P Hz Ha x) (go t)
                    end) l)
  end.

Definition horner (x : Z) (l : list Z) : Z := fold_right (fun c s => c + x * s) 0 l.

Lemma value_MA : forall rho k l, value rho k (MA l) = horner (rho k) (map (value rho (S k)) l).
Proof. reflexivity. Qed.

Lemma horner_cons : forall x c l, horner x (c :: l) = c + x * horner x l.
Proof. reflexivity. Qed.

Lemma unary_linear : forall (f : Z -> Z) c, (forall z, f z = c * z) ->
  forall a rho k, value rho k (unary f a) = c * value rho k a.
Proof.
  intros f c Hf. induction a as [z|l IH] using mz_ind'; intros rho k; cbn [unary].
  - cbn. apply Hf.
  - rewrite !value_MA, map_map. generalize (rho k) as x. intro x.
    induction IH as [|y t Hy _ IHt]; cbn [map]; rewrite ?horner_cons.
    + cbn. ring.
    + rewrite Hy, IHt. ring.
Qed.

Lemma unary_nonempty : forall f a, nonempty a -> nonempty (unary f a).
Proof.
  intro f. induction a as [z|l IH] using mz_ind'; intro H; cbn [unary]; constructor.
  - inversion H; subst. destruct l; [congruence|discriminate].
  - inversion H; subst. apply Forall_map. rewrite Forall_forall in *. auto.
Qed.

Lemma unary_id : forall a, unary (fun z => z) a = a.
Proof.
  induction a as [z|l IH] using mz_ind'; cbn [unary]; [reflexivity|]. f_equal.
  induction IH as [|y t Hy _ IHt]; cbn [map]; [reflexivity|]. rewrite Hy, IHt. reflexivity.
Qed.

Lemma clone_id : forall a, clone a = a.
Proof. exact unary_id. Qed.

(** ** Addition *)
Lemma at_leaf_ok : forall g d, (forall z, g z = z + d) -> forall a, nonempty a ->
  exists c, at_leaf g a = Ok c /\ nonempty c /\ forall rho k, value rho k c = value rho k a + d.
Proof.
  intros g d Hg. induction a as [z|l IH] using mz_ind'; intro H.
  - exists (MZ (g z)). repeat split; [constructor|]. intros; cbn. apply Hg.
  - inversion H as [|l' Hl HF]; subst. destruct l as [|x t]; [congruence|].
    inversion IH as [|? ? Hx _]; subst. inversion HF as [|? ? Nx Nt]; subst.
    destruct (Hx Nx) as (c & E & Nc & V). cbn [at_leaf]. rewrite E. cbn [bind].
    eexists; split; [reflexivity|]. split.
    + constructor; [discriminate|]. constructor; auto.
    + intros rho k. rewrite !value_MA. cbn [map]. rewrite !horner_cons, V. ring.
Qed.

Lemma bin_int_add : forall x b, nonempty b ->
  exists c, bin_int Z.add x b = Ok c /\ nonempty c /\ forall rho k, value rho k c = x + value rho k b.
Proof.
  intros x [y|l] H; cbn [bin_int].
  - eexists; split; [reflexivity|]. split; [constructor|reflexivity].
  - rewrite clone_id.
    destruct (at_leaf_ok (fun z => x + z) x ltac:(intro; ring) (MA l) H) as (c & E & Nc & V).
    exists c. repeat split; auto. intros. rewrite V. ring.
Qed.

Fixpoint bin_list (f : Z -> Z -> Z) (la lb : list mz) : res (list mz) :=
  match la with
  | [] => traverse (bin_int f 0) lb
  | a' :: la' =>
    match lb with
    | [] => z <- bin f a' (MZ 0) ;; r <- bin_list f la' [] ;; Ok (z :: r)
    | b' :: lb' => z <- bin f a' b' ;; r <- bin_list f la' lb' ;; Ok (z :: r)
    end
  end.

Lemma bin_MA : forall f la lb, bin f (MA la) (MA lb) = (l <- bin_list f la lb ;; Ok (MA l)).
Proof.
  intros f la lb. cbn [bin].
  match goal with |- bind (?g la lb) _ = _ => assert (E : forall la lb, g la lb = bin_list f la lb) end.
  { clear. induction la as [|a la IH]; intros [|b lb]; cbn [bin_list]; try reflexivity; rewrite IH; reflexivity. }
  rewrite E. reflexivity.
Qed.

Lemma traverse_zero : forall rho k lb, Forall nonempty lb ->
  exists l, traverse (bin_int Z.add 0) lb = Ok l /\ Forall nonempty l /\ length l = length lb /\
    map (value rho k) l = map (value rho k) lb.
Proof.
  intros rho k. induction lb as [|b lb IH]; intro H; cbn [traverse].
  - exists []. auto.
  - inversion H; subst. destruct (bin_int_add 0 b) as (c & E & Nc & V); [assumption|].
    destruct IH as (l & El & Nl & Ll & Vl); [assumption|].
    rewrite E, El. cbn [bind]. exists (c :: l). repeat split; [constructor; auto|cbn; congruence|].
    cbn [map]. rewrite V, Vl. reflexivity.
Qed.

Lemma add_int_r : forall a y, nonempty a ->
  exists c, bin Z.add a (MZ y) = Ok c /\ nonempty c /\ forall rho k, value rho k c = value rho k a + y.
Proof.
  intros [x|l] y H; cbn [bin].
  - cbn [bin_int]. eexists; split; [reflexivity|]. split; [constructor|reflexivity].
  - rewrite clone_id. apply at_leaf_ok; [intro; ring|assumption].
Qed.

Lemma add_ok : forall a b, nonempty a -> nonempty b ->
  exists c, mz_add a b = Ok c /\ nonempty c /\ forall rho k, value rho k c = value rho k a + value rho k b.
Proof.
  unfold mz_add. induction a as [x|la IH] using mz_ind'; intros b Ha Hb.
  - apply bin_int_add; assumption.
  - destruct b as [y|lb]; [apply add_int_r; assumption|].
    inversion Ha as [|? La Fa]; subst. inversion Hb as [|? Lb Fb]; subst. rewrite bin_MA.
    assert (G : exists l, bin_list Z.add la lb = Ok l /\ Forall nonempty l /\
      (length la <= length l)%nat /\
      forall rho k x, horner x (map (value rho k) l) =
        horner x (map (value rho k) la) + horner x (map (value rho k) lb)).
    { clear La Lb Ha Hb. revert lb Fb. induction la as [|a la IHl]; intros lb Fb; cbn [bin_list].
      - destruct (traverse_zero (fun _ => 0) 0%nat lb Fb) as (l & El & Nl & Ll & _).
        exists l. repeat split; auto; [cbn; lia|]. intros rho k x.
        destruct (traverse_zero rho k lb Fb) as (l2 & El2 & _ & _ & V). rewrite El in El2.
        injection El2 as <-. rewrite V. cbn. ring.
      - inversion IH as [|? ? IHa IHt]; subst. inversion Fa as [|? ? Na Nt]; subst.
        destruct lb as [|b lb].
        + destruct (add_int_r a 0 Na) as (c & E & Nc & V).
          destruct (IHl IHt Nt [] (Forall_nil _)) as (l & El & Nl & Ll & Vl).
          rewrite E, El. cbn [bind]. exists (c :: l). repeat split; [constructor; auto|cbn; lia|].
          intros rho k x. cbn [map]. rewrite !horner_cons, V, Vl. cbn. ring.
        + inversion Fb as [|? ? Nb Nbt]; subst.
          destruct (IHa b Na Nb) as (c & E & Nc & V).
          destruct (IHl IHt Nt lb Nbt) as (l & El & Nl & Ll & Vl).
          rewrite E, El. cbn [bind]. exists (c :: l). repeat split; [constructor; auto|cbn; lia|].
          intros rho k x. cbn [map]. rewrite !horner_cons, V, Vl. ring. }
    destruct G as (l & El & Nl & Ll & V). rewrite El. cbn [bind]. eexists; split; [reflexivity|]. split.
    + constructor; [|assumption]. destruct la; [congruence|]. destruct l; [cbn in Ll; lia|discriminate].
    + intros rho k. rewrite !value_MA. apply V.
Qed.

(** ** Multiplication *)
Definition rsum (n : nat) (g : nat -> Z) : Z := fold_left (fun s j => s + g j) (seq 0 n) 0.

Lemma rsum_S : forall n g, rsum (S n) g = rsum n g + g n.
Proof. intros. unfold rsum. rewrite seq_S, fold_left_app. reflexivity. Qed.

Lemma rsum_ext : forall n g h, (forall j, (j < n)%nat -> g j = h j) -> rsum n g = rsum n h.
Proof.
  induction n; intros g h H; [reflexivity|]. rewrite !rsum_S, (IHn g h), (H n); auto.
Qed.

Lemma rsum_scal : forall c n g, rsum n (fun j => c * g j) = c * rsum n g.
Proof. induction n; intros; [cbn; ring|]. rewrite !rsum_S, IHn. ring. Qed.

Lemma rsum_0 : forall n, rsum n (fun _ => 0) = 0.
Proof. induction n; [reflexivity|]. rewrite rsum_S, IHn. reflexivity. Qed.

Lemma rsum_shift : forall n g, rsum (S n) g = g 0%nat + rsum n (fun j => g (S j)).
Proof.
  induction n; intro g; [cbn; ring|]. rewrite rsum_S, IHn, rsum_S. ring.
Qed.

Lemma horner_rsum : forall x l n, (length l <= n)%nat ->
  horner x l = rsum n (fun i => nth i l 0 * x ^ Z.of_nat i).
Proof.
  intros x. induction l as [|c l IH]; intros n H.
  - cbn. rewrite (rsum_ext n _ (fun _ => 0)), rsum_0; [reflexivity|]. intros [|j] _; reflexivity.
  - destruct n as [|n]; [cbn in H; lia|]. rewrite horner_cons, rsum_shift, (IH n) by (cbn in H; lia).
    cbn [nth]. rewrite <- rsum_scal. change (x ^ Z.of_nat 0) with 1. rewrite Z.mul_1_r. f_equal.
    apply rsum_ext. intros j _. rewrite Nat2Z.inj_succ, Z.pow_succ_r by lia. ring.
Qed.

Definition conv (u v : list Z) (i : nat) : Z := rsum (S i) (fun j => nth j u 0 * nth (i - j) v 0).

Lemma conv_high : forall u v i, (length u + length v - 1 <= i)%nat -> conv u v i = 0.
Proof.
  intros u v i H. unfold conv. rewrite (rsum_ext _ _ (fun _ => 0)), rsum_0; [reflexivity|].
  intros j Hj. destruct (Nat.lt_ge_cases j (length u)).
  - rewrite (nth_overflow v) by lia. ring.
  - rewrite (nth_overflow u) by lia. ring.
Qed.

Lemma rsum_add : forall n g h, rsum n (fun j => g j + h j) = rsum n g + rsum n h.
Proof. induction n; intros; [reflexivity|]. rewrite !rsum_S, IHn. ring. Qed.

Lemma conv_cons : forall c u v i, conv (c :: u) v i =
  c * nth i v 0 + match i with O => 0 | S i' => conv u v i' end.
Proof.
  intros. unfold conv. rewrite rsum_shift. cbn [nth]. rewrite Nat.sub_0_r. f_equal.
  destruct i as [|i]; [reflexivity|]. apply rsum_ext. reflexivity.
Qed.

Lemma conv_horner : forall x v u n, (length u + length v - 1 <= n)%nat ->
  rsum n (fun i => conv u v i * x ^ Z.of_nat i) = horner x u * horner x v.
Proof.
  intros x v. induction u as [|c u IH]; intros n H.
  - rewrite (rsum_ext _ _ (fun _ => 0)), rsum_0; [cbn; ring|]. intros j _.
    unfold conv. rewrite (rsum_ext _ _ (fun _ => 0)), rsum_0; [ring|]. intros [|?] _; cbn; ring.
  - rewrite horner_cons. cbn [length] in H.
    rewrite (rsum_ext _ _ (fun i => c * (nth i v 0 * x ^ Z.of_nat i) +
       (match i with O => 0 | S i' => conv u v i' end) * x ^ Z.of_nat i)).
    2: { intros j _. rewrite conv_cons. ring. }
    rewrite rsum_add, rsum_scal, <- horner_rsum by lia.
    destruct n as [|n].
    + destruct u; destruct v; cbn in H; try lia. cbn. ring.
    + rewrite rsum_shift, Z.mul_0_l, Z.add_0_l.
      rewrite (rsum_ext _ _ (fun i => x * (conv u v i * x ^ Z.of_nat i))).
      2: { intros j _. rewrite Nat2Z.inj_succ, Z.pow_succ_r by lia. ring. }
      rewrite rsum_scal, IH by lia. ring.
Qed.

Lemma traverse_seq : forall (A : Type) (f : nat -> res A) (P : nat -> A -> Prop) n s,
  (forall i, (s <= i < s + n)%nat -> exists c, f i = Ok c /\ P i c) ->
  exists l, traverse f (seq s n) = Ok l /\ length l = n /\
    forall i, (i < n)%nat -> exists c, nth_error l i = Some c /\ P (s + i)%nat c.
Proof.
  induction n; intros s H; cbn [seq traverse].
  - exists []. repeat split; auto. intros; lia.
  - destruct (H s) as (c & E & Hc); [lia|].
    destruct (IHn (S s)) as (l & El & Ll & Hl); [intros; apply H; lia|].
    rewrite E, El. cbn [bind]. exists (c :: l). repeat split; [cbn; lia|]. intros [|i] Hi.
    + exists c. rewrite Nat.add_0_r. auto.
    + destruct (Hl i) as (d & Ed & Hd); [lia|]. exists d. split; [exact Ed|].
      replace (s + S i)%nat with (S s + i)%nat by lia. exact Hd.
Qed.

Definition mul_good (a : mz) : Prop := forall b, nonempty b ->
  exists c, mz_mul a b = Ok c /\ nonempty c /\ forall rho k, value rho k c = value rho k a * value rho k b.

Lemma nth_map_value : forall rho k l i, nth i (map (value rho k) l) 0 = value rho k (nth i l (MZ 0)).
Proof. intros. change 0 with (value rho k (MZ 0)) at 1. apply map_nth. Qed.

Lemma nth_nonempty : forall l i, Forall nonempty l -> nonempty (nth i l (MZ 0)).
Proof.
  intros l i H. destruct (nth_in_or_default i l (MZ 0)) as [Hin| ->]; [|constructor].
  rewrite Forall_forall in H. auto.
Qed.

Lemma mul_ok : forall a, nonempty a -> mul_good a.
Proof.
  induction a as [x|la IH] using mz_ind'; intros Ha b Hb.
  - cbn [mz_mul]. eexists; split; [reflexivity|]. split; [apply unary_nonempty; assumption|].
    intros. rewrite (unary_linear _ x) by (intro; ring). reflexivity.
  - destruct b as [y|lb].
    + cbn [mz_mul]. eexists; split; [reflexivity|].
      split; [apply (unary_nonempty (fun z => z * y)) in Ha; exact Ha|].
      intros rho k. change (MA (map (unary (fun z : Z => z * y)) la)) with (unary (fun z => z * y) (MA la)).
      rewrite (unary_linear _ y) by (intro; ring). cbn [value]. ring.
    + inversion Ha as [|? La Fa]; subst. inversion Hb as [|? Lb Fb]; subst. cbn [mz_mul].
      set (fs := map (fun x => mz_mul x) la).
      assert (T : forall j b, nonempty b -> exists c,
        nth j fs (fun b => Ok (unary (fun z => z * 0) b)) b = Ok c /\ nonempty c /\
        forall rho k, value rho k c = value rho k (nth j la (MZ 0)) * value rho k b).
      { intros j b Nb. unfold fs.
        replace (nth j (map (fun x => mz_mul x) la) (fun b : mz => Ok (unary (fun z => z * 0) b)))
          with (mz_mul (nth j la (MZ 0))) by (symmetry; exact (map_nth mz_mul la (MZ 0) j)).
        destruct (nth_in_or_default j la (MZ 0)) as [Hin| ->].
        - rewrite Forall_forall in IH, Fa. apply (IH _ Hin (Fa _ Hin) b Nb).
        - cbn [mz_mul]. eexists; split; [reflexivity|]. split; [apply unary_nonempty; assumption|].
          intros. rewrite (unary_linear _ 0) by (intro; ring). reflexivity. }
      assert (I : forall i, exists c,
        fold_left (fun acc j => z <- acc ;;
          y <- nth j fs (fun b => Ok (unary (fun z => z * 0) b)) (nth (i - j) lb (MZ 0)) ;;
          mz_add z y) (seq 0 (i + 1)) (Ok (MZ 0)) = Ok c /\ nonempty c /\
        forall rho k, value rho k c = conv (map (value rho k) la) (map (value rho k) lb) i).
      { intro i. rewrite Nat.add_1_r. unfold conv.
        assert (Q : forall n, exists c,
          fold_left (fun acc j => z <- acc ;;
            y <- nth j fs (fun b => Ok (unary (fun z => z * 0) b)) (nth (i - j) lb (MZ 0)) ;;
            mz_add z y) (seq 0 n) (Ok (MZ 0)) = Ok c /\ nonempty c /\
          forall rho k, value rho k c =
            rsum n (fun j => nth j (map (value rho k) la) 0 * nth (i - j) (map (value rho k) lb) 0)).
        { induction n as [|n (c & E & Nc & V)].
          - exists (MZ 0). repeat split; constructor.
          - rewrite seq_S, fold_left_app, E. cbn [fold_left bind Nat.add].
            destruct (T n (nth (i - n) lb (MZ 0)) (nth_nonempty _ _ Fb)) as (d & Ed & Nd & Vd).
            rewrite Ed. cbn [bind]. destruct (add_ok c d Nc Nd) as (e & Ee & Ne & Ve).
            exists e. repeat split; auto. intros rho k. rewrite Ve, rsum_S, V, Vd, !nth_map_value.
            reflexivity. }
        apply Q. }
      destruct (traverse_seq mz _ (fun i c => nonempty c /\
        forall rho k, value rho k c = conv (map (value rho k) la) (map (value rho k) lb) i)
        (length la + length lb - 1) 0 (fun i _ => I i)) as (l & El & Ll & Hl).
      rewrite El. cbn [bind]. eexists; split; [reflexivity|]. split.
      * constructor.
        -- destruct la; [congruence|]. destruct lb; [congruence|]. destruct l; [cbn in Ll; lia|discriminate].
        -- apply Forall_forall. intros c Hc. apply In_nth_error in Hc. destruct Hc as (i & Hi).
           assert (i < length l)%nat by (apply nth_error_Some; congruence).
           destruct (Hl i) as (d & Ed & Nd & _); [lia|]. congruence.
      * intros rho k. rewrite !value_MA. set (x := rho k).
        rewrite (horner_rsum x _ (length l)) by (rewrite map_length; lia). rewrite Ll.
        rewrite <- (conv_horner x _ _ (length la + length lb - 1)) by (rewrite !map_length; lia).
        apply rsum_ext. intros i Hi. f_equal. destruct (Hl i Hi) as (d & Ed & _ & Vd).
        rewrite nth_map_value, (nth_error_nth _ _ (MZ 0) Ed), Vd. reflexivity.
Qed.

(** ** Statements at the top level *)
Lemma add_exact : forall a b, nonempty a -> nonempty b ->
  exists c, mz_add a b = Ok c /\ nonempty c /\ forall rho, eval rho c = eval rho a + eval rho b.
Proof.
  intros a b Ha Hb. destruct (add_ok a b Ha Hb) as (c & E & N & V). exists c. repeat split; auto.
  intro. apply V.
Qed.

Lemma mul_exact : forall a b, nonempty a -> nonempty b ->
  exists c, mz_mul a b = Ok c /\ nonempty c /\ forall rho, eval rho c = eval rho a * eval rho b.
Proof.
  intros a b Ha Hb. destruct (mul_ok a Ha b Hb) as (c & E & N & V). exists c. repeat split; auto.
  intro. apply V.
Qed.

Lemma neg_exact : forall a, (nonempty a -> nonempty (mz_neg a)) /\ forall rho, eval rho (mz_neg a) = - eval rho a.
Proof.
  intro a. split; [apply unary_nonempty|]. intro. unfold mz_neg, eval.
  rewrite (unary_linear _ (-1)) by (intro; ring). ring.
Qed.

Lemma mul_z_exact : forall a n, (nonempty a -> nonempty (mz_mul_z a n)) /\
  forall rho, eval rho (mz_mul_z a n) = n * eval rho a.
Proof.
  intros a n. split; [apply unary_nonempty|]. intro. unfold mz_mul_z, eval.
  rewrite (unary_linear _ n) by (intro; ring). ring.
Qed.

Lemma first_leaf_const : forall a, nonempty a -> first_leaf a = Ok (eval (fun _ => 0) a).
Proof.
  unfold eval. generalize 0%nat as k. intros k a. revert k.
  induction a as [z|l IH] using mz_ind'; intros k H; [reflexivity|].
  inversion H as [|? Hl HF]; subst. destruct l as [|x t]; [congruence|].
  inversion IH; subst. inversion HF; subst. cbn [first_leaf]. rewrite (H2 (S k)) by assumption.
  rewrite value_MA. cbn [map]. rewrite horner_cons. f_equal. ring.
Qed.

(** ** Subtraction *)
Scheme aligned_mut := Induction for aligned Sort Prop
  with aligned_list_mut := Induction for aligned_list Sort Prop.

Lemma sub_aligned : forall a b, aligned a b -> exists c, mz_sub a b = Ok c /\
  forall rho k, value rho k c = value rho k a - value rho k b.
Proof.
  unfold mz_sub.
  apply (aligned_mut
    (fun a b _ => exists c, bin Z.sub a b = Ok c /\
       forall rho k, value rho k c = value rho k a - value rho k b)
    (fun la lb _ => exists l, bin_list Z.sub la lb = Ok l /\
       forall rho k x, horner x (map (value rho k) l) =
         horner x (map (value rho k) la) - horner x (map (value rho k) lb))).
  - intros x y. eexists; split; reflexivity.
  - intros l l' _ (m & E & V). rewrite bin_MA, E. cbn [bind]. eexists; split; [reflexivity|].
    intros rho k. rewrite !value_MA. apply V.
  - exists []. split; reflexivity.
  - intros z l _ (m & E & V). cbn [bin_list bin bin_int bind]. rewrite E. cbn [bind].
    eexists; split; [reflexivity|]. intros rho k x. cbn [map]. rewrite !horner_cons, V. cbn. ring.
  - intros z l _ (m & E & V). cbn [bin_list traverse bin_int bind] in *. rewrite E. cbn [bind].
    eexists; split; [reflexivity|]. intros rho k x. cbn [map]. rewrite !horner_cons, V.
    cbn [map horner fold_right value]. ring.
  - intros x y l l' _ (c & Ec & Vc) _ (m & E & V). cbn [bin_list]. rewrite Ec. cbn [bind]. rewrite E.
    cbn [bind]. eexists; split; [reflexivity|]. intros rho k z. cbn [map].
    rewrite !horner_cons, V, Vc. ring.
Qed.

Lemma sub_exact : forall a b, aligned a b ->
  exists c, mz_sub a b = Ok c /\ forall rho, eval rho c = eval rho a - eval rho b.
Proof.
  intros a b H. destruct (sub_aligned a b H) as (c & E & V). exists c. split; auto. intro; apply V.
Qed.

(** Subtracting an integer from a list negates the integer's effect. *)
Lemma sub_list_int : forall l y, nonempty (MA l) -> exists c, mz_sub (MA l) (MZ y) = Ok c /\
  eval (fun _ => 0) c = y - eval (fun _ => 0) (MA l).
Proof.
  intros l y H. unfold mz_sub. cbn [bin]. rewrite clone_id. unfold eval. generalize 0%nat as k.
  enough (G : forall a k, nonempty a -> exists c, at_leaf (fun z => y - z) a = Ok c /\
    value (fun _ => 0) k c = y - value (fun _ => 0) k a) by (intro; auto).
  induction a as [z|t IH] using mz_ind'; intros k N.
  - eexists; split; reflexivity.
  - inversion N as [|? Hl HF]; subst. destruct t as [|x t]; [congruence|].
    inversion IH; subst. inversion HF; subst. destruct (H2 (S k)) as (c & E & V); [assumption|].
    cbn [at_leaf]. rewrite E. cbn [bind]. eexists; split; [reflexivity|].
    rewrite !value_MA. cbn [map]. rewrite !horner_cons, V. ring.
Qed.

(** ** Comparison *)
Fixpoint cmp_list (la lb : list mz) : res Z :=
  match la, lb with
  | a' :: la', b' :: lb' => i <- cmp_list la' lb' ;; if i =? 0 then mz_cmp a' b' else Ok i
  | _, _ => Ok 0
  end.

Lemma cmp_MA : forall la lb, length la = length lb -> mz_cmp (MA la) (MA lb) = cmp_list la lb.
Proof.
  intros la lb H. cbn [mz_cmp]. rewrite H, Nat.ltb_irrefl. clear H. revert lb.
  induction la as [|a la IH]; intros [|b lb]; cbn [cmp_list]; try reflexivity; rewrite IH; reflexivity.
Qed.

Lemma cmp_same_shape : forall a b, same_shape a b ->
  exists i, mz_cmp a b = Ok i /\ (i = 0 <-> a = b).
Proof.
  induction a as [x|la IH] using mz_ind'; intros b H; inversion H as [? y|? lb HF]; subst.
  - exists (zcmp x y). split; [reflexivity|]. unfold zcmp. split; intro E.
    + f_equal. lia.
    + injection E as ->. lia.
  - rewrite cmp_MA by (clear - HF; induction HF; cbn; congruence).
    enough (G : exists i, cmp_list la lb = Ok i /\ (i = 0 <-> la = lb)).
    { destruct G as (i & E & G). exists i. split; [exact E|]. rewrite G. split; congruence. }
    clear H. revert lb HF. induction la as [|a la IHl]; intros lb HF; inversion HF; subst; cbn [cmp_list].
    + exists 0. split; [reflexivity|]. tauto.
    + match goal with Hxy : same_shape a ?y, Hll : Forall2 same_shape la ?t |- _ => rename y into b, t into lb, Hxy into Sh, Hll into Shl end.
      inversion IH as [|? ? IHa IHt]; subst. destruct (IHl IHt _ Shl) as (i & E & G). rewrite E. cbn [bind].
      destruct (Z.eqb_spec i 0) as [->|Hi].
      * destruct (IHa _ Sh) as (j & Ej & Gj). exists j. split; [exact Ej|]. rewrite Gj.
        assert (la = lb) by (apply G; reflexivity). split; congruence.
      * exists i. split; [reflexivity|]. split; [tauto|]. intro Q. injection Q as Q1 Q2. tauto.
Qed.

(** Comparing in the other order gives the opposite answer. *)
Lemma cmp_antisym : forall a b i, mz_cmp a b = Ok i -> mz_cmp b a = Ok (- i).
Proof.
  induction a as [x|la IH] using mz_ind'; intros [y|lb] i H.
  - cbn [mz_cmp] in *. injection H as <-. unfold zcmp. f_equal. lia.
  - cbn [mz_cmp] in *. destruct (last_leaf (MA lb)); cbn [bind] in *; try discriminate.
    injection H as <-. f_equal. lia.
  - cbn [mz_cmp] in *. destruct (last_leaf (MA la)); cbn [bind] in *; try discriminate.
    injection H as <-. reflexivity.
  - destruct (lt_eq_lt_dec (length la) (length lb)) as [[L|L]|L].
    + cbn [mz_cmp] in H |- *. apply Nat.ltb_lt in L as L1. rewrite L1.
      assert (L2 : (length lb <? length la)%nat = false) by (apply Nat.ltb_ge; lia). rewrite L2 in H.
      rewrite L1 in H. destruct (last_leaf (MA lb)); cbn [bind] in *; try discriminate.
      injection H as <-. f_equal. lia.
    + rewrite cmp_MA in H |- * by congruence. revert lb i L H.
      induction la as [|a la IHl]; intros [|b lb] i L H; cbn [cmp_list] in *; try discriminate.
      * injection H as <-. reflexivity.
      * inversion IH as [|? ? IHa IHt]; subst. destruct (cmp_list la lb) as [j| | |] eqn:E; cbn [bind] in *; try discriminate.
        rewrite (IHl IHt lb j) by (congruence || (cbn in L; lia)). cbn [bind].
        destruct (Z.eqb_spec j 0) as [->|Hj].
        -- cbn. auto.
        -- destruct (Z.eqb_spec (- j) 0); [lia|]. injection H as <-. reflexivity.
    + cbn [mz_cmp] in H |- *. apply Nat.ltb_lt in L as L1. rewrite L1 in H |- *.
      assert (L2 : (length la <? length lb)%nat = false) by (apply Nat.ltb_ge; lia). rewrite L2.
      destruct (last_leaf (MA la)); cbn [bind] in *; try discriminate.
      injection H as <-. reflexivity.
Qed.

(** ** Witnesses *)
Definition sample : mz := MA [MA [MZ 1; MZ 2]; MZ 3; MA [MZ 4; MA [MZ 5; MZ 6]]].

Lemma sample_ok : nonempty sample /\
  (forall rho, eval rho sample = (1 + 2 * rho 1%nat) + 3 * rho 0%nat +
     (4 + (5 + 6 * rho 2%nat) * rho 1%nat) * (rho 0%nat * rho 0%nat)) /\
  mz_add sample (MZ 7) = Ok (MA [MA [MZ 8; MZ 2]; MZ 3; MA [MZ 4; MA [MZ 5; MZ 6]]]) /\
  mz_mul (MA [MZ 1; MZ 2]) (MA [MZ 3; MA [MZ 0; MZ 1]]) = Ok (MA [MZ 3; MA [MZ 6; MZ 1]; MA [MZ 0; MZ 2]]) /\
  aligned (MA [MZ 1; MA [MZ 2]; MZ 3]) (MA [MZ 4; MA [MZ 5]]).
Proof.
  split; [repeat (constructor; try discriminate)|]. split; [intro; cbn -[Z.mul Z.add]; ring|]. split; [reflexivity|].
  split; [reflexivity|]. repeat constructor.
Qed.

Lemma sub_wrong : exists a b c rho, nonempty a /\ nonempty b /\ mz_sub a b = Ok c /\
  eval rho c <> eval rho a - eval rho b.
Proof.
  exists (MZ 0), (MA [MZ 0; MZ 1]), (MA [MZ 0; MZ 1]), (fun _ => 1).
  repeat split; try (repeat (constructor; try discriminate)). cbn. lia.
Qed.

Lemma cmp_wrong : nonempty (MA [MZ 0]) /\ mz_cmp (MZ 5) (MA [MZ 0]) = Ok 0 /\
  eval (fun _ => 0) (MZ 5) <> eval (fun _ => 0) (MA [MZ 0]) /\
  eval (fun _ => 0) (MA [MZ 0]) = 0 /\ mz_is0 (MA [MZ 0]) = false.
Proof. repeat split; try (repeat (constructor; try discriminate)). cbn. discriminate. Qed.
