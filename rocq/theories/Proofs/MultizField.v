(** Arithmetic on nested integer lists agrees with arithmetic on their values
    in any field (compare MultizFacts.v, over the integers). *)
From Coq Require Import ZArith List Bool Lia Ring Field.
From Verif.Base Require Import Outcome Algebra Slots.
From Verif.Spec Require Import Multiz SetMultiz.
From Verif.Model Require Import Multiz.
From Verif.Proofs Require Import FieldFacts SlotFacts MultizFacts.
Import ListNotations.
Open Scope Z_scope.

Section L.
Variable L : fld.
Hypothesis HL : fld_laws L.
Add Field LFmz : (fl_field L HL).
Local Notation value := (mvalue L).
Declare Scope lf_scope.
Delimit Scope lf_scope with l.
Local Notation "0" := (@f0 L) : lf_scope.
Local Notation "1" := (@f1 L) : lf_scope.
Local Notation "x + y" := (@fadd L x y) : lf_scope.
Local Notation "x * y" := (@fmul L x y) : lf_scope.
Local Notation "- x" := (@fopp L x) : lf_scope.
Fixpoint pwr (x : L) (n : nat) : L := match n with O => 1%l | S n => (x * pwr x n)%l end.
Lemma z_add : forall n m, fofz (n + m) = (fofz n + fofz m)%l. Proof. exact (fofz_add L HL). Qed.
Lemma z_mul : forall n m, fofz (n * m) = (fofz n * fofz m)%l. Proof. exact (fofz_mul L HL). Qed.
Lemma z_0 : fofz 0 = (0 : L)%l. Proof. reflexivity. Qed.

Definition horn (x : L) (l : list L) : L := fold_right (fun c s => c + x * s)%l 0%l l.
Lemma mvalue_MA : forall rho k l, value rho k (MA l) = horn (rho k) (map (value rho (S k)) l).
Proof. reflexivity. Qed.
Lemma horn_cons : forall x c l, horn x (c :: l) = (c + x * horn x l)%l.
Proof. reflexivity. Qed.

Lemma munary_linear : forall (f : Z -> Z) (c : L), (forall z, fofz (f z) = (c * fofz z)%l) ->
  forall a rho k, value rho k (unary f a) = (c * value rho k a)%l.
Proof.
  intros f c Hf. induction a as [z|l IH] using mz_ind'; intros rho k; cbn [unary].
  - cbn [mvalue]. apply Hf.
  - rewrite !mvalue_MA, map_map. generalize (rho k) as x. intro x.
    induction IH as [|y t Hy _ IHt]; cbn [map]; rewrite ?horn_cons.
    + cbn. ring.
    + rewrite Hy, IHt. ring.
Qed.

(** ** Addition *)
Lemma mat_leaf_ok : forall g (d : L), (forall z, fofz (g z) = (fofz z + d)%l) -> forall a, nonempty a ->
  exists c, at_leaf g a = Ok c /\ nonempty c /\ forall rho k, value rho k c = (value rho k a + d)%l.
Proof.
  intros g d Hg. induction a as [z|l IH] using mz_ind'; intro H.
  - exists (MZ (g z)). repeat split; [constructor|]. intros; cbn [mvalue]. apply Hg.
  - inversion H as [|l' Hl HF]; subst. destruct l as [|x t]; [congruence|].
    inversion IH as [|? ? Hx _]; subst. inversion HF as [|? ? Nx Nt]; subst.
    destruct (Hx Nx) as (c & E & Nc & V). cbn [at_leaf]. rewrite E. cbn [bind].
    eexists; split; [reflexivity|]. split.
    + constructor; [discriminate|]. constructor; auto.
    + intros rho k. rewrite !mvalue_MA. cbn [map]. rewrite !horn_cons, V. ring.
Qed.
Lemma mbin_int_add : forall x b, nonempty b ->
  exists c, bin_int Z.add x b = Ok c /\ nonempty c /\ forall rho k, value rho k c = (fofz x + value rho k b)%l.
Proof.
  intros x [y|l] H; cbn [bin_int].
  - eexists; split; [reflexivity|]. split; [constructor|]. intros; cbn [mvalue]. apply z_add.
  - rewrite clone_id.
    destruct (mat_leaf_ok (fun z => x + z) (fofz x) ltac:(intro; rewrite z_add; ring) (MA l) H) as (c & E & Nc & V).
    exists c. repeat split; auto. intros. rewrite V. ring.
Qed.
Lemma mtraverse_zero : forall rho k lb, Forall nonempty lb ->
  exists l, traverse (bin_int Z.add 0) lb = Ok l /\ Forall nonempty l /\ length l = length lb /\
    map (value rho k) l = map (value rho k) lb.
Proof.
  intros rho k. induction lb as [|b lb IH]; intro H; cbn [traverse].
  - exists []. auto.
  - inversion H; subst. destruct (mbin_int_add 0 b) as (c & E & Nc & V); [assumption|].
    destruct IH as (l & El & Nl & Ll & Vl); [assumption|].
    rewrite E, El. cbn [bind]. exists (c :: l). repeat split; [constructor; auto|cbn; congruence|].
    cbn [map]. rewrite V, Vl, z_0. f_equal. ring.
Qed.
Lemma madd_int_r : forall a y, nonempty a ->
  exists c, bin Z.add a (MZ y) = Ok c /\ nonempty c /\ forall rho k, value rho k c = (value rho k a + fofz y)%l.
Proof.
  intros [x|l] y H; cbn [bin].
  - cbn [bin_int]. eexists; split; [reflexivity|]. split; [constructor|]. intros; cbn [mvalue]. apply z_add.
  - rewrite clone_id. apply mat_leaf_ok; [intro; rewrite z_add; ring|assumption].
Qed.
Lemma madd_ok : forall a b, nonempty a -> nonempty b ->
  exists c, mz_add a b = Ok c /\ nonempty c /\ forall rho k, value rho k c = (value rho k a + value rho k b)%l.
Proof.
  unfold mz_add. induction a as [x|la IH] using mz_ind'; intros b Ha Hb.
  - apply mbin_int_add; assumption.
  - destruct b as [y|lb]; [apply madd_int_r; assumption|].
    inversion Ha as [|? La Fa]; subst. inversion Hb as [|? Lb Fb]; subst. rewrite bin_MA.
    assert (G : exists l, bin_list Z.add la lb = Ok l /\ Forall nonempty l /\
      (length la <= length l)%nat /\
      forall rho k x, horn x (map (value rho k) l) =
        (horn x (map (value rho k) la) + horn x (map (value rho k) lb))%l).
    { clear La Lb Ha Hb. revert lb Fb. induction la as [|a la IHl]; intros lb Fb; cbn [bin_list].
      - destruct (mtraverse_zero (fun _ => 0%l) 0%nat lb Fb) as (l & El & Nl & Ll & _).
        exists l. repeat split; auto; [cbn; lia|]. intros rho k x.
        destruct (mtraverse_zero rho k lb Fb) as (l2 & El2 & _ & _ & V). rewrite El in El2.
        injection El2 as <-. rewrite V. cbn [map horn fold_right]. ring.
      - inversion IH as [|? ? IHa IHt]; subst. inversion Fa as [|? ? Na Nt]; subst.
        destruct lb as [|b lb].
        + destruct (madd_int_r a 0 Na) as (c & E & Nc & V).
          destruct (IHl IHt Nt [] (Forall_nil _)) as (l & El & Nl & Ll & Vl).
          rewrite E, El. cbn [bind]. exists (c :: l). repeat split; [constructor; auto|cbn; lia|].
          intros rho k x. cbn [map]. rewrite !horn_cons, V, Vl, z_0. cbn [map horn fold_right]. ring.
        + inversion Fb as [|? ? Nb Nbt]; subst.
          destruct (IHa b Na Nb) as (c & E & Nc & V).
          destruct (IHl IHt Nt lb Nbt) as (l & El & Nl & Ll & Vl).
          rewrite E, El. cbn [bind]. exists (c :: l). repeat split; [constructor; auto|cbn; lia|].
          intros rho k x. cbn [map]. rewrite !horn_cons, V, Vl. ring. }
    destruct G as (l & El & Nl & Ll & V). rewrite El. cbn [bind]. eexists; split; [reflexivity|]. split.
    + constructor; [|assumption]. destruct la; [congruence|]. destruct l; [cbn in Ll; lia|discriminate].
    + intros rho k. rewrite !mvalue_MA. apply V.
Qed.

(** ** Multiplication *)
Definition fsum (n : nat) (g : nat -> L) : L := fold_left (fun s j => s + g j)%l (seq 0 n) 0%l.
Lemma fsum_S : forall n g, fsum (S n) g = (fsum n g + g n)%l.
Proof. intros. unfold fsum. rewrite seq_S, fold_left_app. reflexivity. Qed.
Lemma fsum_ext : forall n g h, (forall j, (j < n)%nat -> g j = h j) -> fsum n g = fsum n h.
Proof. induction n; intros g h H; [reflexivity|]. rewrite !fsum_S, (IHn g h), (H n); auto. Qed.
Lemma fsum_scal : forall c n g, fsum n (fun j => c * g j)%l = (c * fsum n g)%l.
Proof. induction n; intros; [cbn; ring|]. rewrite !fsum_S, IHn. ring. Qed.
Lemma fsum_0 : forall n, fsum n (fun _ => 0%l) = 0%l.
Proof. induction n; [reflexivity|]. rewrite fsum_S, IHn. ring. Qed.
Lemma fsum_shift : forall n g, fsum (S n) g = (g 0%nat + fsum n (fun j => g (S j)))%l.
Proof. induction n; intro g; [cbn; ring|]. rewrite fsum_S, IHn, fsum_S. ring. Qed.
Lemma fsum_add : forall n g h, fsum n (fun j => g j + h j)%l = (fsum n g + fsum n h)%l.
Proof. induction n; intros; [cbn; ring|]. rewrite !fsum_S, IHn. ring. Qed.
Lemma horn_fsum : forall x l n, (length l <= n)%nat -> horn x l = fsum n (fun i => nth i l 0 * pwr x i)%l.
Proof.
  intros x. induction l as [|c l IH]; intros n H.
  - cbn [horn fold_right]. rewrite (fsum_ext n _ (fun _ => 0%l)), fsum_0; [reflexivity|]. intros [|j] _; cbn [nth]; ring.
  - destruct n as [|n]; [cbn in H; lia|]. rewrite horn_cons, fsum_shift, (IH n) by (cbn in H; lia).
    cbn [nth]. rewrite <- fsum_scal. cbn [pwr]. replace (c * 1)%l with c by ring. f_equal.
    apply fsum_ext. intros j _. ring.
Qed.
Definition fconv (u v : list L) (i : nat) : L := fsum (S i) (fun j => nth j u 0 * nth (i - j) v 0)%l.
Lemma fconv_cons : forall c u v i, fconv (c :: u) v i =
  (c * nth i v 0 + match i with O => 0 | S i' => fconv u v i' end)%l.
Proof.
  intros. unfold fconv. rewrite fsum_shift. cbn [nth]. rewrite Nat.sub_0_r. f_equal.
  destruct i as [|i]; [reflexivity|]. apply fsum_ext. reflexivity.
Qed.
Lemma fconv_horn : forall x v u n, (length u + length v - 1 <= n)%nat ->
  fsum n (fun i => fconv u v i * pwr x i)%l = (horn x u * horn x v)%l.
Proof.
  intros x v. induction u as [|c u IH]; intros n H.
  - rewrite (fsum_ext _ _ (fun _ => 0%l)), fsum_0; [cbn; ring|]. intros j _.
    unfold fconv. rewrite (fsum_ext _ _ (fun _ => 0%l)), fsum_0; [ring|]. intros [|?] _; cbn [nth]; ring.
  - rewrite horn_cons. cbn [length] in H.
    rewrite (fsum_ext _ _ (fun i => c * (nth i v 0 * pwr x i) +
       (match i with O => 0 | S i' => fconv u v i' end) * pwr x i)%l).
    2: { intros j _. rewrite fconv_cons. ring. }
    rewrite fsum_add, fsum_scal, <- horn_fsum by lia.
    destruct n as [|n].
    + destruct u; destruct v; cbn in H; try lia. cbn. ring.
    + rewrite fsum_shift.
      rewrite (fsum_ext n (fun j => fconv u v j * pwr x (S j))%l (fun i => x * (fconv u v i * pwr x i))%l).
      2: { intros j _. cbn [pwr]. ring. }
      rewrite fsum_scal, IH by lia. ring.
Qed.
Lemma mnth_map_value : forall rho k l i, nth i (map (value rho k) l) 0%l = value rho k (nth i l (MZ 0)).
Proof. intros. exact (map_nth (value rho k) l (MZ 0) i). Qed.
Lemma mmul_ok : forall a, nonempty a -> forall b, nonempty b ->
  exists c, mz_mul a b = Ok c /\ nonempty c /\ forall rho k, value rho k c = (value rho k a * value rho k b)%l.
Proof.
  induction a as [x|la IH] using mz_ind'; intros Ha b Hb.
  - cbn [mz_mul]. eexists; split; [reflexivity|]. split; [apply unary_nonempty; assumption|].
    intros. rewrite (munary_linear _ (fofz x)) by (intro; rewrite z_mul; ring). reflexivity.
  - destruct b as [y|lb].
    + cbn [mz_mul]. eexists; split; [reflexivity|].
      split; [apply (unary_nonempty (fun z => z * y)) in Ha; exact Ha|].
      intros rho k. change (MA (map (unary (fun z : Z => z * y)) la)) with (unary (fun z => z * y) (MA la)).
      rewrite (munary_linear _ (fofz y)) by (intro; rewrite z_mul; ring). cbn [mvalue]. ring.
    + inversion Ha as [|? La Fa]; subst. inversion Hb as [|? Lb Fb]; subst. cbn [mz_mul].
      set (fs := map (fun x => mz_mul x) la).
      assert (T : forall j b, nonempty b -> exists c,
        nth j fs (fun b => Ok (unary (fun z => z * 0) b)) b = Ok c /\ nonempty c /\
        forall rho k, value rho k c = (value rho k (nth j la (MZ 0)) * value rho k b)%l).
      { intros j b Nb. unfold fs.
        replace (nth j (map (fun x => mz_mul x) la) (fun b : mz => Ok (unary (fun z => z * 0) b)))
          with (mz_mul (nth j la (MZ 0))) by (symmetry; exact (map_nth mz_mul la (MZ 0) j)).
        destruct (nth_in_or_default j la (MZ 0)) as [Hin| ->].
        - rewrite Forall_forall in IH, Fa. apply (IH _ Hin (Fa _ Hin) b Nb).
        - cbn [mz_mul]. eexists; split; [reflexivity|]. split; [apply unary_nonempty; assumption|].
          intros. rewrite (munary_linear _ (fofz 0)) by (intro; rewrite z_mul; ring). reflexivity. }
      assert (I : forall i, exists c,
        fold_left (fun acc j => z <- acc ;;
          y <- nth j fs (fun b => Ok (unary (fun z => z * 0) b)) (nth (i - j) lb (MZ 0)) ;;
          mz_add z y) (seq 0 (i + 1)) (Ok (MZ 0)) = Ok c /\ nonempty c /\
        forall rho k, value rho k c = fconv (map (value rho k) la) (map (value rho k) lb) i).
      { intro i. rewrite Nat.add_1_r. unfold fconv.
        assert (Q : forall n, exists c,
          fold_left (fun acc j => z <- acc ;;
            y <- nth j fs (fun b => Ok (unary (fun z => z * 0) b)) (nth (i - j) lb (MZ 0)) ;;
            mz_add z y) (seq 0 n) (Ok (MZ 0)) = Ok c /\ nonempty c /\
          forall rho k, value rho k c =
            fsum n (fun j => nth j (map (value rho k) la) 0 * nth (i - j) (map (value rho k) lb) 0)%l).
        { induction n as [|n (c & E & Nc & V)].
          - exists (MZ 0). repeat split; constructor.
          - rewrite seq_S, fold_left_app, E. cbn [fold_left bind Nat.add].
            destruct (T n (nth (i - n) lb (MZ 0)) (nth_nonempty _ _ Fb)) as (d & Ed & Nd & Vd).
            rewrite Ed. cbn [bind]. destruct (madd_ok c d Nc Nd) as (e & Ee & Ne & Ve).
            exists e. repeat split; auto. intros rho k. rewrite Ve, fsum_S, V, Vd, !mnth_map_value.
            reflexivity. }
        apply Q. }
      destruct (traverse_seq mz _ (fun i c => nonempty c /\
        forall rho k, value rho k c = fconv (map (value rho k) la) (map (value rho k) lb) i)
        (length la + length lb - 1) 0 (fun i _ => I i)) as (l & El & Ll & Hl).
      rewrite El. cbn [bind]. eexists; split; [reflexivity|]. split.
      * constructor.
        -- destruct la; [congruence|]. destruct lb; [congruence|]. destruct l; [cbn in Ll; lia|discriminate].
        -- apply Forall_forall. intros c Hc. apply In_nth_error in Hc. destruct Hc as (i & Hi).
           assert (i < length l)%nat by (apply nth_error_Some; congruence).
           destruct (Hl i) as (d & Ed & Nd & _); [lia|]. congruence.
      * intros rho k. rewrite !mvalue_MA. set (x := rho k).
        rewrite (horn_fsum x _ (length l)) by (rewrite map_length; lia). rewrite Ll.
        rewrite <- (fconv_horn x _ _ (length la + length lb - 1)) by (rewrite !map_length; lia).
        apply fsum_ext. intros i Hi. f_equal. destruct (Hl i Hi) as (d & Ed & _ & Vd).
        rewrite mnth_map_value, (nth_error_nth _ _ (MZ 0) Ed), Vd. reflexivity.
Qed.
Lemma mneg_ok : forall a rho k, value rho k (mz_neg a) = (- value rho k a)%l.
Proof.
  intros. unfold mz_neg. rewrite (munary_linear _ (fofz (-1))); [cbn; ring | ].
  intro z. rewrite <- z_mul. apply f_equal. ring.
Qed.
Lemma mneg_nonempty : forall a, nonempty a -> nonempty (mz_neg a). Proof. apply unary_nonempty. Qed.
End L.
