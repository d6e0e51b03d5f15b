(** Finite groups of points: multiplication by the order, subgroups, cyclic
    torsion. *)
From Coq Require Import ZArith Znumtheory List Bool Lia Permutation Ring Field.
From Verif.Base Require Import Outcome Algebra Slots.
From Verif.Spec Require Import Curve.
From Verif.Proofs Require Import FieldFacts SlotFacts CurveGroup CurveFacts.
Import ListNotations.

Lemma NoDup_app_ok : forall {A} (l l' : list A), NoDup l -> NoDup l' -> (forall x, In x l -> In x l' -> False) -> NoDup (l ++ l').
Proof.
  induction 1 as [ | x l N _ IH]; intros N' D; cbn [app]; auto. constructor; [ | apply IH; auto; intros y I J; apply (D y); auto; right; auto].
  rewrite in_app_iff. intros [I | I]; auto. apply (D x); auto. left. auto.
Qed.
Section G.
Variable K : fld.
Hypothesis HK : fld_laws K.
Variables a b : K.
Hypothesis HE : elliptic K a b.
Let C2 : f2 K <> f0 := proj1 HE.
Local Notation on := (on_curve K a b).
Local Notation add := (padd K a).
Local Notation mul := (pmul K a).
Lemma g_dec : forall A B : point K, {A = B} + {A <> B}.
Proof. intros. decide equality. decide equality; apply (f_eq_dec K HK). Qed.
Lemma g_assoc : forall A B C, on A -> on B -> on C -> add (add A B) C = add A (add B C). Proof. apply (add_assoc K HK a b C2 (proj2 HE)). Qed.
Lemma g_comm : forall A B, add A B = add B A. Proof. apply (add_comm K HK a). Qed.
Lemma g_on : forall A B, on A -> on B -> on (add A B). Proof. apply (add_on K HK a b C2). Qed.
Lemma g_neg_on : forall A, on A -> on (pneg A). Proof. apply (neg_on K HK a b). Qed.
Lemma g_neg : forall A, add A (pneg A) = None. Proof. apply (add_neg_r K HK a C2). Qed.
Lemma g_mul_on : forall n A, on A -> on (mul n A). Proof. apply (pmul_on K HK a b C2). Qed.
Lemma g_cancel : forall A B C, on A -> on B -> on C -> add A B = add A C -> B = C.
Proof.
  intros A B C HA HB HC E. rewrite <- (add_0_l K a B), <- (add_0_l K a C), <- (g_neg A), (g_comm A).
  rewrite !g_assoc by auto using g_neg_on. rewrite E. reflexivity.
Qed.
Lemma g_opp : forall A B, on A -> on B -> add A B = None -> B = pneg A.
Proof. intros A B HA HB E. apply (g_cancel A); auto using g_neg_on. rewrite E, g_neg. reflexivity. Qed.
Lemma g_plus : forall m n A, on A -> mul (m + n) A = add (mul m A) (mul n A).
Proof. induction m; intros n A H; cbn [Nat.add pmul]; [symmetry; apply add_0_l | ]. rewrite IHm, g_assoc by auto using g_mul_on. reflexivity. Qed.
Lemma g_times : forall m n A, on A -> mul (m * n) A = mul m (mul n A).
Proof. induction m; intros n A H; cbn [Nat.mul pmul]; auto. rewrite g_plus, IHm by auto. reflexivity. Qed.
Lemma g_swap : forall A B C D, on A -> on B -> on C -> on D -> add (add A B) (add C D) = add (add A C) (add B D).
Proof.
  intros A B C D HA HB HC HD. rewrite !g_assoc by auto using g_on. f_equal. rewrite <- !g_assoc by auto. rewrite (g_comm B C). reflexivity.
Qed.
Lemma g_dist : forall n A B, on A -> on B -> mul n (add A B) = add (mul n A) (mul n B).
Proof. induction n; intros A B HA HB; cbn [pmul]; auto. rewrite IHn by auto. apply g_swap; auto using g_mul_on. Qed.
Lemma g_none : forall n, mul n None = None. Proof. induction n; cbn [pmul]; auto. Qed.
Lemma g_mod : forall r n A, on A -> mul r A = None -> mul (n mod r) A = mul n A.
Proof.
  intros r n A H E. destruct (Nat.eq_dec r 0) as [-> | N]; [cbn [Nat.modulo]; reflexivity | ].
  rewrite (Nat.div_mod n r) at 2 by auto. rewrite g_plus by auto. replace (r * (n / r))%nat with (n / r * r)%nat by lia.
  rewrite g_times, E, g_none by auto. symmetry. apply add_0_l.
Qed.

(** multiplication by the number of points *)
Fixpoint psum (l : list (point K)) : point K := match l with [] => None | A :: l' => add A (psum l') end.
Lemma psum_on : forall l, Forall on l -> on (psum l).
Proof. induction 1; cbn [psum]; [exact I | apply g_on; auto]. Qed.
Lemma psum_perm : forall l l', Permutation l l' -> Forall on l -> psum l = psum l'.
Proof.
  induction 1; intro F; cbn [psum]; auto.
  - inversion F; subst. rewrite IHPermutation; auto.
  - inversion F; subst. inversion H2; subst. rewrite <- !g_assoc by auto using psum_on. rewrite (g_comm y x). reflexivity.
  - rewrite IHPermutation1 by auto. apply IHPermutation2. eapply Permutation_Forall; eauto.
Qed.
Lemma psum_shift : forall A l, on A -> Forall on l -> psum (map (add A) l) = add (mul (length l) A) (psum l).
Proof.
  intros A l HA. induction 1; cbn [map psum length pmul]; auto. rewrite IHForall. apply g_swap; auto using g_mul_on, psum_on.
Qed.
Theorem order_kills : forall pts, NoDup pts -> (forall A, In A pts <-> on A) -> forall A, on A -> mul (length pts) A = None.
Proof.
  intros pts ND HI A HA. assert (F : Forall on pts) by (apply Forall_forall; intro; apply HI).
  assert (PM : Permutation pts (map (add A) pts)).
  { apply NoDup_Permutation; auto.
    - assert (G : forall l, NoDup l -> Forall on l -> NoDup (map (add A) l)).
      { induction 1 as [ | B l N _ IH]; intro Fl; cbn [map]; [constructor | ]. inversion Fl; subst. constructor; auto.
        intro I. apply in_map_iff in I. destruct I as (C & E & I). apply N. rewrite Forall_forall in H2. apply (g_cancel A) in E; auto. subst; auto. }
      apply G; auto.
    - intro B. rewrite in_map_iff. split.
      + intro I. apply HI in I. exists (add (pneg A) B). split; [ | apply HI; apply g_on; auto using g_neg_on].
        rewrite <- g_assoc by auto using g_neg_on. rewrite g_neg. apply add_0_l.
      + intros (C & <- & I). apply HI in I. apply HI. apply g_on; auto. }
  pose proof (psum_shift A pts HA F) as E. rewrite <- (psum_perm _ _ PM F) in E.
  apply (g_cancel (psum pts)); try exact I; auto using psum_on, g_mul_on. rewrite add_0_r, g_comm. symmetry. exact E.
Qed.

(** the order of a subgroup *)
Lemma cosets : forall H, NoDup H -> Forall on H -> In None H -> (forall A B, In A H -> In B H -> In (add A B) H) -> (forall A, In A H -> In (pneg A) H) ->
  forall n X, (length X <= n)%nat -> NoDup X -> Forall on X -> (forall A B, In A X -> In B H -> In (add A B) X) -> exists c, length X = (c * length H)%nat.
Proof.
  intros H NH OH H0 HA HN. rewrite Forall_forall in OH. induction n; intros X LX NX OX SX.
  - destruct X; [ | cbn [length] in LX; lia]. exists 0%nat. reflexivity.
  - destruct X as [ | A X]; [exists 0%nat; reflexivity | ]. remember (A :: X) as Y eqn:EY. assert (IA : In A Y) by (subst; left; auto).
    rewrite Forall_forall in OX. assert (OA : on A) by auto.
    set (co := map (add A) H). set (Z := filter (fun B => if in_dec g_dec B co then false else true) Y).
    assert (NC : NoDup co).
    { assert (G : forall l, NoDup l -> (forall B, In B l -> on B) -> NoDup (map (add A) l)).
      { induction 1 as [ | B l N _ IH]; intro Fl; cbn [map]; [constructor | ]. constructor; [ | apply IH; intros; apply Fl; right; auto].
        intro I. apply in_map_iff in I. destruct I as (C & E & I). apply N. apply (g_cancel A) in E; auto; [subst; auto | apply Fl; right; auto | apply Fl; left; auto]. }
      apply G; auto. }
    assert (PM : Permutation Y (co ++ Z)).
    { apply NoDup_Permutation; auto.
      - apply NoDup_app_ok; auto; [apply NoDup_filter; auto | ]. intros B I J. unfold Z in J. apply filter_In in J. destruct J as [_ J]. destruct (in_dec g_dec B co); [discriminate | contradiction].
      - intro B. rewrite in_app_iff. unfold Z. rewrite filter_In. split.
        + intro I. destruct (in_dec g_dec B co); auto.
        + intros [I | [I _]]; auto. unfold co in I. apply in_map_iff in I. destruct I as (C & <- & I). apply SX; auto. }
    pose proof (Permutation_length PM) as LP. rewrite app_length in LP. unfold co in LP. rewrite map_length in LP.
    assert (PH : (0 < length H)%nat) by (destruct H; [destruct H0 | cbn [length]; lia]).
    destruct (IHn Z) as [c E].
    + lia.
    + apply NoDup_filter. auto.
    + apply Forall_forall. intros B I. unfold Z in I. apply filter_In in I. apply OX. tauto.
    + intros B C IB IC. unfold Z in *. apply filter_In in IB. destruct IB as [IB JB]. apply filter_In. split; [apply SX; auto | ].
      destruct (in_dec g_dec B co) as [Q | NB]; [discriminate | ]. destruct (in_dec g_dec (add B C) co) as [Q | Q]; auto. exfalso. apply NB.
      unfold co in *. apply in_map_iff in Q. destruct Q as (D & E & ID). apply in_map_iff. exists (add D (pneg C)). split; [ | apply HA; auto].
      rewrite <- g_assoc by auto using g_neg_on. rewrite E. rewrite g_assoc by auto using g_neg_on. rewrite g_neg. apply add_0_r.
    + exists (S c). cbn [Nat.mul]. lia.
Qed.

(** torsion of prime order *)
Lemma nat_inverse : forall r d, prime (Z.of_nat r) -> (0 < d < r)%nat -> exists e, ((e * d) mod r = 1)%nat.
Proof.
  intros r d Pr H. assert (RP : rel_prime (Z.of_nat d) (Z.of_nat r)) by (apply rel_prime_le_prime; auto; lia).
  destruct (rel_prime_bezout _ _ RP) as [u w E]. exists (Z.to_nat (u mod Z.of_nat r)). apply Nat2Z.inj.
  rewrite Nat2Z.inj_mod, Nat2Z.inj_mul, Z2Nat.id by (apply Z.mod_pos_bound; lia). rewrite Z.mul_mod_idemp_l by lia.
  replace (u * Z.of_nat d)%Z with (1 + (- w) * Z.of_nat r)%Z by lia. rewrite Z.mod_add by lia. apply Z.mod_small. lia.
Qed.
Lemma map_inj_nodup : forall {A B} (f : A -> B) l, NoDup l -> (forall x y, In x l -> In y l -> f x = f y -> x = y) -> NoDup (map f l).
Proof.
  intros A B f l N. induction N as [ | x l NI _ IH]; intro J; cbn [map]; [constructor | ]. constructor.
  - intro I. apply in_map_iff in I. destruct I as (y & E & I). apply NI. rewrite <- (J y x); auto; [right; auto | left; auto].
  - apply IH. intros y z Iy Iz. apply J; right; auto.
Qed.
Lemma prod_nodup : forall {A B} (l : list A) (l' : list B), NoDup l -> NoDup l' -> NoDup (list_prod l l').
Proof.
  intros A B l l' N N'. induction N as [ | x l NI _ IH]; cbn [list_prod]; [constructor | ]. apply NoDup_app_ok; auto.
  - apply map_inj_nodup; auto. intros y z _ _ E. congruence.
  - intros [u w] I J. apply in_map_iff in I. destruct I as (y & E & _). injection E as <- <-. apply in_prod_iff in J. tauto.
Qed.
Section Cyclic.
Variable r : nat.
Hypothesis Pr : prime (Z.of_nat r).
Variables P Q : point K.
Hypothesis OP : on P.
Hypothesis OQ : on Q.
Hypothesis TP : mul r P = None.
Hypothesis TQ : mul r Q = None.
Hypothesis NP : P <> None.
Lemma r_two : (2 <= r)%nat. Proof. pose proof (prime_ge_2 _ Pr). lia. Qed.
Lemma g_one : forall A, mul 1 A = A. Proof. intros. cbn [pmul]. apply add_0_r. Qed.
Lemma t_finite : forall k, (0 < k < r)%nat -> mul k P <> None.
Proof.
  intros k H E. destruct (nat_inverse r k Pr H) as [e Ee]. apply NP. rewrite <- (g_one P), <- Ee, (g_mod r) by auto. rewrite g_times, E by auto. apply g_none.
Qed.
Lemma t_neg : forall A k, on A -> mul r A = None -> (k <= r)%nat -> pneg (mul k A) = mul (r - k) A.
Proof.
  intros A k H E L. symmetry. apply g_opp; auto using g_mul_on. rewrite <- g_plus by auto. replace (k + (r - k))%nat with r by lia. auto.
Qed.
Lemma t_inj : forall i k, (i < r)%nat -> (k < r)%nat -> mul i P = mul k P -> i = k.
Proof.
  assert (W : forall i k, (i < k < r)%nat -> mul i P <> mul k P).
  { intros i k H E. apply (t_finite (k - i)); [lia | ]. replace k with (i + (k - i))%nat in E by lia. rewrite g_plus in E by auto.
    symmetry. apply (g_cancel (mul i P)); auto using g_mul_on; [exact I | ]. rewrite add_0_r. auto. }
  intros i k Hi Hk E. destruct (lt_eq_lt_dec i k) as [[L | L] | L]; auto; exfalso; [apply (W i k) | apply (W k i)]; auto; lia.
Qed.
Definition comb (ij : nat * nat) : point K := add (mul (fst ij) P) (mul (snd ij) Q).
Lemma comb_on : forall ij, on (comb ij). Proof. intros. unfold comb. apply g_on; auto using g_mul_on. Qed.
Hypothesis NQ : forall k, (k < r)%nat -> Q <> mul k P.
Lemma comb_lt : forall i j i' j', (i' < r)%nat -> (j < j' < r)%nat -> comb (i, j) <> comb (i', j').
Proof.
  intros i j i' j' Hi Hj E. unfold comb in E. cbn [fst snd] in E. replace j' with ((j' - j) + j)%nat in E by lia. rewrite (g_plus (j' - j) j) in E by auto.
  rewrite <- g_assoc in E by auto using g_mul_on. rewrite (g_comm _ (mul j Q)), (g_comm (add _ _) (mul j Q)) in E. apply g_cancel in E; auto using g_mul_on, g_on.
  assert (D : mul (j' - j) Q = mul (r - i' + i) P).
  { rewrite g_plus by auto. rewrite E, <- (t_neg P i') by (auto; lia). rewrite <- g_assoc by auto using g_mul_on, g_neg_on. rewrite (g_comm (pneg _)), g_neg. symmetry. apply add_0_l. }
  destruct (nat_inverse r (j' - j) Pr) as [e Ee]; [lia | ].
  apply (NQ ((e * (r - i' + i)) mod r)); [apply Nat.mod_upper_bound; pose proof r_two; lia | ].
  rewrite g_mod by auto. rewrite g_times, <- D, <- g_times, <- (g_mod r), Ee by auto. symmetry. apply g_one.
Qed.
Definition subg : list (point K) := map comb (list_prod (seq 0 r) (seq 0 r)).
Lemma in_subg : forall i j, In (comb (i, j)) subg.
Proof.
  intros. unfold subg. apply in_map_iff. exists (i mod r, j mod r)%nat. pose proof r_two. split.
  - unfold comb. cbn [fst snd]. rewrite !g_mod by auto. reflexivity.
  - apply in_prod_iff. rewrite !in_seq. pose proof (Nat.mod_upper_bound i r). pose proof (Nat.mod_upper_bound j r). lia.
Qed.
Lemma subg_in : forall A, In A subg -> exists i j, (i < r)%nat /\ (j < r)%nat /\ A = comb (i, j).
Proof. intros A I. apply in_map_iff in I. destruct I as ([i j] & <- & I). apply in_prod_iff in I. rewrite !in_seq in I. exists i, j. repeat split; auto; lia. Qed.
Lemma subg_nodup : NoDup subg.
Proof.
  apply map_inj_nodup; [apply prod_nodup; apply seq_NoDup | ]. intros [i j] [i' j'] I I' E. apply in_prod_iff in I. apply in_prod_iff in I'. rewrite !in_seq in *.
  destruct (lt_eq_lt_dec j j') as [[L | L] | L].
  - exfalso. apply (comb_lt i j i' j'); auto; lia.
  - subst j'. f_equal. apply t_inj; try lia. unfold comb in E. cbn [fst snd] in E. rewrite (g_comm (mul i P)), (g_comm (mul i' P)) in E. apply g_cancel in E; auto using g_mul_on.
  - exfalso. apply (comb_lt i' j' i j); auto; lia.
Qed.
Lemma square_divides : forall pts, NoDup pts -> (forall A, In A pts <-> on A) -> exists c, length pts = (c * (r * r))%nat.
Proof.
  intros pts ND HI. destruct (cosets subg) with (n := length pts) (X := pts) as [c E]; auto.
  - apply subg_nodup.
  - apply Forall_forall. intros A I. apply subg_in in I. destruct I as (i & j & _ & _ & ->). apply comb_on.
  - replace (None : point K) with (comb (0, 0)%nat) by reflexivity. apply in_subg.
  - intros A B IA IB. apply subg_in in IA. apply subg_in in IB. destruct IA as (i & j & _ & _ & ->). destruct IB as (i' & j' & _ & _ & ->).
    replace (add (comb (i, j)) (comb (i', j'))) with (comb (i + i', j + j')%nat); [apply in_subg | ].
    unfold comb. cbn [fst snd]. rewrite !g_plus by auto. apply g_swap; auto using g_mul_on.
  - intros A IA. apply subg_in in IA. destruct IA as (i & j & Hi & Hj & ->). replace (pneg (comb (i, j))) with (comb (r - i, r - j)%nat); [apply in_subg | ].
    apply g_opp; auto using comb_on. unfold comb. cbn [fst snd]. rewrite g_swap by auto using g_mul_on. rewrite <- !g_plus by auto.
    replace (i + (r - i))%nat with r by lia. replace (j + (r - j))%nat with r by lia. rewrite TP, TQ. reflexivity.
  - apply Forall_forall. intros A. apply HI.
  - intros A B IA IB. apply HI. apply HI in IA. apply subg_in in IB. destruct IB as (i & j & _ & _ & ->). apply g_on; auto using comb_on.
  - exists c. rewrite E. unfold subg. rewrite map_length, prod_length, !seq_length. reflexivity.
Qed.
End Cyclic.
Theorem torsion_cyclic : forall r h pts, prime (Z.of_nat r) -> NoDup pts -> (forall A, In A pts <-> on A) -> length pts = (r * h)%nat -> ~ Nat.divide r h ->
  forall P Q, on P -> on Q -> mul r P = None -> mul r Q = None -> P <> None -> exists k, (k < r)%nat /\ Q = mul k P.
Proof.
  intros r h pts Pr ND HI LN ND' P Q OP OQ TP TQ NP.
  destruct (in_dec g_dec Q (map (fun k => mul k P) (seq 0 r))) as [I | I].
  - apply in_map_iff in I. destruct I as (k & E & I). apply in_seq in I. exists k. split; [lia | auto].
  - exfalso. apply ND'. destruct (square_divides r Pr P Q OP OQ TP TQ NP) with (pts := pts) as [c E]; auto.
    + intros k Hk EQ. apply I. apply in_map_iff. exists k. split; auto. apply in_seq. lia.
    + exists c. rewrite LN in E. pose proof (prime_ge_2 _ Pr). nia.
Qed.
End G.
