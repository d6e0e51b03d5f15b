(** The curve Y^2 = X^3 + X over a field of q elements in which -1 is not a
    square has q + 1 points. *)
From Coq Require Import ZArith List Bool Lia Ring Field Permutation.
From Verif.Base Require Import Outcome Algebra Slots.
From Verif.Spec Require Import FiniteField Quadratic Curve.
From Verif.Proofs Require Import FieldFacts QuadFacts CurveGroup CurveFacts CurveOrder MillerPoly.
Import ListNotations.

Section S.
Variable K : fld.
Hypothesis HK : fld_laws K.
Add Field KFss : (fl_field K HK).
Variable q : Z.
Hypothesis Oq : Z.odd q = true.
Variable els : list K.
Hypothesis NDe : NoDup els.
Hypothesis ALLe : forall x, In x els.
Hypothesis LENe : Z.of_nat (length els) = q.
Hypothesis NS : ~ is_square (fopp f1 : K).
Hypothesis C2 : f2 K <> f0.
Local Notation "0" := f0. Local Notation "1" := f1.
Local Notation "x + y" := (fadd x y). Local Notation "x * y" := (fmul x y). Local Notation "- x" := (fopp x).
Let Hq : has_order K q. Proof. exists els. auto. Qed.

Definition roots (c : K) : list K := filter (fun y => feqb (y * y) c) els.
Lemma in_roots : forall c y, In y (roots c) <-> y * y = c.
Proof. intros. unfold roots. rewrite filter_In. split; [intros [_ E]; apply (feqb_eq K HK); auto | intros ->; split; auto; apply (feqb_refl K HK)]. Qed.
Lemma roots_nodup : forall c, NoDup (roots c). Proof. intros. apply NoDup_filter. auto. Qed.
Lemma roots_len : forall c l, NoDup l -> (forall y, In y l <-> y * y = c) -> length (roots c) = length l.
Proof. intros c l N H. apply Permutation_length. apply NoDup_Permutation; auto using roots_nodup. intro y. rewrite in_roots, H. tauto. Qed.
Lemma roots_0 : length (roots 0) = 1%nat.
Proof.
  apply (roots_len 0 [0]); [repeat constructor; intros [] | ]. intro y. split.
  - intros [<- | []]. ring.
  - intro E. left. destruct (f_integral K HK _ _ E); auto.
Qed.
Lemma dbl_nz : forall s : K, s <> 0 -> s <> - s.
Proof. intros s N E. apply N. assert (F : f2 K * s = 0) by (unfold f2; transitivity (s + s); [ring | ]; rewrite E at 1; ring). destruct (f_integral K HK _ _ F); auto. contradiction. Qed.
Lemma roots_sq : forall s, s <> 0 -> length (roots (s * s)) = 2%nat.
Proof.
  intros s N. apply (roots_len (s * s) [s; - s]).
  - constructor; [ | repeat constructor; intros []]. intros [E | []]. apply (dbl_nz s N). auto.
  - intro y. split.
    + intros [<- | [<- | []]]; ring.
    + intro E. assert (Z : fsub y s * (y + s) = 0) by (transitivity (fsub (y * y) (s * s)); [ring | rewrite E; ring]).
      destruct (f_integral K HK _ _ Z) as [Q | Q]; [left | right; left].
      * transitivity (s + fsub y s); [rewrite Q; ring | ring].
      * transitivity (- s + (y + s)); [rewrite Q; ring | ring].
Qed.
Lemma roots_non : forall c, ~ is_square c -> length (roots c) = 0%nat.
Proof.
  intros c N. apply (roots_len c []); [constructor | ]. intro y. split; [intros [] | ]. intro E. apply N. exists y. auto.
Qed.
Lemma roots_pair : forall c, (length (roots c) + length (roots (- c)) = 2)%nat.
Proof.
  intro c. destruct (f_eq_dec K HK c 0) as [-> | N].
  { replace (- 0 : K) with (0 : K) by ring. rewrite roots_0. reflexivity. }
  assert (NEG : forall s : K, s <> 0 -> ~ is_square (- (s * s))).
  { intros s Ns [t E]. apply NS. exists (fdiv t s). transitivity (fdiv (t * t) (s * s)); [field; auto | ]. rewrite E. field. auto. }
  destruct (sq_dec K HK q Hq Oq c) as [[s <-] | S].
  - assert (s <> 0) by (intros ->; apply N; ring). rewrite roots_sq, roots_non by auto. reflexivity.
  - assert (SQ : is_square (- c)) by (replace (- c) with (- (1) * c) by ring; apply (nsq_mul K HK q Hq Oq); auto).
    destruct SQ as [s E]. rewrite <- E. rewrite roots_non by auto. assert (s <> 0). { intros ->. apply N. transitivity (- - c); [ring | rewrite <- E; ring]. }
    rewrite roots_sq by auto. reflexivity.
Qed.

Definition rx (x : K) : K := x * x * x + x.
Fixpoint total (l : list K) : nat := match l with nil => 0%nat | x :: l' => (length (roots (rx x)) + total l')%nat end.
Lemma total_perm : forall l l', Permutation l l' -> total l = total l'.
Proof. intros l l' P. induction P; cbn [total]; lia. Qed.
Lemma total_neg : forall l, (total l + total (map fopp l) = 2 * length l)%nat.
Proof.
  induction l as [ | x l IH]; cbn [total map length]; auto. pose proof (roots_pair (rx x)) as R. replace (rx (- x)) with (- rx x) by (unfold rx; ring). lia.
Qed.
Lemma total_q : Z.of_nat (total els) = q.
Proof.
  assert (E : total (map fopp els) = total els).
  { symmetry. apply total_perm. apply NoDup_Permutation; auto.
    - apply FinFun.Injective_map_NoDup; auto. intros x y E. transitivity (- - x); [ring | rewrite E; ring].
    - intro x. split; auto. intros _. apply in_map_iff. exists (- x). split; auto. ring. }
  pose proof (total_neg els). lia.
Qed.

(** the finite points *)
Definition fpts (l : list K) : list (K * K) := flat_map (fun x => map (fun y => (x, y)) (roots (rx x))) l.
Lemma in_fpts : forall l x y, In (x, y) (fpts l) <-> In x l /\ y * y = rx x.
Proof.
  intros. unfold fpts. rewrite in_flat_map. split.
  - intros (z & I & J). apply in_map_iff in J. destruct J as (w & E & J). injection E as <- <-. apply in_roots in J. auto.
  - intros [I E]. exists x. split; auto. apply in_map_iff. exists y. split; auto. apply in_roots. auto.
Qed.
Lemma fpts_nodup : forall l, NoDup l -> NoDup (fpts l).
Proof.
  intros l N. induction N as [ | x l NI _ IH]; cbn [fpts flat_map]; [constructor | ]. apply NoDup_app_ok; auto.
  - apply FinFun.Injective_map_NoDup; [ | apply roots_nodup]. intros y z E. congruence.
  - intros [u w] I J. apply in_map_iff in I. destruct I as (y & E & _). injection E as <- <-. apply in_fpts in J. tauto.
Qed.
Lemma fpts_len : forall l, length (fpts l) = total l.
Proof. induction l as [ | x l IH]; cbn [fpts flat_map total length]; auto. rewrite app_length, map_length. fold (fpts l). lia. Qed.
Lemma on_rx : forall x y, on_curve K f1 f0 (Some (x, y)) <-> y * y = rx x.
Proof.
  intros. split; intro H.
  - rewrite (on_eq K HK f1 f0 x y H). unfold rx. ring.
  - unfold on_curve. rewrite H. unfold rx, rhs. ring.
Qed.
Definition all_points : list (point K) := None :: map Some (fpts els).
Lemma all_nodup : NoDup all_points.
Proof.
  constructor.
  - intro I. apply in_map_iff in I. destruct I as (? & E & _). discriminate.
  - apply FinFun.Injective_map_NoDup; [ | apply fpts_nodup; auto]. intros x y E. congruence.
Qed.
Lemma all_in : forall A, In A all_points <-> on_curve K f1 f0 A.
Proof.
  intros [[x y] | ]; [ | split; intros; [exact I | left; auto]]. rewrite on_rx. unfold all_points. split.
  - intros [E | I]; [discriminate | ]. apply in_map_iff in I. destruct I as ([u w] & E & I). injection E as -> ->. apply in_fpts in I. tauto.
  - intro E. right. apply in_map_iff. exists (x, y). split; auto. apply in_fpts. auto.
Qed.
Theorem all_len : Z.of_nat (length all_points) = (q + 1)%Z.
Proof. unfold all_points. cbn [length]. rewrite map_length, fpts_len. pose proof total_q. lia. Qed.

Definition good_points : list (K * K) := filter (fun S => negb (feqb (snd S) 0)) (fpts els).
Lemma filter_split : forall {A} (f : A -> bool) l, (length (filter f l) + length (filter (fun x => negb (f x)) l) = length l)%nat.
Proof. intros A f l. induction l as [ | x l IH]; cbn [filter length]; auto. destruct (f x); cbn [negb length]; lia. Qed.
Lemma good_len : (q - 1 <= Z.of_nat (length good_points))%Z.
Proof.
  pose proof (filter_split (fun S : K * K => feqb (snd S) 0) (fpts els)) as E. rewrite fpts_len in E. fold good_points in E. pose proof total_q as T.
  assert (L : le (length (filter (fun S : K * K => feqb (snd S) 0) (fpts els))) (length [((0, 0) : K * K)])).
  { apply NoDup_incl_length; [apply NoDup_filter; apply fpts_nodup; auto | ].
    intros [x y] I. apply filter_In in I. destruct I as [I Y]. cbn [snd] in Y. apply (feqb_eq K HK) in Y. subst y. apply in_fpts in I. destruct I as [_ I].
    left. f_equal. assert (Z : x * (x * x + 1) = 0) by (transitivity (rx x); [unfold rx; ring | rewrite <- I; ring]).
    destruct (f_integral K HK _ _ Z) as [Q | Q]; auto. exfalso. apply NS. exists x. transitivity ((x * x + 1) + - (1)); [ring | rewrite Q; ring]. }
  cbn [length] in L. lia.
Qed.
Lemma good_nodup : NoDup good_points. Proof. apply NoDup_filter. apply fpts_nodup. auto. Qed.
Lemma good_in : forall x y, In (x, y) good_points -> on_curve K f1 f0 (Some (x, y)) /\ y <> 0.
Proof.
  intros x y I. apply filter_In in I. destruct I as [I Y]. apply in_fpts in I. cbn [snd] in Y. split; [apply on_rx; tauto | ].
  intros ->. rewrite (feqb_refl K HK) in Y. discriminate.
Qed.
End S.
