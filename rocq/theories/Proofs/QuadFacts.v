(** Quadratic extensions: field laws, order, and the C functions. *)
From Coq Require Import ZArith List Bool Lia Ring Field.
From Verif.Base Require Import Outcome Algebra Slots.
From Verif.Spec Require Import FiniteField FieldCalls Quadratic QuadraticRuns.
From Verif.Model Require Import Quadratic.
From Verif.Proofs Require Import FieldFacts SlotFacts RootFacts RandomFacts.
Import ListNotations.

Lemma NoDup_prod : forall (A B : Type) (l : list A) (m : list B), NoDup l -> NoDup m -> NoDup (list_prod l m).
Proof.
  induction l as [ | a l IH]; intros m Hl Hm; [constructor | ]. inversion Hl; subst. cbn [list_prod].
  apply NoDup_app_intro; auto.
  - apply NoDup_map_inj_in; auto. intros. congruence.
  - intros x I1 I2. apply in_map_iff in I1. destruct I1 as (b & E & _). subst. apply in_prod_iff in I2. tauto.
Qed.

Section Q.
Variable K : fld.
Hypothesis HK : fld_laws K.
Add Field KFq : (fl_field K HK).
Notation "0" := f0. Notation "1" := f1.
Notation "x + y" := (fadd x y). Notation "x - y" := (fsub x y). Notation "x * y" := (fmul x y). Notation "- x" := (fopp x).
Notation "x / y" := (fdiv x y).

Section L.
Variable d : K.
Hypothesis Hd : ~ is_square d.
Lemma qnorm_0 : forall a : K * K, qnorm K d a = 0 -> a = (0, 0).
Proof.
  intros [x y] H. unfold qnorm in H. cbn [fst snd] in H. apply (f_sub_0 K HK) in H.
  destruct (f_eq_dec K HK y 0) as [E | E].
  - subst. replace (d * (0 * 0)) with (0 : K) in H by ring. destruct (f_integral K HK _ _ H); subst; auto.
  - exfalso. apply Hd. exists (x / y). transitivity ((x * x) / (y * y)); [field; auto | ]. rewrite H. field. auto.
Qed.
Lemma qnorm_nz : forall a : K * K, a <> (0, 0) -> qnorm K d a <> 0.
Proof. intros a H E. apply H. apply qnorm_0; auto. Qed.

Theorem Quad_laws : fld_laws (Quad K d).
Proof.
  constructor; [constructor; [constructor | | | ] | ]; cbn [fcar f0 f1 fadd fsub fmul fopp fdiv finv Quad].
  - intros [x y]. cbn [fst snd]. f_equal; ring.
  - intros [x y] [z w]. cbn [fst snd]. f_equal; ring.
  - intros [x y] [z w] [u v]. cbn [fst snd]. f_equal; ring.
  - intros [x y]. unfold qmul. cbn [fst snd]. f_equal; ring.
  - intros [x y] [z w]. unfold qmul. cbn [fst snd]. f_equal; ring.
  - intros [x y] [z w] [u v]. unfold qmul. cbn [fst snd]. f_equal; ring.
  - intros [x y] [z w] [u v]. unfold qmul. cbn [fst snd]. f_equal; ring.
  - intros [x y] [z w]. cbn [fst snd]. f_equal; ring.
  - intros [x y]. cbn [fst snd]. f_equal; ring.
  - intro H. inversion H. apply (f_1_neq_0 K HK); auto.
  - reflexivity.
  - intros [x y] H. apply qnorm_nz in H. unfold qmul, qinv. unfold qnorm in *. cbn [fst snd] in *. f_equal; field; auto.
  - intros [x y] [z w]. cbn [feqb Quad fst snd]. rewrite andb_true_iff. rewrite !(fl_eqb K HK). split; [intros [? ?]; subst; auto | intro H; inversion H; auto].
Qed.

Theorem Quad_order : forall q, has_order K q -> has_order (Quad K d) (q * q).
Proof.
  intros q (l & ND & IN & LEN). exists (list_prod l l). split; [ | split].
  - apply NoDup_prod; auto.
  - intros [x y]. apply in_prod; auto.
  - pose proof (prod_length l l) as E. subst q. rewrite <- Nat2Z.inj_mul. f_equal. exact E.
Qed.
Lemma Quad_fofz : forall n, (fofz n : Quad K d) = (fofz n, 0).
Proof.
  assert (P : forall p, (Pos.iter_op fadd p f1 : Quad K d) = (Pos.iter_op fadd p f1, 0)).
  { intro p. induction p using Pos.peano_ind; [reflexivity | ].
    rewrite (iter_succ _ Quad_laws), (iter_succ _ HK), IHp. cbn [fadd Quad fst snd f1]. f_equal. ring. }
  intro n. destruct n; cbn [fofz]; [reflexivity | apply P | ]. rewrite P. cbn [fopp Quad fst snd]. f_equal. ring.
Qed.
End L.

(** ** Programs *)
Variable k : qkind K.
Notation q_d := (q_d K k).
Hypothesis Hd : ~ is_square q_d.
Notation L := (Quad K q_d).
Notation obs_of := (obs_of K k).
Definition rep (s : store K) (v : nat -> L) : Prop := forall n, v n = (s (Reg n, 0%nat), s (Reg n, 1%nat)).
Definition val (s : store K) (o : obj) : L := (s (o, 0%nat), s (o, 1%nat)).
Definition does (p : list (instr K)) (n : obj) (s : store K) (r : res L) : Prop :=
  match r with
  | Ok v => exists s', run p s = Ok s' /\ val s' n = v /\ (forall m i, Reg m <> n -> s' (Reg m, i) = s (Reg m, i))
  | UB => run p s = UB
  | _ => False
  end.
Lemma val_frame : forall (s s' : store K) n m, (forall m i, Reg m <> n -> s' (Reg m, i) = s (Reg m, i)) -> Reg m <> n -> val s' (Reg m) = val s (Reg m).
Proof. intros. unfold val. rewrite !H by auto. auto. Qed.

Lemma E_add : forall d (a b : Quad K d), fadd a b = (fst a + fst b, snd a + snd b). Proof. reflexivity. Qed.
Lemma E_sub : forall d (a b : Quad K d), fsub a b = (fst a - fst b, snd a - snd b). Proof. reflexivity. Qed.
Lemma E_opp : forall d (a : Quad K d), fopp a = (- fst a, - snd a). Proof. reflexivity. Qed.
Lemma E_mul : forall d (a b : Quad K d), fmul a b = qmul K d a b. Proof. reflexivity. Qed.
Lemma E_inv : forall d (a : Quad K d), finv a = qinv K d a. Proof. reflexivity. Qed.
Ltac finish :=
  unfold does, val; rewrite ?E_add, ?E_sub, ?E_opp, ?E_mul, ?E_inv; unfold qmul, qinv, qnorm;
  repeat slot_step; eexists; split; [reflexivity | split; [
    apply f_equal2; (etransitivity; [lookup | cbn [fst snd]; try ring]) | intros m i No; pose proof (user_reg m); lookup]].
Ltac split2 n a := destruct (obj_eqb_spec n a) as [? | ?]; [subst | ].

Lemma set_does : forall n a s, user n -> user a -> does (fq_set K n a) n s (Ok (val s a)).
Proof. intros n a s Un Ua. unfold fq_set, fq_neg, fq_double. split2 n a; finish. Qed.
Lemma const_does : forall n (c e : K) s, user n -> does [IConst (n, 0%nat) c; IConst (n, 1%nat) e] n s (Ok ((c, e) : L)).
Proof. intros n c e s Un. finish. Qed.
Lemma add_does : forall n a b s, user n -> user a -> user b -> does (fq_add K n a b) n s (Ok (fadd (val s a) (val s b))).
Proof. intros n a b s Un Ua Ub. unfold fq_add, fq_sub. split2 n a; [split2 a b | split2 n b]; finish. Qed.
Lemma sub_does : forall n a b s, user n -> user a -> user b -> does (fq_sub K n a b) n s (Ok (fsub (val s a) (val s b))).
Proof. intros n a b s Un Ua Ub. unfold fq_add, fq_sub. split2 n a; [split2 a b | split2 n b]; finish. Qed.
Lemma neg_does : forall n a s, user n -> user a -> does (fq_neg K n a) n s (Ok (fopp (val s a))).
Proof. intros n a s Un Ua. unfold fq_set, fq_neg, fq_double. split2 n a; finish. Qed.
Lemma double_does : forall n a s, user n -> user a -> does (fq_double K n a) n s (Ok (fadd (val s a) (val s a))).
Proof. intros n a s Un Ua. unfold fq_set, fq_neg, fq_double. split2 n a; finish. Qed.
Lemma mulz_does : forall n a z s, user n -> user a -> does (fq_mul_z K n a z) n s (Ok (fmul (fofz z) (val s a))).
Proof.
  intros n a z s Un Ua. rewrite (Quad_fofz q_d Hd). unfold fq_mul_z, fmulz.
  split2 n a; finish.
Qed.
Lemma mul_does : forall n a b s, user n -> user a -> user b -> does (q_mul K k n a b) n s (Ok (fmul (val s a) (val s b))).
Proof.
  intros n a b s Un Ua Ub. unfold does, q_mul, QuadraticRuns.q_d, fq_mul, fi_mul, e0, e1, e2.
  destruct k as [nqr | ]; (split2 n a; [split2 a b | split2 n b]); finish.
Qed.
Lemma square_does : forall n a s, user n -> user a -> does (q_square K k n a) n s (Ok (fmul (val s a) (val s a))).
Proof.
  intros n a s Un Ua. unfold does, q_square, QuadraticRuns.q_d, fq_square, fi_square, e0, e1.
  destruct k as [nqr | ]; (split2 n a); finish.
Qed.
Lemma invert_does : forall n a s, user n -> user a -> does (q_invert K k n a) n s (finvert (val s a)).
Proof.
  intros n a s Un Ua.
  assert (N : qnorm K q_d (val s a) = 0 <-> val s a = (0, 0)).
  { split; [apply (qnorm_0 q_d Hd) | ]. intro E. rewrite E. unfold qnorm. cbn [fst snd]. ring. }
  unfold finvert.
  destruct (feqb (val s a) f0) eqn:E.
  - apply (feqb_eq _ (Quad_laws q_d Hd)) in E. apply N in E. unfold does, q_invert, QuadraticRuns.q_d in *. unfold qnorm, val in E. cbn [fst snd] in E.
    destruct k as [nqr | ]; unfold fq_invert, fi_invert, e0, e1; repeat slot_step; inv_step.
    + replace (s (a, 0%nat) * s (a, 0%nat) - s (a, 1%nat) * s (a, 1%nat) * nqr) with (0 : K) by (rewrite <- E; ring).
      rewrite (finvert_0 K HK). reflexivity.
    + replace (s (a, 0%nat) * s (a, 0%nat) + s (a, 1%nat) * s (a, 1%nat)) with (0 : K) by (rewrite <- E; ring).
      rewrite (finvert_0 K HK). reflexivity.
  - apply (feqb_neq _ (Quad_laws q_d Hd)) in E. assert (E' : qnorm K q_d (val s a) <> 0) by (intro; apply E; apply N; auto).
    clear E N. unfold does, q_invert, QuadraticRuns.q_d in *. unfold qnorm, val in E'. cbn [fst snd] in E'.
    destruct k as [nqr | ]; unfold fq_invert, fi_invert, e0, e1; repeat slot_step; inv_step.
    + rewrite (finvert_ok K HK) by (intro X; apply E'; rewrite <- X; ring). cbn [bind].
      split2 n a; finish; field; (repeat split; intro X; apply E'; rewrite <- X; ring).
    + rewrite (finvert_ok K HK) by (intro X; apply E'; rewrite <- X; ring). cbn [bind].
      assert (N1 : forall u v : K, u - - (1) * v = u + v) by (intros; ring). rewrite N1 in E'.
      split2 n a; finish; rewrite N1; field; exact E'.
Qed.

Notation LL := (Quad_laws q_d Hd).
Lemma u8 : user t8. Proof. apply user_tmp; lia. Qed.
Lemma halve_does : forall n a s,
  does (q_halve K k (Reg n) (Reg a)) (Reg n) s (if feqb (fofz 2 : L) f0 then UB else Ok (fdiv (val s (Reg a)) (fofz 2))).
Proof.
  intros n a s. pose proof u8 as U8.
  unfold q_halve. destruct (const_does t8 (fofz 2) 0 s U8) as (s1 & R1 & V1 & F1).
  pose proof (invert_does t8 t8 s1 U8 U8) as I. unfold finvert in I. rewrite V1 in I.
  rewrite <- (Quad_fofz q_d Hd) in I. destruct (feqb (fofz 2 : L) f0) eqn:E.
  - unfold does in *. rewrite run_app. unfold fq_set_z. rewrite R1. cbn [bind]. rewrite run_app, I. reflexivity.
  - destruct I as (s2 & R2 & V2 & F2).
    destruct (mul_does (Reg n) (Reg a) t8 s2 (user_reg n) (user_reg a) U8) as (s3 & R3 & V3 & F3).
    exists s3. rewrite run_app. unfold fq_set_z. rewrite R1. cbn [bind]. rewrite run_app, R2. cbn [bind]. rewrite R3.
    split; [auto | split].
    + rewrite V3, V2, (val_frame s1 s2 t8 a F2) by discriminate. rewrite (val_frame s s1 t8 a F1) by discriminate. reflexivity.
    + intros m i No. rewrite F3 by auto. rewrite F2, F1 by discriminate. auto.
Qed.
Lemma div_does : forall n a b s,
  does (q_div K k (Reg n) (Reg a) (Reg b)) (Reg n) s
    (if feqb (val s (Reg b)) f0 then UB else Ok (fdiv (val s (Reg a)) (val s (Reg b)))).
Proof.
  intros n a b s. pose proof u8 as U8.
  assert (COM : forall u v : L, fmul (finv u) v = fdiv v u).
  { intros. cbn [fdiv fmul finv Quad]. unfold qmul. cbn [fst snd]. apply f_equal2; ring. }
  unfold q_div. destruct (obj_eqb_spec (Reg n) (Reg a)) as [E | E].
  - inversion E; subst. pose proof (invert_does t8 (Reg b) s U8 (user_reg b)) as I. unfold finvert in I.
    destruct (feqb (val s (Reg b)) f0).
    + unfold does in *. rewrite run_app, I. reflexivity.
    + destruct I as (s2 & R2 & V2 & F2).
      destruct (mul_does (Reg a) t8 (Reg a) s2 (user_reg a) U8 (user_reg a)) as (s3 & R3 & V3 & F3).
      exists s3. rewrite run_app, R2. cbn [bind]. split; [auto | split].
      * rewrite V3, V2, (val_frame s s2 t8 a F2) by discriminate. apply COM.
      * intros m i No. rewrite F3 by auto. rewrite F2 by discriminate. auto.
  - pose proof (invert_does (Reg n) (Reg b) s (user_reg n) (user_reg b)) as I. unfold finvert in I.
    destruct (feqb (val s (Reg b)) f0).
    + unfold does in *. rewrite run_app, I. reflexivity.
    + destruct I as (s2 & R2 & V2 & F2).
      destruct (mul_does (Reg n) (Reg n) (Reg a) s2 (user_reg n) (user_reg n) (user_reg a)) as (s3 & R3 & V3 & F3).
      exists s3. rewrite run_app, R2. cbn [bind]. split; [auto | split].
      * rewrite V3, V2, (val_frame s s2 (Reg n) a F2) by auto. apply COM.
      * intros m i No. rewrite F3, F2 by auto. auto.
Qed.

(** ** Histories *)
Definition same_res (a : res (store K * list (bool + K * K))) (b : res ((nat -> L) * list (fobs L))) : Prop :=
  match a, b with
  | Ok (s, o), Ok (v, o') => rep s v /\ map obs_of o = o'
  | UB, UB => True
  | _, _ => False
  end.
Lemma does_same : forall p n s v r, rep s v -> does p (Reg n) s r ->
  same_res (s <- run p s ;; Ok (s, [])) (x <- r ;; Ok (setr L v n x, [])).
Proof.
  intros p n s v r R D. destruct r as [x | | | ]; cbn [does] in D; try contradiction.
  - destruct D as (s' & -> & V & F). cbn [bind same_res]. split; auto.
    intro m. unfold setr. destruct (Nat.eqb_spec m n) as [-> | N]; [auto | ].
    rewrite R. rewrite !F by congruence. auto.
  - rewrite D. exact I.
Qed.
Lemma rep_val : forall s v n, rep s v -> v n = val s (Reg n). Proof. intros s v n R. apply R. Qed.

Lemma q_step_ok : forall c s v, rep s v -> same_res (q_step K k s c) (fstep L v c).
Proof.
  intros c s v R. pose proof (rep_val s v) as RV.
  assert (DS : forall p n r r', does p (Reg n) s r -> r' = (x <- r ;; Ok (setr L v n x, [])) ->
    same_res (s <- run p s ;; Ok (s, [])) r') by (intros; subst; apply does_same; auto).
  destruct c; cbn [q_step fstep]; cbv zeta; try (rewrite !(RV _ R)).
  - eapply DS; [apply set_does; apply user_reg | reflexivity].
  - eapply DS; [apply (const_does (Reg d) 0 0); apply user_reg | reflexivity].
  - eapply DS; [apply (const_does (Reg d) 1 0); apply user_reg | reflexivity].
  - eapply DS; [apply (const_does (Reg d) (fofz n) 0); apply user_reg | ]. rewrite (Quad_fofz q_d Hd). reflexivity.
  - eapply DS; [apply add_does; apply user_reg | reflexivity].
  - eapply DS; [apply sub_does; apply user_reg | reflexivity].
  - eapply DS; [apply mul_does; apply user_reg | reflexivity].
  - eapply DS; [apply div_does | ]. destruct (feqb (val s (Reg b)) f0); reflexivity.
  - eapply DS; [apply neg_does; apply user_reg | reflexivity].
  - eapply DS; [apply square_does; apply user_reg | reflexivity].
  - eapply DS; [apply double_does; apply user_reg | reflexivity].
  - eapply DS; [apply halve_does | ]. destruct (feqb (fofz 2 : L) f0); reflexivity.
  - eapply DS; [apply invert_does; apply user_reg | ]. unfold finvert. destruct (feqb (val s (Reg a)) f0); reflexivity.
  - eapply DS; [apply mulz_does; apply user_reg | reflexivity].
  - split; auto.
  - split; auto.
  - split; auto. cbn [map obs_of].
    change (feqb (val s (Reg a)) (val s (Reg b))) with
      (feqb (fst (val s (Reg a))) (fst (val s (Reg b))) && feqb (snd (val s (Reg a))) (snd (val s (Reg b)))).
    rewrite negb_andb. reflexivity.
  - split; auto.
Qed.
Lemma q_run_ok : forall h s v, rep s v ->
  (os <- q_run K k s h ;; Ok (map obs_of os)) = frun L v h.
Proof.
  induction h as [ | c h IH]; intros s v R; [reflexivity | ].
  cbn [q_run frun]. pose proof (q_step_ok c s v R) as S.
  destruct (q_step K k s c) as [[s' o] | | | ], (fstep L v c) as [[v' o'] | | | ]; cbn [same_res] in S; try contradiction; auto.
  destruct S as [R' O]. cbn [bind fst snd]. rewrite <- (IH _ _ R').
  destruct (q_run K k s' h); cbn [bind]; auto. rewrite map_app, O. auto.
Qed.

(** ** Square roots *)
Section Roots.
Variable q : Z.
Hypotheses (Hq : has_order K q) (Oq : Z.odd q = true).
Notation sq := (@is_square K).
Lemma sq_dec : forall x : K, sq x \/ ~ sq x.
Proof.
  intro x. destruct (f_eq_dec K HK x 0) as [-> | N]; [left; exists 0; ring | ].
  destruct (f_eq_dec K HK (fpow x ((q - 1) / 2)) 1) as [E | E].
  - left. apply (euler_f K HK q Hq Oq x N); auto.
  - right. intro H. apply E. apply (euler_f K HK q Hq Oq x N); auto.
Qed.
Lemma nsq_mul : forall x y : K, ~ sq x -> ~ sq y -> sq (x * y).
Proof.
  intros x y Hx Hy.
  assert (X0 : x <> 0) by (intros ->; apply Hx; exists 0; ring).
  assert (Y0 : y <> 0) by (intros ->; apply Hy; exists 0; ring).
  apply (euler_f K HK q Hq Oq _ (f_mul_nz K HK _ _ X0 Y0)).
  pose proof (nonsquare_f K HK q Hq Oq _ Hx) as A. pose proof (nonsquare_f K HK q Hq Oq _ Hy) as B.
  unfold fpow, zpow in *. rewrite (npow_mul_base K HK).
  change (@eq K (npow (x : mul_monoid K) (Z.to_nat ((q - 1) / 2)) * npow (y : mul_monoid K) (Z.to_nat ((q - 1) / 2))) 1).
  rewrite A, B. ring.
Qed.
Lemma sq_mul : forall x y : K, sq x -> sq y -> sq (x * y).
Proof. intros x y [a <-] [b <-]. exists (a * b). ring. Qed.
Lemma sq_cancel : forall x y : K, y <> 0 -> sq (x * (y * y)) -> sq x.
Proof. intros x y N [a E]. exists (a / y). transitivity ((a * a) / (y * y)); [field; auto | ]. rewrite E. field. auto. Qed.
Definition two : K := 1 + 1.
Lemma two_nz : two <> 0.
Proof.
  unfold two.
  intro E. (* otherwise every element is a square: x -> x^2 is injective *)
  apply Hd. destruct (sq_dec q_d) as [H | H]; auto.
  assert (D0 : q_d <> 0) by (intro X; apply H; rewrite X; exists 0; ring).
  pose proof (nonsquare_f K HK q Hq Oq _ H) as A.
  apply (euler_f K HK q Hq Oq _ D0). rewrite A.
  assert (F : - (1) = (1 : K)) by (apply (f_sub_0 K HK); replace (- (1) - 1) with (- (1 + 1) : K) by ring; rewrite E; ring).
  auto.
Qed.
Definition nrm (e : K * K) : K := qnorm K q_d e.

Lemma half_square : forall x y A : K, y <> 0 -> A * A = x * x - q_d * (y * y) ->
  sq ((x + A) / two) /\ ~ sq ((x - A) / two) \/ ~ sq ((x + A) / two) /\ sq ((x - A) / two).
Proof.
  intros x y A Y E. pose proof two_nz as T.
  assert (P : (x + A) / two * ((x - A) / two) = q_d * (y / two * (y / two))).
  { transitivity ((x * x - A * A) / (two * two)); [field; auto | ]. rewrite E. field. auto. }
  assert (NZ : y / two <> 0).
  { intro X. apply Y. transitivity (y / two * two); [field; auto | rewrite X; ring]. }
  destruct (sq_dec ((x + A) / two)) as [S1 | S1]; destruct (sq_dec ((x - A) / two)) as [S2 | S2]; auto; exfalso.
  - apply Hd. apply (sq_cancel _ _ NZ). rewrite <- P. apply sq_mul; auto.
  - apply Hd. apply (sq_cancel _ _ NZ). rewrite <- P. apply nsq_mul; auto.
Qed.
(** a square root from a square root of (x+s)/2 *)
Lemma root_from : forall x y s a : K, y <> 0 -> s * s = x * x - q_d * (y * y) -> a * a = (x + s) / two -> a <> 0 ->
  fmul ((a, y / (a + a)) : L) (a, y / (a + a)) = (x, y).
Proof.
  intros x y s a Y S A NA. pose proof two_nz as T. rewrite E_mul. unfold qmul. cbn [fst snd].
  assert (NA2 : a + a <> 0) by (replace (a + a) with (two * a) by (unfold two; ring); apply f_mul_nz; auto).
  apply f_equal2; [ | field; auto].
  assert (AA : a * a <> 0) by (apply f_mul_nz; auto).
  apply (f_cancel K HK (two * two * (a * a))); [repeat apply f_mul_nz; auto | ].
  replace (a + a) with (two * a) by (unfold two; ring).
  transitivity (two * two * (a * a) * (a * a) + q_d * (y * y)); [field; auto | ].
  assert (D : q_d * (y * y) = x * x - s * s) by (rewrite S; ring). rewrite D, A. transitivity ((x + s) * (x + s) + (x * x - s * s)); [field; auto | ].
  transitivity (two * (x + s) * x); [unfold two; ring | field; auto].
Qed.
Lemma base_square : forall x : K, is_square ((x, 0) : L).
Proof.
  intro x. destruct (sq_dec x) as [[a E] | N].
  - exists ((a, 0) : L). rewrite E_mul. unfold qmul. cbn [fst snd]. apply f_equal2; [rewrite <- E | ]; ring.
  - assert (D0 : q_d <> 0) by (intro X; apply Hd; rewrite X; exists 0; ring).
    destruct (nsq_mul _ _ N Hd) as [b E]. exists ((0, b / q_d) : L). rewrite E_mul. unfold qmul. cbn [fst snd].
    apply f_equal2; [ | ring]. transitivity ((b * b) / q_d); [field; auto | ]. rewrite E. field. auto.
Qed.
Theorem norm_square : forall e : L, is_square e <-> sq (nrm e).
Proof.
  intros [x y]. split.
  - intros [[a b] E]. rewrite E_mul in E. unfold qmul in E. cbn [fst snd] in E. inversion E; subst.
    exists (a * a - q_d * (b * b)). unfold nrm, qnorm. cbn [fst snd]. ring.
  - intros [A E]. unfold nrm, qnorm in E. cbn [fst snd] in E.
    destruct (f_eq_dec K HK y 0) as [-> | Y]; [apply base_square | ].
    pose proof two_nz as T.
    assert (NZ : forall s a, s * s = x * x - q_d * (y * y) -> a * a = (x + s) / two -> a <> 0).
    { intros s a S Ea ->. assert (Z0 : x + s = 0) by (transitivity ((x + s) / two * two); [field; auto | rewrite <- Ea; ring]).
      assert (Hx : x = - s) by (apply (f_sub_0 K HK); rewrite <- Z0; ring). subst x.
      assert (Z1 : q_d * (y * y) = 0) by (replace (q_d * (y * y)) with (- s * - s - (- s * - s - q_d * (y * y))) by ring; rewrite <- S; ring).
      apply Hd. exists 0. destruct (f_integral K HK _ _ Z1) as [-> | Z2]; [ring | ]. destruct (f_integral K HK _ _ Z2); contradiction. }
    destruct (half_square x y A Y E) as [[[a Ea] _] | [_ [a Ea]]].
    + exists ((a, y / (a + a)) : L). apply (root_from x y A); auto. apply (NZ A); auto.
    + assert (E' : (- A) * (- A) = x * x - q_d * (y * y)) by (rewrite <- E; ring).
      assert (Ea' : a * a = (x + - A) / two) by (rewrite Ea; field; auto).
      exists ((a, y / (a + a)) : L). apply (root_from x y (- A)); auto. apply (NZ (- A)); auto.
Qed.

Variables (is_sqr : K -> bool) (sqrt : K -> res K).
Hypothesis H_is : forall x, is_sqr x = true <-> sq x.
Hypothesis H_sqrt : forall x, sq x -> exists y, sqrt x = Ok y /\ y * y = x.
Lemma nrm_k : forall e : K * K, nrm e = match k with KQuadratic _ nqr => fst e * fst e - snd e * snd e * nqr | KFi _ => fst e * fst e + snd e * snd e end.
Proof. intro e. unfold nrm, qnorm, QuadraticRuns.q_d. destruct k; ring. Qed.
Lemma q_is_sqr_ok : forall e : L, q_is_sqr K is_sqr k e = true <-> is_square e.
Proof.
  intro e. rewrite norm_square, <- H_is, nrm_k. unfold q_is_sqr. destruct k; tauto.
Qed.
Lemma q_sqrt_eq : forall e : K * K, q_sqrt K is_sqr sqrt k e =
  (s <- sqrt (nrm e) ;;
   let u := (fst e + s) / two in
   let w := if is_sqr u then u else (fst e - s) / two in
   a <- sqrt w ;; i <- finvert (a + a) ;; Ok (a, snd e * i)).
Proof.
  intro e. pose proof two_nz as T. unfold q_sqrt.
  replace (match k with KQuadratic _ nqr => _ | KFi _ => _ end) with (nrm e) by (rewrite nrm_k; destruct k; auto).
  destruct (sqrt (nrm e)) as [s | | | ]; cbn [bind]; auto. cbv zeta.
  rewrite fofz_2. fold two. rewrite (finvert_ok K HK) by auto. cbn [bind].
  replace ((fst e + s) * finv two) with ((fst e + s) / two) by (field; auto).
  destruct (is_sqr ((fst e + s) / two)); cbn [negb]; auto.
  replace ((fst e + s) / two - s) with ((fst e - s) / two) by (replace (fst e - s) with (fst e + s - two * s) by (unfold two; ring); field; auto). auto.
Qed.
Theorem q_sqrt_ok : forall e : L, is_square e -> snd e <> 0 ->
  exists r : L, q_sqrt K is_sqr sqrt k e = Ok r /\ fmul r r = e.
Proof.
  intros [x y] S Y. apply norm_square in S. rewrite q_sqrt_eq.
  destruct (H_sqrt _ S) as (s & -> & E). cbn [bind]. cbv zeta. cbn [fst snd] in *.
  unfold nrm, qnorm in E. cbn [fst snd] in E. pose proof two_nz as T.
  assert (G : forall s' w, s' * s' = x * x - q_d * (y * y) -> w = (x + s') / two -> sq w ->
     exists r : L, (a <- sqrt w ;; i <- finvert (a + a) ;; Ok (a, y * i)) = Ok r /\ fmul r r = (x, y)).
  { intros s' w S' W SW. destruct (H_sqrt _ SW) as (a & -> & Ea). cbn [bind].
    assert (NA : a <> 0).
    { intros ->. assert (Z0 : x + s' = 0) by (transitivity ((x + s') / two * two); [field; auto | rewrite <- W, <- Ea; ring]).
      assert (Hx : x = - s') by (apply (f_sub_0 K HK); rewrite <- Z0; ring). clear Z0. subst x.
      assert (Z1 : q_d * (y * y) = 0) by (replace (q_d * (y * y)) with (- s' * - s' - (- s' * - s' - q_d * (y * y))) by ring; rewrite <- S'; ring).
      apply Hd. exists 0. destruct (f_integral K HK _ _ Z1) as [-> | Z2]; [ring | ]. destruct (f_integral K HK _ _ Z2); contradiction. }
    assert (NA2 : a + a <> 0) by (replace (a + a) with (two * a) by (unfold two; ring); apply f_mul_nz; auto).
    rewrite (finvert_ok K HK) by auto. cbn [bind]. exists ((a, y / (a + a)) : L). split.
    - do 2 f_equal. field. auto.
    - apply (root_from x y s'); auto. rewrite Ea. auto. }
  destruct (is_sqr ((x + s) / two)) eqn:I.
  - apply (G s); auto. apply H_is; auto.
  - apply (G (- s)).
    + rewrite <- E. ring.
    + field. auto.
    + destruct (half_square x y s Y E) as [[S1 _] | [_ S2]]; auto. apply H_is in S1. congruence.
Qed.
(** on elements of the base field it only works for squares whose chosen root
    of the norm is the element itself *)
Theorem q_sqrt_base : forall x : K,
  (exists r, q_sqrt K is_sqr sqrt k (x, 0) = Ok r) <-> (x <> 0 /\ sq x /\ sqrt (x * x) = Ok x).
Proof.
  intro x. pose proof two_nz as T. rewrite q_sqrt_eq. cbn [fst snd].
  replace (nrm (x, 0)) with (x * x) by (unfold nrm, qnorm; cbn [fst snd]; ring).
  destruct (H_sqrt (x * x)) as (s & -> & E); [exists x; auto | ]. cbn [bind]. cbv zeta.
  assert (Z0 : forall w, w = 0 -> (a <- sqrt w ;; i <- finvert (a + a) ;; Ok (a, 0 * i)) = UB).
  { intros w ->. destruct (H_sqrt 0) as (a & -> & Ea); [exists 0; ring | ]. cbn [bind].
    replace (a + a) with (0 : K); [rewrite (finvert_0 K HK); auto | ]. destruct (f_integral K HK _ _ Ea); subst; ring. }
  assert (ZS : is_sqr 0 = true) by (apply H_is; exists 0; ring).
  destruct (f_eq_dec K HK x 0) as [-> | NX].
  { assert (s = 0) by (replace (0 * 0) with (0 : K) in E by ring; destruct (f_integral K HK _ _ E); auto). subst s.
    replace ((0 + 0) / two) with (0 : K) by (field; auto). rewrite ZS, Z0 by auto.
    split; [intros [r Hr]; discriminate | tauto]. }
  destruct (f_sq_eq K HK _ _ E) as [-> | ->].
  - replace ((x + x) / two) with x by (replace (x + x) with (two * x) by (unfold two; ring); field; auto). destruct (is_sqr x) eqn:I.
    + split; [intros _; repeat split; auto; apply H_is; auto | intros _].
      apply H_is in I. destruct (H_sqrt _ I) as (a & -> & Ea). cbn [bind].
      assert (NA : a + a <> 0).
      { replace (a + a) with (two * a) by (unfold two; ring). apply f_mul_nz; auto. intros ->. apply NX. rewrite <- Ea. ring. }
      rewrite (finvert_ok K HK) by auto. cbn [bind]. eauto.
    + rewrite Z0 by (field; auto). split; [intros [r Hr]; discriminate | intros (_ & S & _)]. apply H_is in S. congruence.
  - replace ((x + - x) / two) with (0 : K) by (field; auto). rewrite ZS, Z0 by auto.
    split; [intros [r Hr]; discriminate | intros (_ & _ & X)]. inversion X as [X']. exfalso.
    assert (X2 : two * x = 0) by (transitivity (x - - x); [unfold two; ring | rewrite X'; ring]).
    destruct (f_integral K HK _ _ X2); contradiction.
Qed.
End Roots.
End Q.
