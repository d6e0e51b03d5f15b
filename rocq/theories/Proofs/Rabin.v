(** Soundness of the irreducibility test of RabinCompute. *)
From Coq Require Import ZArith Znumtheory List Bool Lia Arith Ring Field Setoid Morphisms.
From Verif.Base Require Import Algebra Slots.
From Verif.Spec Require Import FiniteField Polynomials Extension Ternary.
From Verif.Proofs Require Import FieldFacts PolyAlgebra PolyRoots ExtFacts Frobenius GF3mBits PowFacts RabinCompute.
Import ListNotations.
Open Scope nat_scope.

(** Iteration of a map. *)
Fixpoint iter {A} (f : A -> A) (n : nat) (x : A) : A := match n with O => x | S n' => f (iter f n' x) end.
Lemma iter_add : forall A (f : A -> A) a b x, iter f (a + b) x = iter f a (iter f b x).
Proof. induction a; intros; cbn; [auto | rewrite IHa; auto]. Qed.
Lemma iter_mul : forall A (f : A -> A) a k, (forall x, iter f a x = x) -> forall x, iter f (k * a) x = x.
Proof. intros A f a k H. induction k; intro x; cbn; auto. rewrite iter_add, H. auto. Qed.
Lemma iter_gcd : forall A (f : A -> A) a b, a <> 0 -> (forall x, iter f a x = x) -> (forall x, iter f b x = x) -> forall x, iter f (Nat.gcd a b) x = x.
Proof.
  intros A f a b Ha Fa Fb x. destruct (Nat.gcd_bezout a b) as [(u & v & E) | (u & v & E)].
  - rewrite <- (iter_mul A f b v Fb (iter f _ x)), <- iter_add. replace (v * b + Nat.gcd a b) with (u * a) by lia. apply iter_mul; auto.
  - rewrite <- (iter_mul A f a v Fa (iter f _ x)), <- iter_add. rewrite Nat.gcd_comm in *. replace (v * a + Nat.gcd b a) with (u * b) by lia. apply iter_mul; auto.
Qed.

Section Root.
Variable L : fld.
Hypothesis HL : fld_laws L.
Add Field LFr : (fl_field L HL).
Local Notation "0" := (@f0 L). Local Notation "1" := (@f1 L).
Local Notation "x + y" := (@fadd L x y). Local Notation "x * y" := (@fmul L x y). Local Notation "x - y" := (@fsub L x y). Local Notation "- x" := (@fopp L x).
Hypothesis C3 : 1 + 1 + 1 = 0.
Definition emb (a : trit) : L := match a with T0 => 0 | T1 => 1 | T2 => - (1) end.
Lemma two_m1 : 1 + 1 = - (1). Proof. replace (1 + 1) with (1 + 1 + 1 - 1) by ring. rewrite C3. ring. Qed.
Lemma m2_1 : - (1) + - (1) = 1. Proof. replace (- (1) + - (1)) with (- (1 + 1)) by ring. rewrite two_m1. ring. Qed.
Lemma emb_add : forall a b, emb (tadd a b) = emb a + emb b.
Proof. intros [] []; cbn; try ring; [symmetry; apply two_m1 | symmetry; apply m2_1]. Qed.
Lemma emb_neg : forall a, emb (tneg a) = - emb a. Proof. intros []; cbn; ring. Qed.
Definition fr (x : L) : L := x * (x * x).
Lemma fr_add : forall x y, fr (x + y) = fr x + fr y.
Proof.
  intros x y. unfold fr. replace ((x + y) * ((x + y) * (x + y))) with (x * (x * x) + y * (y * y) + (1 + 1 + 1) * (x * x * y + x * y * y)) by ring.
  rewrite C3. ring.
Qed.
Lemma fr_mul : forall x y, fr (x * y) = fr x * fr y. Proof. intros. unfold fr. ring. Qed.
Lemma fr_emb : forall a, fr (emb a) = emb a. Proof. intros []; unfold fr; cbn; ring. Qed.
Fixpoint ev (f : list trit) (x : L) : L := match f with [] => 0 | a :: f' => emb a + x * ev f' x end.
Fixpoint pw' (x : L) (n : nat) : L := match n with O => 1 | Datatypes.S n' => x * pw' x n' end.
Lemma ev_padd : forall f g x, ev (padd f g) x = ev f x + ev g x.
Proof. induction f as [ | a f IH]; intros [ | b g] x; cbn [padd ev]; try ring. rewrite emb_add, IH. ring. Qed.
Lemma ev_pneg : forall f x, ev (pneg f) x = - ev f x.
Proof. intros f x. unfold pneg. induction f as [ | a f IH]; cbn [map ev]; [ring | rewrite emb_neg, IH; ring]. Qed.
Lemma ev_spread : forall f x, ev (spread f) x = ev f (fr x).
Proof. induction f as [ | a f IH]; intro x; cbn [spread ev]; auto. rewrite IH. unfold fr. cbn [emb]. ring. Qed.
Lemma ev_shift : forall k f x, ev (shift k f) x = pw' x k * ev f x.
Proof. induction k; intros; cbn [shift ev pw']; [ring | ]. rewrite IHk. cbn [emb]. ring. Qed.
Lemma ev_app : forall f g x, ev (f ++ g) x = ev f x + pw' x (length f) * ev g x.
Proof. induction f as [ | a f IH]; intros; cbn [app ev length pw']; [ring | ]. rewrite IH. ring. Qed.
Lemma ev_fr : forall f x, ev f (fr x) = fr (ev f x).
Proof.
  induction f as [ | a f IH]; intro x; cbn [ev]; [unfold fr; ring | ]. rewrite IH, fr_add, fr_mul, fr_emb. auto.
Qed.
Variables (m t : nat).
Hypothesis Hm : 1 <= m.
Variable al : L.
Hypothesis Al : ev (tri m t) al = 0.
Lemma al_m : pw' al m = 1 - pw' al t.
Proof.
  pose proof Al as A. unfold tri in A. rewrite ev_padd in A. cbn [ev] in A. rewrite !ev_shift in A. cbn [ev emb] in A.
  replace (pw' al m) with (al * pw' al (m - 1)) by (change (al * pw' al (m - 1)) with (pw' al (Datatypes.S (m - 1))); f_equal; lia).
  replace (al * pw' al (m - 1)) with (1 - pw' al t + (- (1) + al * (pw' al (m - 1) * (1 + al * 0)) + pw' al t * (1 + al * 0))) by ring.
  rewrite A. ring.
Qed.
Lemma ev_fold : forall fuel f, ev (fold_down fuel m t f) al = ev f al.
Proof.
  induction fuel; intro f; cbn [fold_down]; auto. destruct (skipn m f) as [ | h hi] eqn:E; auto. rewrite <- E. rewrite IHfuel.
  rewrite !ev_padd, ev_shift, ev_pneg. rewrite <- (firstn_skipn m f) at 4. rewrite ev_app.
  assert (Lf : length (firstn m f) = m).
  { rewrite firstn_length. apply Nat.min_l. destruct (le_lt_dec m (length f)); auto. rewrite skipn_all2 in E by lia. discriminate E. }
  rewrite Lf, al_m. ring.
Qed.
Lemma ev_cube : forall fuel f, ev (cube fuel m t f) al = fr (ev f al).
Proof. intros. unfold cube. rewrite ev_fold, ev_spread. apply ev_fr. Qed.
Lemma ev_powers : forall n fuel k f, k <= n -> ev (nth k (powers n fuel m t f) []) al = iter fr k (ev f al).
Proof.
  induction n; intros fuel k f Hk; cbn [powers]; destruct k; try reflexivity; try lia. cbn [nth].
  rewrite IHn by lia. rewrite ev_cube. replace (Datatypes.S k) with (k + 1)%nat by lia. rewrite iter_add. reflexivity.
Qed.
Lemma ev_X : ev RabinCompute.X al = al. Proof. cbn. ring. Qed.
Lemma all0_ev : forall f, all0 f = true -> forall x, ev f x = 0.
Proof. induction f as [ | [] f IH]; intros H x; cbn in *; try discriminate; auto. rewrite IH by auto. ring. Qed.
Lemma is_X_ev : forall f, is_X f = true -> ev f al = al.
Proof.
  intros f H. pose proof (all0_ev _ H al) as E. rewrite ev_padd, ev_pneg, ev_X in E.
  replace (ev f al) with (ev f al + - al + al) by ring. rewrite E. ring.
Qed.
(** leading coefficient first *)
Definition er (f : list trit) (x : L) : L := ev (rev f) x.
Lemma er_cons : forall a f x, er (a :: f) x = er f x + pw' x (length f) * emb a.
Proof. intros. unfold er. cbn [rev]. rewrite ev_app, rev_length. cbn [ev]. ring. Qed.
Lemma er_strip : forall f x, er (strip f) x = er f x.
Proof. induction f as [ | [] f IH]; intros; cbn [strip]; auto. rewrite IH, er_cons. cbn [emb]. ring. Qed.
Lemma pw_add : forall a b x, pw' x (a + b) = pw' x a * pw' x b.
Proof. induction a; intros; cbn; [ring | rewrite IHa; ring]. Qed.
Definition cf (c : trit) (y : trit) := match c with T0 => T0 | T1 => y | T2 => tneg y end.
Lemma emb_cf : forall c y, emb (cf c y) = emb c * emb y. Proof. intros [] y; cbn [cf]; [cbn; ring | cbn [emb]; ring | rewrite emb_neg; cbn [emb]; ring]. Qed.
Lemma combine_length : forall c b a, length b <= length a -> length (combine c a b) = length a.
Proof. induction b as [ | y b IH]; intros [ | x a] H; cbn [combine length] in *; auto. f_equal. apply IH. lia. Qed.
Lemma er_combine : forall c b a x, length b <= length a -> er (combine c a b) x = er a x + emb c * pw' x (length a - length b) * er b x.
Proof.
  induction b as [ | y b IH]; intros [ | u a] x H; cbn [length] in H; try lia; cbn [combine].
  - unfold er; cbn; ring.
  - unfold er at 3; cbn [rev ev]. ring.
  - change (match c with T0 => T0 | T1 => y | T2 => tneg y end) with (cf c y). rewrite !er_cons, IH by lia.
    rewrite combine_length by lia. rewrite emb_add, emb_cf. cbn [length]. change (Datatypes.S (length a) - Datatypes.S (length b))%nat with (length a - length b)%nat.
    assert (E : pw' x (length a) = pw' x (length a - length b) * pw' x (length b)) by (rewrite <- pw_add; f_equal; lia). rewrite E. ring.
Qed.
Lemma emb_nz : forall a, a <> T0 -> emb a <> 0.
Proof.
  intros [] H; cbn; [contradiction | apply (f_1_neq_0 L HL) | ]. intro E. apply (f_1_neq_0 L HL). replace 1 with (- - (1)) by ring. rewrite E. ring.
Qed.
(** the first entry is not 0 *)
Definition led (f : list trit) : Prop := match f with T0 :: _ => False | _ => True end.
Lemma strip_led : forall f, led (strip f). Proof. induction f as [ | [] f IH]; cbn; auto. Qed.
Lemma coprime_sound : forall fuel a b, led a -> led b -> RabinCompute.coprime fuel a b = true -> er a al = 0 -> er b al = 0 -> False.
Proof.
  induction fuel; intros a b La Lb H Ea Eb; [discriminate H | ]. cbn [RabinCompute.coprime] in H.
  destruct b as [ | y b]; [destruct a; discriminate H | ]. destruct b as [ | z b].
  - unfold er in Eb. cbn in Eb. apply (emb_nz y); [destruct y; [contradiction | discriminate | discriminate] | ]. rewrite <- Eb. ring.
  - destruct a as [ | u a]; [discriminate H | ]. destruct (_ <? _) eqn:Lt.
    + apply (IHfuel _ _ Lb La H Eb Ea).
    + apply Nat.ltb_ge in Lt. eapply (IHfuel _ _ (strip_led _) Lb H); auto. rewrite er_strip, er_combine by auto. rewrite Ea, Eb. ring.
Qed.

(** every element is a polynomial in al *)
Hypothesis Gen : forall y : L, exists f, y = ev f al.
Lemma ev_iter : forall k f x, ev f (iter fr k x) = iter fr k (ev f x).
Proof. induction k; intros; cbn; auto. rewrite ev_fr, IHk. auto. Qed.
Lemma gen_fix : forall k, iter fr k al = al -> forall y, iter fr k y = y.
Proof. intros k E y. destruct (Gen y) as [f ->]. rewrite <- ev_iter, E. auto. Qed.
Lemma iter_pow : forall k (x : L), iter fr k x = npow (x : mul_monoid L) (3 ^ k).
Proof.
  induction k; intro x; cbn [iter]; [cbn; ring | ]. rewrite IHk. unfold fr. replace (3 ^ Datatypes.S k) with (3 ^ k + (3 ^ k + 3 ^ k))%nat by (cbn; lia).
  rewrite !(npow_add _ (mul_monoid_laws L HL)). reflexivity.
Qed.
Variables (d : nat).
Hypothesis Hq : has_order L (3 ^ Z.of_nat d).
Lemma pow3_pos : forall k, 0 < 3 ^ k. Proof. intro k. pose proof (Nat.pow_nonzero 3 k). lia. Qed.
Lemma pow3_Z : forall k, (Z.of_nat (3 ^ k) = 3 ^ Z.of_nat k)%Z.
Proof. intro k. rewrite Nat2Z.inj_pow. reflexivity. Qed.
Lemma d_fix : forall y, iter fr d y = y.
Proof.
  intro y. rewrite iter_pow. destruct Hq as (l & N & C & E). rewrite <- pow3_Z in E. apply Nat2Z.inj in E. rewrite <- E.
  destruct (fl_eqb L HL y 0) as [B _]. destruct (feqb y 0) eqn:F.
  - rewrite (B eq_refl). apply (npow_0_pos L HL). rewrite E. apply pow3_pos.
  - assert (Y : y <> 0) by (intro Z0; apply (fl_eqb L HL) in Z0; congruence).
    pose proof (fermat L HL l N C y Y) as FM. replace (length l) with (1 + (length l - 1))%nat by (rewrite E; pose proof (pow3_pos d); lia).
    rewrite (npow_add _ (mul_monoid_laws L HL)). rewrite FM. cbn. ring.
Qed.
(** X^(3^g) - X has at most 3^g roots *)
Lemma fix_bound : forall g, (forall y, iter fr g y = y) -> 1 <= g -> d <= g.
Proof.
  intros g F G. destruct Hq as (l & N & C & E). rewrite <- pow3_Z in E. apply Nat2Z.inj in E.
  assert (B : length l <= 3 ^ g).
  { assert (P3 : 3 <= 3 ^ g) by (destruct g; [lia | cbn; pose proof (pow3_pos g); lia]).
    apply (root_count L HL (3 ^ g) (0 :: - (1) :: repeat 0 (3 ^ g - 2) ++ [1])); auto.
    - cbn [length]. rewrite app_length, repeat_length. cbn. lia.
    - change (0 :: - (1) :: repeat 0 (3 ^ g - 2) ++ [1]) with ((0 :: - (1) :: repeat 0 (3 ^ g - 2)) ++ [1]). rewrite last_last. apply (f_1_neq_0 L HL).
    - intros x _. pose proof (F x) as Fx. rewrite iter_pow in Fx.
      assert (R : forall k, FieldFacts.peval L (repeat 0 k ++ [1]) x = npow (x : mul_monoid L) k) by (induction k; cbn; [ring | rewrite IHk; cbn; ring]).
      cbn [FieldFacts.peval]. rewrite R. replace (3 ^ g) with (1 + (1 + (3 ^ g - 2)))%nat in Fx by lia. cbn in Fx.
      replace (0 + x * (- (1) + x * npow (x : mul_monoid L) (3 ^ g - 2))) with (x * (x * npow (x : mul_monoid L) (3 ^ g - 2)) - x) by ring.
      rewrite Fx. ring. }
  rewrite E in B. destruct (le_lt_dec d g) as [Q | Q]; auto. exfalso.
  assert (3 ^ g < 3 ^ d) by (apply Nat.pow_lt_mono_r; lia). lia.
Qed.
Variables (fuel : nat) (es : list nat).
Hypothesis T : 0 < t < m.
Lemma tri_led : led (rev (tri m t)).
Proof.
  assert (A : forall a b f, b <= a -> padd (shift a [T1]) (shift b [T1]) = f -> b < a -> exists g, f = g ++ [T1]).
  { induction a; intros b f Hb E Lt; [lia | ]. destruct b; cbn [shift padd] in E.
    - exists (T1 :: shift a []). rewrite <- E. cbn [app]. f_equal. clear. induction a; cbn; auto. destruct a; cbn in *; f_equal; auto.
    - destruct (IHa b _ ltac:(lia) eq_refl ltac:(lia)) as [g Eg]. rewrite Eg in E. exists (T0 :: g). rewrite <- E. reflexivity. }
  unfold tri. destruct t as [ | t']; [lia | ]. cbn [shift padd]. destruct (A (m - 1)%nat t' _ ltac:(lia) eq_refl ltac:(lia)) as [g Eg]. rewrite Eg.
  cbn [rev]. rewrite rev_app_distr. exact Logic.I.
Qed.
Hypothesis Chk : rabin_check m t fuel es = true.
Lemma no_small : 1 <= d < m -> False.
Proof.
  intro D. unfold rabin_check in Chk. apply andb_true_iff in Chk. destruct Chk as [H12 H3]. apply andb_true_iff in H12. destruct H12 as [H1 H2].
  assert (Fm : iter fr m al = al). { rewrite <- (is_X_ev _ H1) at 2. rewrite ev_powers by lia. rewrite ev_X. auto. }
  assert (Dv : Nat.gcd d m = d).
  { assert (G : d <= Nat.gcd d m).
    { apply fix_bound; [apply iter_gcd; [lia | apply d_fix | apply gen_fix; auto] | ]. pose proof (Nat.gcd_eq_0_l d m). lia. }
    pose proof (Nat.gcd_divide_l d m) as Q. apply Nat.divide_pos_le in Q; lia. }
  assert (Dm : m mod d = 0%nat). { apply Nat.mod_divide; [lia | ]. rewrite <- Dv at 1. apply Nat.gcd_divide_r. }
  rewrite forallb_forall in H3. specialize (H3 d). rewrite in_seq in H3. specialize (H3 ltac:(lia)). rewrite Dm in H3. cbn in H3.
  apply existsb_exists in H3. destruct H3 as (e & He & Ed). apply Nat.eqb_eq in Ed. apply Nat.mod_divide in Ed; [ | lia]. destruct Ed as [k Ek].
  rewrite forallb_forall in H2. specialize (H2 e He). apply andb_true_iff in H2. destruct H2 as [Q H2]. apply Nat.leb_le in Q.
  assert (Fe : iter fr e al = al). { rewrite Ek. apply iter_mul. apply d_fix. }
  eapply coprime_sound; [apply tri_led | apply strip_led | exact H2 | | ].
  - unfold er. rewrite rev_involutive. exact Al.
  - rewrite er_strip. unfold er. rewrite rev_involutive, ev_padd, ev_pneg, ev_X, ev_powers by lia. rewrite ev_X, Fe. ring.
Qed.
End Root.

(** The class of x in GF(3)[x]/(g). *)
Section Class.
Variables (d : nat) (g : list GF3).
Hypothesis Mg : monic g d.
Hypothesis Dd : 0 < d.
Hypothesis Ig : irreducible g.
Notation K := GF3. Notation HK := GF3_laws. Notation L := (Ext GF3 d g).
Add Ring PolyRr : (poly_ring K HK) (setoid (eqp_equiv K) (poly_ext K HK)).
Existing Instance eqp_equiv.
Local Instance addp_proper3 : Proper (eqp ==> eqp ==> eqp) (addp K) := addp_proper K HK.
Local Instance oppp_proper3 : Proper (eqp ==> eqp) (oppp K) := oppp_proper K HK.
Local Instance mulp_proper3 : Proper (eqp ==> eqp ==> eqp) (mulp K) := mulp_proper K HK.
Local Instance cong_equiv3 m : Equivalence (cong m) := cong_equiv K HK m.
Local Instance eqp_cong3 m : subrelation (@eqp K) (cong m) := eqp_cong K HK m.
Local Instance addp_cong3 m : Proper (cong m ==> cong m ==> cong m) (addp K) := addp_cong K HK m.
Local Instance mulp_cong3 m : Proper (cong m ==> cong m ==> cong m) (mulp K) := mulp_cong K HK m.
Local Instance oppp_cong3 m : Proper (cong m ==> cong m) (oppp K) := oppp_cong K HK m.
Lemma HL : fld_laws L. Proof. exact (Ext_laws K HK d g Mg Dd Ig). Qed.
Lemma OL : has_order L (3 ^ Z.of_nat d).
Proof. apply Ext_order. exists [T0; T1; T2]. repeat split; [repeat constructor; cbn; intuition discriminate | intros []; cbn; auto]. Qed.
Definition cls (f : list GF3) : L := mkvec d (coef (red K d g f)).
Lemma cls_cong : forall f, cong g (vl K d (cls f)) f.
Proof.
  intro f. transitivity (red K d g f); [ | apply (red_cong K HK d g Mg); exact Dd]. apply (eqp_cong K HK). apply (mk_eqp K d); [exact Dd | ].
  destruct f as [ | a f]; [cbn; lia | apply Nat.eq_le_incl, (red_length K d g); discriminate].
Qed.
Lemma C3L : fadd (fadd (f1 : L) f1) f1 = f0.
Proof.
  apply (vec_cong K HK d g Mg). apply (eqp_cong K HK). rewrite !(E_add K HK d g), !(E_1 K d g Dd), (E_0 K d g). intros [ | [ | i]]; reflexivity.
Qed.
Lemma emb_cong : forall a, eqp (vl K d (emb L a)) [a].
Proof.
  intros []; cbn [emb].
  - rewrite (E_0 K d g). intros [ | [ | i]]; reflexivity.
  - rewrite (E_1 K d g Dd). reflexivity.
  - rewrite (E_opp K HK d g), (E_1 K d g Dd). intros [ | [ | i]]; reflexivity.
Qed.
Lemma ev_cong : forall f, cong g (vl K d (ev L f (cls [T0; T1]))) f.
Proof.
  induction f as [ | a f IH]; cbn [ev]; [apply (eqp_cong K HK), (E_0 K d g) | ].
  rewrite (E_add K HK d g), (E_mul K HK d g Mg Dd), IH, cls_cong, emb_cong. apply (eqp_cong K HK). rewrite (cons_split K HK a f). reflexivity.
Qed.
Lemma gen : forall y : L, exists f, y = ev L f (cls [T0; T1]).
Proof. intro y. exists (vl K d y). apply (vec_cong K HK d g Mg). symmetry. apply ev_cong. Qed.
Lemma root : forall f, divides g f -> ev L f (cls [T0; T1]) = f0.
Proof. intros f H. apply (vec_cong K HK d g Mg). rewrite ev_cong, (E_0 K d g). apply (cong_0 K HK). auto. Qed.
Lemma small_factor : forall m t fuel es, 0 < t < m -> d < m -> divides g (tri m t) -> rabin_check m t fuel es = true -> False.
Proof.
  intros m t fuel es T D Dv C.
  apply (no_small L HL C3L m t ltac:(lia) (cls [T0; T1]) (root _ Dv) gen d OL fuel es T C). lia.
Qed.
End Class.

Section Factor.
Notation K := GF3. Notation HK := GF3_laws.
Add Ring PolyRs : (poly_ring K HK) (setoid (eqp_equiv K) (poly_ext K HK)).
Existing Instance eqp_equiv.
Local Instance mulp_proper4 : Proper (eqp ==> eqp ==> eqp) (mulp K) := mulp_proper K HK.
Lemma constant_trim : forall f : list K, constant f <-> length (trim f) <= 1.
Proof.
  intro f. split; intro H.
  - apply (normal_length K); [apply (trim_normal K HK) | ]. intros i Hi. rewrite (coef_trim K HK). apply H. lia.
  - intros i Hi. rewrite <- (coef_trim K HK). apply coef_over. lia.
Qed.
(** an irreducible monic divisor *)
Lemma factor : forall n (f : list K), length (trim f) <= n -> ~ constant f ->
  (forall g d, irreducible g -> monic g d -> 0 < d -> d < length (trim f) -> divides g f -> False) -> False.
Proof.
  induction n as [ | n IH]; intros f Lf Cf H; [apply Cf, constant_trim; lia | ].
  assert (Tf : trim f <> []) by (intro E; apply Cf, constant_trim; rewrite E; cbn; lia).
  assert (If : irreducible f).
  { split; auto. intros u v E. destruct (le_lt_dec (length (trim u)) 1) as [A | A]; [left; apply constant_trim; auto | ].
    destruct (le_lt_dec (length (trim v)) 1) as [B | B]; [right; apply constant_trim; auto | ]. exfalso.
    assert (Ep : eqp f (mulp K u v)) by (intro i; rewrite E, (coef_mulp K HK); auto).
    assert (Lm : length (trim f) + 1 = length (trim u) + length (trim v)).
    { apply (mul_length K HK); try apply (trim_normal K HK).
      - intro Z. rewrite Z in A. cbn in A. lia.
      - intro Z. rewrite Z in B. cbn in B. lia.
      - rewrite !(trim_eqp K HK). auto. }
    apply (IH u); [lia | rewrite constant_trim; lia | ]. intros g d Ig Mg Dg Ld Dv. apply (H g d); auto; [lia | ].
    apply (divides_mulp K HK) in Dv. destruct Dv as [h Dv]. apply (divides_mulp K HK). exists (mulp K h v). rewrite Ep, Dv. ring. }
  pose proof (normal_lead K (trim f) (trim_normal K HK f) Tf) as Ld. set (c := coef (trim f) (length (trim f) - 1)) in *.
  assert (Cc : fmul c c = f1) by (destruct c; [contradiction | reflexivity | reflexivity]).
  assert (Lt : 1 < length (trim f)). { destruct (le_lt_dec (length (trim f)) 1); auto. exfalso. apply Cf, constant_trim. auto. }
  assert (Ec : eqp (mulp K [c] (scalp K c (trim f))) f).
  { rewrite (scalp_mulp K HK), (trim_eqp K HK). rewrite (mulp_assoc K HK). assert (X : mulp K [c] [c] = [f1]) by (cbn [mulp scalp map addp]; destruct c; [contradiction | reflexivity | reflexivity]).
    rewrite X. ring. }
  apply (H (scalp K c (trim f)) (length (trim f) - 1)).
  - split.
    + intro C. apply Cf. intros i Hi. rewrite <- Ec, <- (scalp_mulp K HK), (coef_scalp K HK), C by auto. destruct c; reflexivity.
    + intros u v E. assert (Ep : eqp (scalp K c (trim f)) (mulp K u v)) by (intro i; rewrite E, (coef_mulp K HK); auto).
      destruct (proj2 If (scalp K c u) v) as [C | C]; [ | | right; auto].
      * intro i. rewrite <- (coef_mulp K HK). revert i. change (eqp f (mulp K (scalp K c u) v)). rewrite (scalp_mulp K HK), <- (mulp_assoc K HK), <- Ep. symmetry. auto.
      * left. intros i Hi. specialize (C i Hi). rewrite (coef_scalp K HK) in C. destruct c; [contradiction | | ]; destruct (coef u i); try discriminate C; reflexivity.
  - split; [unfold scalp; rewrite map_length; lia | rewrite (coef_scalp K HK); exact Cc].
  - lia.
  - lia.
  - apply (divides_mulp K HK). exists [c]. rewrite <- Ec at 1. ring.
Qed.
Theorem rabin_sound_list : forall m t fuel es (f : list K), f = tri m t -> 0 < t < m -> rabin_check m t fuel es = true -> normal f -> length f = S m -> irreducible f.
Proof.
  intros m t fuel es f Ef T C N Lm.
  assert (Tt : trim f = f) by (apply (trim_of_normal K HK); auto).
  split; [rewrite constant_trim, Tt, Lm; lia | ]. intros u v E.
  destruct (le_lt_dec (length (trim u)) 1) as [A | A]; [left; apply constant_trim; auto | ].
  destruct (le_lt_dec (length (trim v)) 1) as [B | B]; [right; apply constant_trim; auto | ]. exfalso.
  assert (Ep : eqp f (mulp K u v)) by (intro i; rewrite E, (coef_mulp K HK); auto).
  assert (Ll : length f + 1 = length (trim u) + length (trim v)).
  { apply (mul_length K HK); auto; try apply (trim_normal K HK).
    - intro Z. rewrite Z in A. cbn in A. lia.
    - intro Z. rewrite Z in B. cbn in B. lia.
    - rewrite !(trim_eqp K HK). auto. }
  apply (factor (length (trim u)) u); [auto | rewrite constant_trim; lia | ]. intros g d Ig Mg Dg Ld Dv.
  apply (small_factor d g Mg Dg Ig m t fuel es T); [lia | | auto]. rewrite <- Ef.
  apply (divides_mulp K HK) in Dv. destruct Dv as [h Dv]. apply (divides_mulp K HK). exists (mulp K h v). rewrite Ep, Dv. ring.
Qed.
Lemma nth_padd : forall f g i, nth i (padd f g) T0 = tadd (nth i f T0) (nth i g T0).
Proof. induction f as [ | a f IH]; intros [ | b g] [ | i]; cbn; auto; try (destruct (nth i _ T0); reflexivity); destruct a; reflexivity. Qed.
Lemma nth_shift1 : forall k i, nth i (shift k [T1]) T0 = if i =? k then T1 else T0.
Proof. induction k; intros [ | [ | i]]; cbn; auto; apply (IHk (S i)) || apply (IHk 0). Qed.
Lemma length_padd : forall f g, length (padd f g) = max (length f) (length g).
Proof. induction f as [ | a f IH]; intros [ | b g]; cbn; auto. Qed.
Lemma length_shift : forall k f, length (shift k f) = k + length f. Proof. induction k; intros; cbn; auto. Qed.
Lemma tri_eq : forall m t, 0 < t < m -> trinomial m t = tri m t.
Proof.
  intros m t T. unfold trinomial, tri. apply nth_ext with T0 T0.
  - rewrite map_length, seq_length, length_padd. cbn [length]. rewrite !length_shift. cbn [length]. lia.
  - intros i Hi. rewrite map_length, seq_length in Hi. rewrite nth_padd, nth_shift1.
    set (F := fun i => if i =? 0 then T2 else if (i =? t) || (i =? m) then T1 else T0).
    rewrite (nth_indep _ T0 (F 0)) by (rewrite map_length, seq_length; auto).
    + rewrite map_nth, seq_nth by auto. cbn [Nat.add]. unfold F. destruct i as [ | i]; cbn [nth].
      * destruct (Nat.eqb_spec 0 t); [lia | reflexivity].
      * rewrite nth_shift1. destruct (Nat.eqb_spec (S i) t), (Nat.eqb_spec i (m - 1)), (Nat.eqb_spec (S i) m); try lia; reflexivity.
Qed.
Theorem rabin_sound : forall m t fuel es, 0 < t < m -> rabin_check m t fuel es = true -> irreducible (trinomial m t).
Proof.
  intros m t fuel es T C. apply (rabin_sound_list m t fuel es); auto.
  - apply tri_eq; auto.
  - apply lead_normal. intros _. unfold trinomial at 1 2. rewrite map_length, seq_length. rewrite (coef_map_seq K). replace (S m - 1) with m by lia.
    destruct (Nat.ltb_spec m (S m)); [ | lia]. destruct (Nat.eqb_spec m 0); [lia | ]. rewrite Nat.eqb_refl, orb_true_r. discriminate.
  - unfold trinomial. rewrite map_length, seq_length. auto.
Qed.
End Factor.
