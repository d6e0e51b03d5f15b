(** Irreducible polynomials over a finite field: Rabin's criterion. *)
From Coq Require Import ZArith Znumtheory List Bool Lia Arith Ring Field Setoid Morphisms.
From Verif.Base Require Import Algebra Slots.
From Verif.Spec Require Import FiniteField Polynomials Extension.
From Verif.Proofs Require Import FieldFacts PolyAlgebra ExtFacts Frobenius PowFacts Rabin IntTextFacts.
Import ListNotations.
Open Scope nat_scope.

Section F.
Variable K : fld.
Hypothesis HK : fld_laws K.
Add Field KFrf : (fl_field K HK).
Add Ring PolyRf : (poly_ring K HK) (setoid (eqp_equiv K) (poly_ext K HK)).
Existing Instance eqp_equiv.
Local Instance addp_properf : Proper (eqp ==> eqp ==> eqp) (addp K) := addp_proper K HK.
Local Instance oppp_properf : Proper (eqp ==> eqp) (oppp K) := oppp_proper K HK.
Local Instance mulp_properf : Proper (eqp ==> eqp ==> eqp) (mulp K) := mulp_proper K HK.
Local Instance subp_properf : Proper (eqp ==> eqp ==> eqp) (subp K) := subp_proper K HK.
Local Instance cong_equivf m : Equivalence (cong m) := cong_equiv K HK m.
Local Instance eqp_congf m : subrelation (@eqp K) (cong m) := eqp_cong K HK m.
Local Instance addp_congf m : Proper (cong m ==> cong m ==> cong m) (addp K) := addp_cong K HK m.
Local Instance mulp_congf m : Proper (cong m ==> cong m ==> cong m) (mulp K) := mulp_cong K HK m.
Local Instance oppp_congf m : Proper (cong m ==> cong m) (oppp K) := oppp_cong K HK m.
Local Instance subp_congf m : Proper (cong m ==> cong m ==> cong m) (subp K) := subp_cong K HK m.

Definition pX : list K := [f0; f1].
Fixpoint pXn (n : nat) : list K := match n with O => [f1] | S n' => mulp K pX (pXn n') end.
(** X^N - X *)
Definition pXX (n : nat) : list K := subp K (pXn n) pX.

(** ** Divisibility *)
Lemma div_refl : forall f : list K, divides f f. Proof. intro f. apply (divides_mulp K HK). exists [f1]. ring. Qed.
Lemma div_trans : forall f g h : list K, divides f g -> divides g h -> divides f h.
Proof. intros f g h A B. apply (divides_mulp K HK) in A. apply (divides_mulp K HK) in B. destruct A as [u A], B as [v B]. apply (divides_mulp K HK). exists (mulp K u v). rewrite B, A. ring. Qed.
Lemma div_eqp : forall f g h : list K, eqp f g -> divides h f -> divides h g.
Proof. intros f g h E A. apply (divides_mulp K HK) in A. destruct A as [u A]. apply (divides_mulp K HK). exists u. rewrite <- E. auto. Qed.
Lemma div_cong : forall f g a b : list K, divides g f -> cong f a b -> cong g a b.
Proof. intros f g a b D C. apply (divides_mulp K HK) in D. destruct D as [u D]. apply (cong_mulp K HK) in C. destruct C as [v C]. apply (cong_mulp K HK). exists (mulp K v u). rewrite C, D. ring. Qed.
Lemma cong_div : forall f a b : list K, cong f a b -> (divides f a <-> divides f b).
Proof. intros f a b C. rewrite <- !(cong_0 K HK). rewrite C. reflexivity. Qed.
Lemma constant_trim : forall f : list K, constant f <-> length (trim f) <= 1.
Proof.
  intro f. split; intro H.
  - apply (normal_length K); [apply (trim_normal K HK) | ]. intros i Hi. rewrite (coef_trim K HK). apply H. lia.
  - intros i Hi. rewrite <- (coef_trim K HK). apply coef_over. lia.
Qed.
Lemma constant_dec : forall f : list K, constant f \/ ~ constant f.
Proof. intro f. destruct (le_lt_dec (length (trim f)) 1); [left | right]; rewrite constant_trim; auto. lia. Qed.
(** an irreducible monic divisor *)
Lemma factor : forall n (f : list K), length (trim f) <= n -> ~ constant f ->
  (forall g d, irreducible g -> monic g d -> 0 < d -> d < length (trim f) -> divides g f -> False) -> False.
Proof.
  induction n as [ | n IH]; intros f Lf Cf H; [apply Cf, constant_trim; lia | ].
  assert (Tf : trim f <> []) by (intro E; apply Cf, constant_trim; rewrite E; cbn; lia).
  assert (If : irreducible f).
  { split; auto. intros u v E. destruct (le_lt_dec (length (trim u)) 1) as [A | A]; [left; apply constant_trim; auto | ].
    destruct (le_lt_dec (length (trim v)) 1) as [B | B]; [right; apply constant_trim; auto | ]. exfalso.
    assert (Ep : eqp f (mulp K u v)) by (intro i; rewrite E, (coef_mulp K HK); auto).
    assert (Lm : length (trim f) + 1 = length (trim u) + length (trim v)).
    { apply (mul_length K HK); try apply (trim_normal K HK).
      - intro Z. rewrite Z in A. cbn in A. lia.
      - intro Z. rewrite Z in B. cbn in B. lia.
      - rewrite !(trim_eqp K HK). auto. }
    apply (IH u); [lia | rewrite constant_trim; lia | ]. intros g d Ig Mg Dg Ld Dv. apply (H g d); auto; [lia | ].
    apply (divides_mulp K HK) in Dv. destruct Dv as [h Dv]. apply (divides_mulp K HK). exists (mulp K h v). rewrite Ep, Dv. ring. }
  pose proof (normal_lead K (trim f) (trim_normal K HK f) Tf) as Ld. set (c := coef (trim f) (length (trim f) - 1)) in *.
  assert (Lt : 1 < length (trim f)). { destruct (le_lt_dec (length (trim f)) 1); auto. exfalso. apply Cf, constant_trim. auto. }
  assert (Xc : eqp (mulp K [c] [finv c]) [f1]) by (intros [ | [ | i]]; cbn; try field; auto; ring).
  set (g := scalp K (finv c) (trim f)).
  assert (Eg : eqp g (mulp K [finv c] f)) by (unfold g; rewrite (scalp_mulp K HK), (trim_eqp K HK); reflexivity).
  assert (Ec : eqp (mulp K [c] g) f) by (rewrite Eg, (mulp_assoc K HK), Xc; ring).
  assert (CS : forall u, constant u -> forall w, constant (mulp K [w] u)).
  { intros u Cu w i Hi. rewrite <- (scalp_mulp K HK), (coef_scalp K HK), (Cu i Hi). ring. }
  apply (H g (length (trim f) - 1)).
  - split.
    + intro C. apply Cf. intros i Hi. rewrite <- Ec. apply CS; auto.
    + intros u v E. assert (Ep : eqp g (mulp K u v)) by (intro i; rewrite E, (coef_mulp K HK); auto).
      destruct (proj2 If (mulp K [c] u) v) as [C | C]; [ | | right; auto].
      * intro i. rewrite <- (coef_mulp K HK). revert i. change (eqp f (mulp K (mulp K [c] u) v)). rewrite <- (mulp_assoc K HK), <- Ep. symmetry. auto.
      * left. intros i Hi. assert (Eu : eqp u (mulp K [finv c] (mulp K [c] u))) by (rewrite (mulp_assoc K HK), (mulp_comm K HK [finv c]), Xc; ring). rewrite Eu. apply CS; auto.
  - split; [unfold g, scalp; rewrite map_length; lia | unfold g; rewrite (coef_scalp K HK); fold c; field; auto].
  - lia.
  - lia.
  - apply (divides_mulp K HK). exists [c]. rewrite <- Ec at 1. ring.
Qed.

(** ** The order of K *)
Variables (p e : nat).
Hypothesis Pp : prime (Z.of_nat p).
Let q := p ^ e.
Hypothesis HO : has_order K (Z.of_nat q).
Lemma q_gt1 : 1 < q.
Proof.
  destruct HO as (l & N & C & E). assert (I0 := C f0). assert (I1 := C f1). destruct l as [ | a [ | b l]]; [destruct I0 | | cbn in E; lia].
  destruct I0 as [I0 | []]. destruct I1 as [I1 | []]. exfalso. apply (f_1_neq_0 K HK). congruence.
Qed.
Lemma fermatK : forall a : K, npow (a : mul_monoid K) q = a.
Proof.
  intro a. destruct HO as (l & N & C & E). apply Nat2Z.inj in E. destruct (f_eq_dec K HK a f0) as [-> | Z]; [apply (npow_0_pos K HK); pose proof q_gt1; lia | ].
  pose proof (fermat K HK l N C a Z) as FM. rewrite E in FM. replace q with (S (q - 1)) by (pose proof q_gt1; lia). cbn [npow]. rewrite FM. cbn. ring.
Qed.

Section Class.
Variables (d : nat) (g : list K).
Hypothesis Mg : monic g d.
Hypothesis Dd : 0 < d.
Hypothesis Ig : irreducible g.
Notation L := (Ext K d g).
Lemma HL : fld_laws L. Proof. exact (Ext_laws K HK d g Mg Dd Ig). Qed.
Add Field LFrf : (fl_field L HL).
Lemma OL : has_order L (Z.of_nat (q ^ d)).
Proof. rewrite Nat2Z.inj_pow. apply Ext_order. exact HO. Qed.
Definition cls (f : list K) : L := mkvec d (coef (red K d g f)).
Lemma cls_cong : forall f, cong g (vl K d (cls f)) f.
Proof.
  intro f. transitivity (red K d g f); [ | apply (red_cong K HK d g Mg); exact Dd]. apply (eqp_cong K HK). apply (mk_eqp K d); [exact Dd | ].
  destruct f as [ | a f]; [cbn; lia | apply Nat.eq_le_incl, (red_length K d g); discriminate].
Qed.
Lemma cls_eq : forall f h, cls f = cls h <-> cong g f h.
Proof.
  intros f h. split; intro H.
  - rewrite <- (cls_cong f), H. apply cls_cong.
  - apply (vec_cong K HK d g Mg). rewrite !cls_cong. auto.
Qed.
Lemma cls_add : forall f h, cls (addp K f h) = fadd (cls f) (cls h).
Proof. intros. apply (vec_cong K HK d g Mg). rewrite (E_add K HK d g), !cls_cong. reflexivity. Qed.
Lemma cls_mul : forall f h, cls (mulp K f h) = fmul (cls f) (cls h).
Proof. intros. apply (vec_cong K HK d g Mg). rewrite (E_mul K HK d g Mg Dd), !cls_cong. reflexivity. Qed.
Lemma cls_0 : cls [] = f0. Proof. apply (vec_cong K HK d g Mg). rewrite cls_cong, (E_0 K d g). reflexivity. Qed.
Lemma cls_1 : cls [f1] = f1. Proof. apply (vec_cong K HK d g Mg). rewrite cls_cong, (E_1 K d g Dd). reflexivity. Qed.
Lemma cls_onto : forall y : L, exists f, y = cls f.
Proof. intro y. exists (vl K d y). apply (vec_cong K HK d g Mg). rewrite cls_cong. reflexivity. Qed.
Lemma cls_pow : forall a k, npow (cls [a] : mul_monoid L) k = cls [npow (a : mul_monoid K) k].
Proof.
  intros a k. induction k; [symmetry; apply cls_1 | ]. cbn [npow mul_monoid mmul]. rewrite IHk. rewrite <- cls_mul. apply cls_eq. apply (eqp_cong K HK). intros [ | [ | i]]; cbn; try ring; auto.
Qed.
Lemma cls_Xn : forall k, npow (cls pX : mul_monoid L) k = cls (pXn k).
Proof. induction k; [symmetry; apply cls_1 | ]. cbn [npow mul_monoid mmul pXn]. rewrite IHk. symmetry. apply cls_mul. Qed.
(** Frobenius over K *)
Definition fr (y : L) : L := npow (y : mul_monoid L) q.
Lemma charL : fofz (Z.of_nat p) = (f0 : L).
Proof.
  destruct OL as (l & N & C & E). pose proof (char_order L HL l N C) as CO. apply Nat2Z.inj in E. rewrite E in CO. unfold q in CO. rewrite <- Nat.pow_mul_r in CO. apply (char_p L HL) in CO. exact CO.
Qed.
Lemma fr_add : forall x y, fr (fadd x y) = fadd (fr x) (fr y).
Proof. intros. apply (frob_pm L HL p e x y Pp charL). Qed.
Lemma fr_mul : forall x y, fr (fmul x y) = fmul (fr x) (fr y). Proof. intros. apply (npow_mul_base L HL). Qed.
Lemma fr_cst : forall a, fr (cls [a]) = cls [a]. Proof. intro a. unfold fr. rewrite cls_pow, fermatK. reflexivity. Qed.
Lemma it_add : forall k x y, iter fr k (fadd x y) = fadd (iter fr k x) (iter fr k y).
Proof. induction k; intros; cbn [iter]; auto. rewrite IHk, fr_add. auto. Qed.
Lemma it_mul : forall k x y, iter fr k (fmul x y) = fmul (iter fr k x) (iter fr k y).
Proof. induction k; intros; cbn [iter]; auto. rewrite IHk, fr_mul. auto. Qed.
Lemma it_cst : forall k a, iter fr k (cls [a]) = cls [a].
Proof. induction k; intros; cbn [iter]; auto. rewrite IHk, fr_cst. auto. Qed.
Lemma it_pow : forall k (x : L), iter fr k x = npow (x : mul_monoid L) (q ^ k).
Proof.
  induction k; intro x; cbn [iter]; [cbn [Nat.pow npow mul_monoid mmul mone]; ring | ]. rewrite IHk. unfold fr. rewrite <- (npow_mul _ (mul_monoid_laws L HL)). f_equal. cbn. lia.
Qed.
Lemma gen_fix : forall k, iter fr k (cls pX) = cls pX -> forall y, iter fr k y = y.
Proof.
  intros k E y. destruct (cls_onto y) as [f ->]. induction f as [ | a f IH].
  - rewrite cls_0. rewrite it_pow. apply (npow_0_pos L HL). pose proof q_gt1. pose proof (Nat.pow_nonzero q k). lia.
  - assert (S : cls (a :: f) = fadd (cls [a]) (fmul (cls pX) (cls f))). { rewrite <- cls_mul, <- cls_add. apply cls_eq, (eqp_cong K HK), (cons_split K HK). }
    rewrite S. rewrite it_add, it_mul, it_cst, E, IH. auto.
Qed.
Lemma d_fix : forall y, iter fr d y = y.
Proof.
  intro y. rewrite it_pow. destruct OL as (l & N & C & E). apply Nat2Z.inj in E. rewrite <- E.
  assert (P : 0 < q ^ d) by (pose proof q_gt1; pose proof (Nat.pow_nonzero q d); lia).
  destruct (f_eq_dec L HL y f0) as [-> | Y]; [apply (npow_0_pos L HL); lia | ].
  pose proof (fermat L HL l N C y Y) as FM. replace (length l) with (1 + (length l - 1))%nat by lia.
  cbn [Nat.add npow mul_monoid mmul mone]. rewrite FM. ring.
Qed.
Lemma fix_bound : forall k, (forall y, iter fr k y = y) -> 1 <= k -> d <= k.
Proof.
  intros k F G. destruct OL as (l & N & C & E). apply Nat2Z.inj in E. pose proof q_gt1.
  assert (B : length l <= q ^ k).
  { assert (P3 : 2 <= q ^ k) by (destruct k; [lia | cbn; pose proof (Nat.pow_nonzero q k); nia]).
    apply (root_count L HL (q ^ k) (f0 :: fopp f1 :: repeat f0 (q ^ k - 2) ++ [f1])); auto.
    - cbn [length]. rewrite app_length, repeat_length. cbn. lia.
    - change (f0 :: fopp f1 :: repeat f0 (q ^ k - 2) ++ [f1]) with ((f0 :: fopp f1 :: repeat f0 (q ^ k - 2)) ++ [f1 : L]). rewrite last_last. apply (f_1_neq_0 L HL).
    - intros x _. pose proof (F x) as Fx. rewrite it_pow in Fx.
      assert (R : forall j, FieldFacts.peval L (repeat f0 j ++ [f1]) x = npow (x : mul_monoid L) j) by (induction j; cbn [repeat app FieldFacts.peval npow mul_monoid mmul mone]; [ring | rewrite IHj; ring]).
      cbn [FieldFacts.peval]. rewrite R. replace (q ^ k) with (S (S (q ^ k - 2)))%nat in Fx by lia. cbn [npow mul_monoid mmul] in Fx.
      transitivity (fsub (fmul x (fmul x (npow (x : mul_monoid L) (q ^ k - 2)))) x); [ring | ]. rewrite Fx. ring. }
  rewrite E in B. destruct (le_lt_dec d k) as [Q | Q]; auto. exfalso.
  assert (q ^ k < q ^ d) by (apply Nat.pow_lt_mono_r; lia). lia.
Qed.
Lemma fix_div : forall k, iter fr k (cls pX) = cls pX <-> divides g (pXX (q ^ k)).
Proof.
  intro k. rewrite it_pow, cls_Xn, cls_eq. rewrite <- (cong_0 K HK). unfold pXX. split; intro H.
  - rewrite H. apply (eqp_cong K HK). ring.
  - assert (S : eqp (pXn (q ^ k)) (addp K (subp K (pXn (q ^ k)) pX) pX)) by ring. rewrite S, H. apply (eqp_cong K HK). ring.
Qed.
Lemma div_order : divides g (pXX (q ^ d)). Proof. apply fix_div. apply d_fix. Qed.
Lemma div_mult : forall k, Nat.divide d k -> divides g (pXX (q ^ k)).
Proof. intros k [c ->]. apply fix_div. apply iter_mul. apply d_fix. Qed.
Lemma div_degree : forall k, 1 <= k -> divides g (pXX (q ^ k)) -> Nat.divide d k.
Proof.
  intros k Hk H. apply fix_div in H. assert (F := gen_fix k H).
  assert (G : d <= Nat.gcd d k).
  { apply fix_bound; [apply iter_gcd; [lia | apply d_fix | auto] | ]. pose proof (Nat.gcd_eq_0_l d k). lia. }
  pose proof (Nat.gcd_divide_l d k) as Q. apply Nat.divide_pos_le in Q; [ | lia]. replace d with (Nat.gcd d k) by lia. apply Nat.gcd_divide_r.
Qed.
End Class.

(** ** Rabin's criterion *)
Lemma maximal : forall d n, 0 < d < n -> Nat.divide d n -> exists r, prime (Z.of_nat r) /\ Nat.divide r n /\ Nat.divide d (n / r).
Proof.
  intros d n D [c E]. destruct (prime_factor_exists (Z.of_nat c) ltac:(nia)) as (r & Pr & [u Hu]).
  pose proof (prime_ge_2 r Pr). exists (Z.to_nat r). rewrite Z2Nat.id by lia. split; [exact Pr | ].
  assert (Ec : c = Z.to_nat u * Z.to_nat r) by (apply Nat2Z.inj; rewrite Nat2Z.inj_mul, !Z2Nat.id by nia; lia).
  assert (En : n = Z.to_nat u * d * Z.to_nat r) by (rewrite E, Ec; lia).
  split; [exists (Z.to_nat u * d); exact En | ]. exists (Z.to_nat u). rewrite En, Nat.div_mul by lia. reflexivity.
Qed.
(** f and X^N - X have a common factor *)
Definition common (f : list K) (N : nat) : Prop := exists h, ~ constant h /\ divides h f /\ divides h (pXX N).
Theorem rabin : forall (f : list K) n, monic f n -> 0 < n ->
  (irreducible f <-> divides f (pXX (q ^ n)) /\ forall r, prime (Z.of_nat r) -> Nat.divide r n -> ~ common f (q ^ (n / r))).
Proof.
  intros f n Mf Hn. assert (Tf : trim f = f) by (apply (trim_of_normal K HK), (monic_normal K HK n f Mf Hn)).
  assert (Lf : length f = S n) by apply Mf. split.
  - intros If. split; [apply (div_order n f Mf Hn If) | ]. intros r Pr Rn (h & Ch & Hf & HX).
    apply (divides_mulp K HK) in Hf. destruct Hf as [u Hf]. pose proof (prime_ge_2 _ Pr).
    assert (Cu : constant u) by (destruct (proj2 If h u); [intro i; rewrite Hf, (coef_mulp K HK); auto | contradiction | auto]).
    assert (Zu : coef u 0 <> f0).
    { intro Z. assert (eqp u []) as Zu by (intros [ | i]; [rewrite Z; rewrite coef_nil; auto | rewrite (Cu (S i)) by lia; rewrite coef_nil; auto]).
      rewrite Zu in Hf. assert (Z2 := Hf n). rewrite (mulp_nil_r K HK h n), coef_nil in Z2. destruct Mf as [_ M]. rewrite M in Z2. apply (f_1_neq_0 K HK Z2). }
    assert (Eu : eqp u [coef u 0]) by (intros [ | i]; [reflexivity | rewrite (Cu (S i)) by lia; destruct i; reflexivity]).
    set (c := coef u 0) in *. assert (Xc : eqp (mulp K [c] [finv c]) [f1]) by (intros [ | [ | i]]; cbn; try field; auto; ring).
    assert (Df : divides f h). { apply (divides_mulp K HK). exists [finv c]. rewrite Hf, Eu, <- (mulp_assoc K HK), Xc. ring. }
    assert (DX := div_trans _ _ _ Df HX). destruct Rn as [k Ek]. rewrite Ek, Nat.div_mul in DX by lia.
    apply (div_degree n f Mf Hn If) in DX; [ | nia]. apply Nat.divide_pos_le in DX; nia.
  - intros [DX Cr]. split; [rewrite constant_trim, Tf; lia | ]. intros u v E.
    destruct (le_lt_dec (length (trim u)) 1) as [A | A]; [left; apply constant_trim; auto | ].
    destruct (le_lt_dec (length (trim v)) 1) as [B | B]; [right; apply constant_trim; auto | ]. exfalso.
    assert (Ep : eqp f (mulp K u v)) by (intro i; rewrite E, (coef_mulp K HK); auto).
    assert (Ll : length f + 1 = length (trim u) + length (trim v)).
    { apply (mul_length K HK); auto; try apply (trim_normal K HK).
      - apply (monic_normal K HK n f Mf Hn).
      - intro Z. rewrite Z in A. cbn in A. lia.
      - intro Z. rewrite Z in B. cbn in B. lia.
      - rewrite !(trim_eqp K HK). auto. }
    apply (factor (length (trim u)) u); [auto | rewrite constant_trim; lia | ]. intros g d Ig Mg Dg Ld Dv.
    assert (Df : divides g f). { apply (divides_mulp K HK) in Dv. destruct Dv as [h Dv]. apply (divides_mulp K HK). exists (mulp K h v). rewrite Ep, Dv. ring. }
    assert (Dn := div_degree d g Mg Dg Ig n ltac:(lia) (div_trans _ _ _ Df DX)).
    destruct (maximal d n ltac:(lia) Dn) as (r & Pr & Rn & Dr). apply (Cr r Pr Rn). exists g. split; [apply Ig | ]. split; auto. apply (div_mult d g Mg Dg Ig). auto.
Qed.
End F.
