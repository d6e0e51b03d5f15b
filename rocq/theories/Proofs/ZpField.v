(** The field Z/p as an instance of the abstract structure, and Fermat's and
    Euler's theorems for integers modulo a prime. *)
From Coq Require Import ZArith Znumtheory List Bool Lia Eqdep_dec Field_theory Ring_theory.
From Verif.Base Require Import Outcome Gmp Algebra.
From Verif.Proofs Require Import GmpFacts ModFacts FpBackends PowFacts FieldFacts.
Import ListNotations.
Open Scope Z_scope.

Section Zp.
Variable p : Z.
Hypothesis Hp : 1 < p.

Definition inr (x : Z) : bool := (0 <=? x) && (x <? p).
Definition zp : Type := { x : Z | inr x = true }.
Definition zval (x : zp) : Z := proj1_sig x.
Arguments zval : simpl never.
Lemma zval_range : forall x, 0 <= zval x < p.
Proof. intros [x H]. unfold zval, inr in *. simpl. lia. Qed.
Lemma zval_inj : forall x y : zp, zval x = zval y -> x = y.
Proof.
  intros [x Hx] [y Hy] H. unfold zval in H. simpl in H. subst. f_equal. apply UIP_dec. apply bool_dec.
Qed.
Lemma inr_mod : forall x, inr (x mod p) = true.
Proof. intros x. unfold inr. pose proof (Z.mod_pos_bound x p ltac:(lia)). lia. Qed.
Definition zmk (x : Z) : zp := exist _ (x mod p) (inr_mod x).
Lemma zval_zmk : forall x, zval (zmk x) = x mod p. Proof. reflexivity. Qed.
Lemma zmk_zval : forall x, zmk (zval x) = x.
Proof. intros x. apply zval_inj. rewrite zval_zmk. apply Z.mod_small, zval_range. Qed.

Definition Zp : fld := {|
  fcar := zp; f0 := zmk 0; f1 := zmk 1;
  fadd := fun x y => zmk (zval x + zval y);
  fsub := fun x y => zmk (zval x - zval y);
  fmul := fun x y => zmk (zval x * zval y);
  fopp := fun x => zmk (- zval x);
  finv := fun x => zmk (match mpz_invert (zval x) p with Some i => i | None => 0 end);
  fdiv := fun x y => zmk (zval x * zval (zmk (match mpz_invert (zval y) p with Some i => i | None => 0 end)));
  feqb := fun x y => zval x =? zval y |}.

Lemma zval_mod : forall x, zval x = zval x mod p.
Proof. intros. symmetry. apply Z.mod_small, zval_range. Qed.

Ltac zp_push := 
  repeat match goal with |- context [zval (zmk ?x)] => rewrite (zval_zmk x) end;
  repeat (rewrite ?Z.add_mod_idemp_l, ?Z.add_mod_idemp_r, ?Z.mul_mod_idemp_l, ?Z.mul_mod_idemp_r,
            ?Zminus_mod_idemp_l, ?Zminus_mod_idemp_r by lia).

Lemma Zp_ring : @ring_theory Zp f0 f1 fadd fmul fsub fopp eq.
Proof.
  constructor; intros; apply zval_inj; simpl; zp_push; try (f_equal; ring).
  - rewrite (zval_mod x) at 2. f_equal; ring.
  - rewrite (zval_mod x) at 2. f_equal; ring.
Qed.

Hypothesis Hprime : prime p.
Lemma zinv_spec : forall x : Zp, x <> f0 -> fmul (finv x) x = f1.
Proof.
  intros x Hx. apply zval_inj. simpl. pose proof (zval_range x).
  assert (zval x <> 0).
  { intros E. apply Hx. apply zval_inj. rewrite E. simpl. rewrite zval_zmk, Z.mod_0_l; lia. }
  destruct (invert_spec p Hp (zval x)) as [y [Ey [Hy E]]]; [lia | apply prime_gcd_small; auto; lia |].
  rewrite Ey. zp_push. rewrite E. symmetry. apply Z.mod_small; lia.
Qed.

Lemma Zp_laws : fld_laws Zp.
Proof.
  constructor.
  - constructor.
    + apply Zp_ring.
    + intros E. apply (f_equal zval) in E. simpl in E. rewrite !zval_zmk, Z.mod_0_l, Z.mod_1_l in E by lia. lia.
    + intros x y. reflexivity.
    + intros x Hx. apply zinv_spec; auto.
  - intros x y. simpl. rewrite Z.eqb_eq. split; [apply zval_inj | intros ->; auto].
Qed.

Definition zp_elems : list Zp := map (fun n => zmk (Z.of_nat n)) (seq 0 (Z.to_nat p)).
Lemma zp_elems_length : length zp_elems = Z.to_nat p.
Proof. unfold zp_elems. rewrite map_length, seq_length. reflexivity. Qed.
Lemma zp_elems_in : forall x, In x zp_elems.
Proof.
  intros x. apply in_map_iff. exists (Z.to_nat (zval x)). pose proof (zval_range x).
  rewrite Z2Nat.id by lia. split; [apply zmk_zval|]. apply in_seq. lia.
Qed.
Lemma zp_elems_nodup : NoDup zp_elems.
Proof.
  unfold zp_elems. assert (H : forall l : list nat, NoDup l -> (forall n, In n l -> (n < Z.to_nat p)%nat) ->
    NoDup (map (fun n => zmk (Z.of_nat n)) l)).
  { induction l as [|a l IH]; intros HN HL; simpl; [constructor|]. inversion HN; subst. constructor.
    - rewrite in_map_iff. intros [b [E Hb]]. apply (f_equal zval) in E. rewrite !zval_zmk in E.
      assert (a < Z.to_nat p)%nat by (apply HL; left; auto). assert (b < Z.to_nat p)%nat by (apply HL; right; auto).
      rewrite !Z.mod_small in E by lia. apply Nat2Z.inj in E. subst. tauto.
    - apply IH; auto. intros n Hn. apply HL. right; auto. }
  apply H; [apply seq_NoDup|]. intros n Hn. apply in_seq in Hn. lia.
Qed.

Lemma zval_npow : forall (x : Zp) n, zval (npow (x : mul_monoid Zp) n) = zval x ^ Z.of_nat n mod p.
Proof.
  intros x n. induction n.
  - reflexivity.
  - cbn [npow mmul mul_monoid fmul Zp]. rewrite zval_zmk. rewrite IHn. rewrite Z.mul_mod_idemp_r by lia.
    rewrite Nat2Z.inj_succ, Z.pow_succ_r by lia. reflexivity.
Qed.

Lemma fermat_Z : forall x, 0 < x < p -> x ^ (p - 1) mod p = 1.
Proof.
  intros x Hx. pose proof (fermat Zp Zp_laws zp_elems zp_elems_nodup zp_elems_in (zmk x)) as H.
  rewrite zp_elems_length in H.
  assert (N : zmk x <> (f0 : Zp)).
  { intros E. apply (f_equal zval) in E. simpl in E. rewrite !zval_zmk, Z.mod_0_l, Z.mod_small in E; lia. }
  apply H in N. apply (f_equal zval) in N. rewrite zval_npow in N. rewrite zval_zmk in N.
  replace (Z.of_nat (Z.to_nat p - 1)) with (p - 1) in N by lia.
  rewrite pow_mod in N by lia. rewrite N. simpl. rewrite zval_zmk. apply Z.mod_small; lia.
Qed.

Hypothesis Hodd : Z.odd p = true.
Lemma half_nat : (Z.to_nat p / 2)%nat = Z.to_nat ((p - 1) / 2) /\ Z.to_nat p = (2 * (Z.to_nat p / 2) + 1)%nat.
Proof.
  pose proof (Z.div_mod p 2 ltac:(lia)) as D. rewrite Zmod_odd, Hodd in D.
  assert (E : (p - 1) / 2 = p / 2) by (symmetry; apply Z.div_unique with 0; lia).
  assert (E2 : (Z.to_nat p / 2)%nat = Z.to_nat (p / 2)).
  { symmetry. apply Nat.div_unique with 1%nat; lia. }
  rewrite E, E2. split; auto. lia.
Qed.

Lemma nat_odd_half : length zp_elems = (2 * (length zp_elems / 2) + 1)%nat.
Proof. rewrite zp_elems_length. apply half_nat. Qed.

(** The Legendre symbol decides squareness. *)
Lemma euler_Z : forall x, 0 < x < p -> (mpz_legendre x p =? 1) = true <-> exists y, 0 <= y < p /\ (y * y) mod p = x.
Proof.
  intros x Hx.
  assert (N : zmk x <> (f0 : Zp)).
  { intros E. apply (f_equal zval) in E. simpl in E. rewrite !zval_zmk, Z.mod_0_l, Z.mod_small in E; lia. }
  assert (P : zval (npow (zmk x : mul_monoid Zp) (length zp_elems / 2)) = x ^ ((p - 1) / 2) mod p).
  { rewrite zval_npow, zp_elems_length, zval_zmk.
    destruct half_nat as [-> _].
    rewrite Z2Nat.id by (apply Z.div_pos; lia). apply pow_mod; [lia | apply Z.div_pos; lia]. }
  unfold mpz_legendre. rewrite mpz_powm_spec by (try apply Z.div_pos; lia).
  assert (Q : (if x ^ ((p - 1) / 2) mod p =? 0 then 0 else if x ^ ((p - 1) / 2) mod p =? 1 then 1 else -1) =? 1
              = (x ^ ((p - 1) / 2) mod p =? 1)).
  { destruct (Z.eqb_spec (x ^ ((p - 1) / 2) mod p) 0) as [->|]; auto.
    destruct (x ^ ((p - 1) / 2) mod p =? 1); auto. }
  rewrite Q, Z.eqb_eq, <- P. split.
  - intros E.
    destruct (euler Zp Zp_laws zp_elems zp_elems_nodup zp_elems_in nat_odd_half (zmk x) N) as [y Hy].
    + apply zval_inj. rewrite E. simpl. rewrite zval_zmk, Z.mod_1_l; lia.
    + exists (zval y). split; [apply zval_range|]. apply (f_equal zval) in Hy. simpl in Hy. rewrite !zval_zmk in Hy.
      rewrite (Z.mod_small x) in Hy by lia. exact Hy.
  - intros [y [Hy E]].
    rewrite (square_power Zp Zp_laws zp_elems zp_elems_nodup zp_elems_in nat_odd_half (zmk x) (zmk y) N).
    + simpl. rewrite zval_zmk, Z.mod_1_l; lia.
    + apply zval_inj. simpl. zp_push. rewrite E, Z.mod_small; lia.
Qed.
End Zp.
