(** The shipped type I parameters are fields. *)
From Coq Require Import ZArith List Bool Lia Arith.
From Verif.Base Require Import Outcome Algebra.
From Verif.Spec Require Import Polynomials Ternary EtaT ParamEqs.
From Verif.Model Require Import GF3m ParamGen.
From Verif.Proofs Require Import GF3mMain EtaMain ParamGenFacts RabinCompute Rabin.
Import ListNotations.
Open Scope nat_scope.

(** m / q for the prime factors q of m *)
Definition maximal_divisors (m : nat) : list nat :=
  if m =? 235 then [47; 5] else if m =? 385 then [77; 55; 35] else if m =? 395 then [79; 5] else [1].
Lemma table_rabin : forallb (fun bp => let m := Z.to_nat (i_m (snd bp)) in rabin_check m (Z.to_nat (i_t (snd bp))) 40 (maximal_divisors m)) i_table = true.
Proof. vm_compute. reflexivity. Qed.
Lemma table_small : forallb (fun bp => (i_m (snd bp) <? 2 ^ 30)%Z) i_table = true.
Proof. vm_compute. reflexivity. Qed.
Lemma i_gen_in : forall g p, i_gen g = Ok p -> exists b, In (b, p) i_table.
Proof.
  intros g p. unfold i_gen. generalize i_table. induction l as [ | [b p'] l IH]; cbn [i_pick]; [discriminate | ]. destruct (_ <=? _)%Z; intro H.
  - inversion H. subst. exists b. left. auto.
  - destruct (IH H) as [b' I]. exists b'. right. auto.
Qed.
Theorem i_gen_field : forall g p, i_gen g = Ok p -> let m := Z.to_nat (i_m p) in let t := Z.to_nat (i_t p) in exists P,
  dims m t /\ field_init_gf3m (Z.of_nat m) (Z.of_nat t) = Ok P /\ irreducible (trinomial m t) /\ Nat.odd m = true /\ m mod 3 <> 0.
Proof.
  intros g p H m t. destruct (i_gen_ok g p H) as (_ & O & T & B & _). destruct (i_gen_in g p H) as [b I].
  pose proof table_rabin as R. rewrite forallb_forall in R. specialize (R _ I). cbn [snd] in R.
  pose proof table_small as S. rewrite forallb_forall in S. specialize (S _ I). cbn [snd] in S. apply Z.ltb_lt in S.
  assert (Ht : 0 < t < m) by (unfold t, m; lia). assert (Hm : (Z.of_nat m < 2 ^ 30)%Z) by (unfold m; lia).
  destruct (GF3mPoly.init_spec m t Ht Hm) as (P & E & _). exists P. split; [split; auto | split; [exact E | split; [ | split]]].
  - exact (rabin_sound m t _ _ Ht R).
  - apply Nat.odd_spec. exists (Z.to_nat (i_m p / 2)). unfold m. pose proof (Z.div_mod (i_m p) 2). lia.
  - intro X. apply T. apply (f_equal Z.of_nat) in X. rewrite Nat2Z.inj_mod in X. unfold m in X. rewrite Z2Nat.id in X by lia. exact X.
Qed.
