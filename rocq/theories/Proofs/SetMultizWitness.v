(** Lists that element_set_multiz stores wrongly, and an example. *)
From Coq Require Import ZArith List Bool Lia Arith Field.
From Verif.Base Require Import Outcome Array Algebra Slots.
From Verif.Spec Require Import FiniteField Extension Quadratic Curve ElementText Multiz SetMultiz.
From Verif.Model Require Import Multiz SetMultiz.
From Verif.Proofs Require Import FieldFacts ZpField QuadFacts QuadWitness MultizFacts SetMultizFacts.
Import ListNotations.

Section K.
Variable K : fld.
Hypothesis HK : fld_laws K.
Add Field KFsw : (fl_field K HK).
Lemma square_lost : forall d : K, ~ is_square d ->
  exists c, mz_mul (MA [MZ 0; MZ 1]) (MA [MZ 0; MZ 1]) = Ok c /\
    fq_set_multiz (generic_set_multiz (fofz : Z -> K)) f0 (MA [MZ 0; MZ 1]) = Ok (f0, f1) /\
    fq_set_multiz (generic_set_multiz (fofz : Z -> K)) f0 c = Ok (f0, f0) /\ @fmul (Quad K d) (f0, f1) (f0, f1) <> (f0, f0).
Proof.
  intros d Hd. exists (MA [MZ 0; MZ 0; MZ 1]). split; [reflexivity|]. split; [reflexivity|]. split; [reflexivity|].
  cbn [fmul Quad]. unfold qmul. cbn [fst snd]. intro E. injection E as E1 _. apply Hd. exists f0.
  transitivity (fadd (fmul f0 f0) (fmul d (fmul f1 f1)) : K); [rewrite E1|]; ring.
Qed.
End K.
Lemma extra_ignored : forall (A : Type) (sub : mz -> res A) zero l extra,
  polymod_set_multiz sub zero (length l) (MA (l ++ extra)) = polymod_set_multiz sub zero (length l) (MA l).
Proof.
  intros A sub zero l extra. cbn [polymod_set_multiz].
  assert (G : forall is, (forall i, In i is -> (i < length l)%nat) ->
    traverse (fun i => if (length (l ++ extra) <=? i)%nat then Ok zero else c <- multiz_at (l ++ extra) i;; sub c) is =
    traverse (fun i => if (length l <=? i)%nat then Ok zero else c <- multiz_at l i;; sub c) is).
  { induction is as [|i is IH]; intro H; cbn [traverse]; auto. rewrite IH by (intros; apply H; right; auto).
    pose proof (H i (or_introl eq_refl)) as Hi. replace (length (l ++ extra) <=? i)%nat with false by (symmetry; apply Nat.leb_gt; rewrite app_length; lia).
    replace (length l <=? i)%nat with false by (symmetry; apply Nat.leb_gt; lia). replace (multiz_at (l ++ extra) i) with (multiz_at l i); auto.
    unfold multiz_at, get. rewrite nth_error_app1 by auto. reflexivity. }
  apply G. intros i Hi. apply in_seq in Hi. lia.
Qed.
Lemma off_curve : exists P : point Z3, curve_set_multiz Z3 (generic_set_multiz (fofz : Z -> Z3)) None (MA [MZ 1; MZ 1]) = Ok P /\ ~ on_curve Z3 f1 f0 P.
Proof. eexists. split; [reflexivity|]. cbn. intro H. apply (f_equal (zval 3)) in H. discriminate H. Qed.
(** (1 + 2i) + 3j + ... in F_9 = F_3(i) *)
Definition ex9 : mz := MA [MZ 4; MA [MZ 5; MZ 7]].
Lemma ex9_ok : shaped [2%nat] ex9 /\ fq_set_multiz (generic_set_multiz (fofz : Z -> Z3)) f0 ex9 = Ok (zmk 3 lt3 1, zmk 3 lt3 2 : Z3).
Proof.
  split.
  - constructor; [discriminate | cbn; lia | ]. repeat constructor; discriminate.
  - cbn. unfold generic_set_multiz. cbn. do 2 f_equal; apply zval_inj; reflexivity.
Qed.
