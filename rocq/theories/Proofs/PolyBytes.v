(** Encoding of polynomials. *)
From Coq Require Import ZArith List Bool Lia Arith.
From Verif.Base Require Import Outcome Array Algebra Slots.
From Verif.Spec Require Import Polynomials.
From Verif.Model Require Import Poly.
From Verif.Proofs Require Import ArrayFacts PolyAlgebra PolyFacts.
Import ListNotations.
Open Scope nat_scope.

Section B.
Variable K : fld.
Variables (blen : nat) (enc : K -> list Z) (dec : list Z -> K).
Hypothesis Hlen : forall x, length (enc x) = blen.
Hypothesis Hdec : forall x, dec (enc x) = x.
Lemma flat_length : forall f, length (flat_map enc f) = length f * blen.
Proof. induction f as [ | c f IH]; [reflexivity | ]. cbn [flat_map length]. rewrite app_length, Hlen, IH. lia. Qed.
Lemma flat_slice : forall f i rest c, nth_error f i = Some c -> exists b, flat_map enc f ++ rest = firstn (i * blen) (flat_map enc f) ++ enc c ++ b /\ length (firstn (i * blen) (flat_map enc f)) = i * blen.
Proof.
  induction f as [ | x f IH]; intros i rest c H; [destruct i; discriminate | ]. cbn [flat_map]. destruct i as [ | i].
  - cbn [nth_error] in H. inversion H; subst. exists (flat_map enc f ++ rest). cbn [Nat.mul firstn app length]. split; auto. rewrite app_assoc. auto.
  - cbn [nth_error] in H. destruct (IH i rest c H) as (b & E & Lb). exists b.
    replace (S i * blen) with (length (enc x) + i * blen) by (rewrite Hlen; lia). rewrite firstn_app_2.
    split; [rewrite <- !app_assoc; f_equal; exact E | ]. rewrite app_length, Lb. auto.
Qed.
Lemma bytes_length : forall f, length (poly_to_bytes K enc f) = 2 + length f * blen.
Proof. intro f. unfold poly_to_bytes. cbn [length]. rewrite flat_length. lia. Qed.
Lemma nth_error_ext : forall (f g : list K), (forall i, nth_error f i = nth_error g i) -> f = g.
Proof.
  induction f as [ | x f IH]; intros [ | y g] H; auto; try (specialize (H O); discriminate).
  pose proof (H O) as E. cbn in E. inversion E; subst. f_equal. apply IH. intro i. apply (H (S i)).
Qed.
Theorem poly_bytes_round_trip : forall f rest, (Z.of_nat (length f) < 65536)%Z ->
  poly_from_bytes K blen dec (poly_to_bytes K enc f ++ rest) = Ok (f, length (poly_to_bytes K enc f)).
Proof.
  intros f rest Hf. rewrite bytes_length. unfold poly_from_bytes, poly_to_bytes. cbv zeta.
  set (z := Z.of_nat (length f)) in *.
  assert (Ec : Z.to_nat (z mod 256 + (z / 256) mod 256 * 256) = length f).
  { assert (E : (z mod 256 + (z / 256) mod 256 * 256 = z)%Z).
    { rewrite (Z.mod_small (z / 256)) by (split; [apply Z.div_pos; lia | apply Z.div_lt_upper_bound; lia]). pose proof (Z.div_mod z 256). lia. }
    rewrite E. unfold z. apply Nat2Z.id. }
  cbn [app get nth_error bind]. change (get (_ :: ?b :: ?l) 1) with (Ok b). cbn [bind]. rewrite Ec.
  match goal with |- (p <- for_up _ _ ?body _ ;; _) = _ => destruct (fill_list K 0 (fun i => nth i f f0) body (length f) 0 (poly_alloc K [] (length f))) as (p & E & L & N) end.
  - intros j f' Hj _ _. rewrite Nat.add_0_r. destruct (nth_error f j) as [c | ] eqn:Ej; [ | apply nth_error_None in Ej; lia].
    destruct (flat_slice f j rest c Ej) as (b & Eb & Lb). rewrite Eb.
    match goal with |- (d <- slice (?x :: ?y :: ?u ++ ?v) _ _ ;; _) = _ => change (x :: y :: u ++ v) with ((x :: y :: u) ++ v) end.
    rewrite slice_app; [ | cbn [length]; rewrite Lb; lia | apply Hlen]. cbn [bind]. rewrite Hdec. f_equal. symmetry. apply nth_error_nth. auto.
  - rewrite alloc_length. lia.
  - rewrite E. cbn [bind]. do 2 f_equal. apply nth_error_ext. intro i. rewrite N. rewrite Nat.add_0_r, Nat.sub_0_r. cbn [Nat.leb Nat.add andb].
    destruct (Nat.ltb_spec i (length f)) as [I | I].
    + destruct (nth_error f i) as [c | ] eqn:Ei; [ | apply nth_error_None in Ei; lia]. f_equal. apply nth_error_nth. auto.
    + transitivity (@None K); [apply nth_error_None; rewrite alloc_length; auto | symmetry; apply nth_error_None; auto].
Qed.
End B.
