From Coq Require Import List Arith Lia.
From Verif.Base Require Import Outcome Array.
Import ListNotations.

Lemma get_app : forall A (a : list A) x b i, length a = i -> get (a ++ x :: b) i = Ok x.
Proof.
  intros A a x b i <-. unfold get.
  rewrite nth_error_app2, Nat.sub_diag by lia. reflexivity.
Qed.

Lemma put_app : forall A (a : list A) x y b i, length a = i -> put (a ++ x :: b) i y = Ok (a ++ y :: b).
Proof.
  intros A a x y b i <-. unfold put. rewrite app_length. cbn [length].
  replace (length a <? length a + S (length b)) with true by (symmetry; apply Nat.ltb_lt; lia).
  rewrite firstn_app, Nat.sub_diag, firstn_all, skipn_app.
  replace (S (length a) - length a) with 1 by lia.
  rewrite skipn_all2 by lia. simpl. rewrite app_nil_r. reflexivity.
Qed.

Lemma slice_app : forall A (a m b : list A) i n, length a = i -> length m = n ->
  slice (a ++ m ++ b) i n = Ok m.
Proof.
  intros A a m b i n <- <-. unfold slice. rewrite !app_length.
  replace (length a + length m <=? length a + (length m + length b)) with true
    by (symmetry; apply Nat.leb_le; lia).
  rewrite skipn_app, Nat.sub_diag, skipn_all2 by lia. simpl.
  rewrite firstn_app, Nat.sub_diag, firstn_all. simpl. rewrite app_nil_r. reflexivity.
Qed.

Lemma splice_app : forall A (a m m' b : list A) i, length a = i -> length m' = length m ->
  splice (a ++ m ++ b) i m' = Ok (a ++ m' ++ b).
Proof.
  intros A a m m' b i <- H. unfold splice. rewrite !app_length.
  replace (length a + length m' <=? length a + (length m + length b)) with true
    by (symmetry; apply Nat.leb_le; lia).
  rewrite firstn_app, Nat.sub_diag, firstn_all. simpl. rewrite app_nil_r.
  rewrite skipn_app, skipn_all2 by lia. simpl.
  replace (length a + length m' - length a) with (length m) by lia.
  rewrite skipn_app, Nat.sub_diag, skipn_all2 by lia. reflexivity.
Qed.

Lemma get_0_cons : forall A (x : A) l, get (x :: l) 0 = Ok x.
Proof. reflexivity. Qed.
