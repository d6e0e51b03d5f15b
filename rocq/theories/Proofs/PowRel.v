(** Exponentiation preserves every relation preserved by multiplication. *)
From Coq Require Import ZArith List Bool.
From Verif.Base Require Import Outcome Gmp Array Algebra.
From Verif.Model Require Import GenericPow.
Import ListNotations.

Section R.
Variables (G1 G2 : monoid) (R : G1 -> G2 -> Prop).
Hypothesis R1 : R (mone G1) (mone G2).
Hypothesis RM : forall a b x y, R a x -> R b y -> R (mmul G1 a b) (mmul G2 x y).
Definition rel_res (r1 : res G1) (r2 : res G2) : Prop :=
  match r1, r2 with Ok a, Ok x => R a x | UB, UB => True | Die, Die => True | OutOfFuel, OutOfFuel => True | _, _ => False end.
Lemma get_rel : forall l1 l2, Forall2 R l1 l2 -> forall i, rel_res (get l1 i) (get l2 i).
Proof. induction 1 as [ | a x l1 l2 H F IH]; intros [ | i]; try exact Logic.I; cbn [get nth_error rel_res]; auto. exact (IH i). Qed.
Lemma window_rel : forall m p q a x, R p q -> R a x -> Forall2 R (window_entries G1 m p a) (window_entries G2 m q x).
Proof. induction m; intros; cbn [window_entries]; constructor; auto. Qed.
Lemma build_rel : forall a x k, R a x -> Forall2 R (build_pow_window G1 a k) (build_pow_window G2 x k).
Proof. intros. constructor; auto. apply window_rel; auto. Qed.
Lemma loop_rel : forall n k l1 l2, Forall2 R l1 l2 -> forall s inword word wbits a x, R a x ->
  rel_res (pow_wind_loop G1 n k l1 s inword word wbits a) (pow_wind_loop G2 n k l2 s inword word wbits x).
Proof.
  intros n k l1 l2 HL. induction s as [ | s IH]; intros; [exact H | ]. cbn [pow_wind_loop]. cbv zeta.
  destruct (negb inword && negb (mpz_tstbit n (Z.of_nat s))); [apply IH; auto | ].
  destruct (if negb inword then _ else _) as [w wb]. destruct ((wb =? k)%Z || Nat.eqb s 0); [ | apply IH; auto].
  pose proof (get_rel l1 l2 HL (Z.to_nat w)) as HG. destruct (get l1 _), (get l2 _); cbn [bind rel_res] in *; try contradiction; auto.
Qed.
Theorem pow_rel : forall a x n, R a x -> rel_res (generic_pow_mpz G1 a n) (generic_pow_mpz G2 x n).
Proof.
  intros. unfold generic_pow_mpz, element_pow_wind. cbv zeta. destruct (n =? 0)%Z; [exact R1 | ].
  apply loop_rel; auto. apply build_rel; auto.
Qed.
End R.
