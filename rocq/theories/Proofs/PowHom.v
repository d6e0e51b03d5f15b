(** Exponentiation commutes with homomorphisms, with no law assumed. *)
From Coq Require Import ZArith List Bool.
From Verif.Base Require Import Outcome Gmp Array Algebra.
From Verif.Model Require Import GenericPow.
From Verif.Proofs Require Import ArrayFacts.
Import ListNotations.

Definition rmap {A B} (f : A -> B) (m : res A) : res B := x <- m ;; Ok (f x).
Lemma rmap_ok : forall A B (f : A -> B) x, rmap f (Ok x) = Ok (f x). Proof. reflexivity. Qed.

Section H.
Variables (G1 G2 : monoid) (h : G1 -> G2).
Hypothesis h_one : h (mone G1) = mone G2.
Hypothesis h_mul : forall x y, h (mmul G1 x y) = mmul G2 (h x) (h y).

Lemma get_map : forall (l : list G1) i, get (map h l) i = rmap h (get l i).
Proof. induction l as [ | x l IH]; destruct i; cbn; auto. apply IH. Qed.
Lemma window_hom : forall m prev a, window_entries G2 m (h prev) (h a) = map h (window_entries G1 m prev a).
Proof. induction m; intros; cbn [window_entries map]; auto. cbv zeta. rewrite <- h_mul, IHm. auto. Qed.
Lemma build_hom : forall a k, build_pow_window G2 (h a) k = map h (build_pow_window G1 a k).
Proof. intros. unfold build_pow_window. cbn [map]. rewrite h_one, <- window_hom, h_one. auto. Qed.
Lemma loop_hom : forall n k l s inword word wbits r,
  pow_wind_loop G2 n k (map h l) s inword word wbits (h r) = rmap h (pow_wind_loop G1 n k l s inword word wbits r).
Proof.
  induction s as [ | s IH]; intros; [reflexivity | ]. cbn [pow_wind_loop]. cbv zeta. rewrite <- h_mul.
  destruct (negb inword && negb (mpz_tstbit n (Z.of_nat s))); [apply IH | ].
  destruct (if negb inword then _ else _) as [w wb]. destruct ((wb =? k)%Z || Nat.eqb s 0); [ | apply IH].
  rewrite get_map. destruct (get l (Z.to_nat w)); cbn [rmap bind]; auto. rewrite <- h_mul. apply IH.
Qed.
Lemma generic_pow_hom : forall a n, generic_pow_mpz G2 (h a) n = rmap h (generic_pow_mpz G1 a n).
Proof.
  intros. unfold generic_pow_mpz, element_pow_wind. cbv zeta. destruct (n =? 0)%Z; [rewrite <- h_one; auto | ].
  rewrite build_hom, <- h_one. apply loop_hom.
Qed.
Lemma pow2_hom : forall a1 n1 a2 n2, element_pow2_mpz G2 (h a1) n1 (h a2) n2 = h (element_pow2_mpz G1 a1 n1 a2 n2).
Proof.
  intros. unfold element_pow2_mpz. cbv zeta. destruct ((n1 =? 0)%Z && (n2 =? 0)%Z); auto.
  rewrite <- h_mul, <- h_one. generalize (mone G1). generalize (mmul G1 a1 a2).
  induction (Z.to_nat _) as [ | s IH]; intros c r; [reflexivity | ]. cbn [pow2_loop]. cbv zeta. rewrite <- !h_mul. rewrite <- IH.
  destruct (mpz_tstbit n1 _), (mpz_tstbit n2 _); cbn [andb]; auto.
Qed.
Lemma pow3_loop_hom : forall s n1 n2 n3 l r, pow3_loop G2 s n1 n2 n3 (map h l) (h r) = rmap h (pow3_loop G1 s n1 n2 n3 l r).
Proof.
  induction s as [ | s IH]; intros; [reflexivity | ]. cbn [pow3_loop]. cbv zeta. rewrite <- h_mul, get_map.
  destruct (get l _); cbn [rmap bind]; auto. rewrite <- h_mul. apply IH.
Qed.
Lemma pow3_hom : forall a1 n1 a2 n2 a3 n3,
  element_pow3_mpz G2 (h a1) n1 (h a2) n2 (h a3) n3 = rmap h (element_pow3_mpz G1 a1 n1 a2 n2 a3 n3).
Proof.
  intros. unfold element_pow3_mpz. cbv zeta. destruct ((n1 =? 0)%Z && (n2 =? 0)%Z && (n3 =? 0)%Z); [rewrite <- h_one; auto | ].
  rewrite <- h_one, <- !h_mul.
  change [h (mone G1); h a1; h a2; h (mmul G1 a1 a2); h a3; h (mmul G1 a1 a3); h (mmul G1 a2 a3); h (mmul G1 (mmul G1 a2 a3) a1)]
    with (map h [mone G1; a1; a2; mmul G1 a1 a2; a3; mmul G1 a1 a3; mmul G1 a2 a3; mmul G1 (mmul G1 a2 a3) a1]).
  apply pow3_loop_hom.
Qed.
Lemma row_hom : forall m prev a, base_row G2 m (h prev) (h a) = map h (base_row G1 m prev a).
Proof. induction m; intros; cbn [base_row map]; auto. cbv zeta. rewrite <- h_mul, IHm. auto. Qed.
Lemma last_map : forall l (d : G1), last (map h l) (h d) = h (last l d).
Proof. induction l as [ | x l IH]; intro d; auto. destruct l; auto. exact (IH d). Qed.
Lemma table_hom : forall rows n a, base_table G2 rows n (h a) = map (map h) (base_table G1 rows n a).
Proof.
  induction rows; intros; cbn [base_table map]; auto. cbv zeta. rewrite <- h_one, row_hom.
  change (h (mone G1) :: map h (base_row G1 (n - 1) (mone G1) a)) with (map h (mone G1 :: base_row G1 (n - 1) (mone G1) a)).
  rewrite last_map, <- h_mul, IHrows. auto.
Qed.
Lemma get_map2 : forall (l : list (list G1)) i, get (map (map h) l) i = rmap (map h) (get l i).
Proof. induction l as [ | x l IH]; destruct i; cbn; auto. apply IH. Qed.
Lemma base_loop_hom : forall m row n t r, base_table_loop G2 m row n (map (map h) t) (h r) = rmap h (base_table_loop G1 m row n t r).
Proof.
  induction m as [ | m IH]; intros; [reflexivity | ]. cbn [base_table_loop]. cbv zeta.
  destruct (table_word _ _ _ >? 0)%Z; [ | apply IH].
  rewrite get_map2. destruct (get t row); cbn [rmap bind]; auto. rewrite get_map. destruct (get _ _); cbn [rmap bind]; auto.
  rewrite <- h_mul. apply IH.
Qed.
Lemma pp_hom : forall a n order, element_pp_pow G2 n order (element_pp_init G2 (h a) order) =
  rmap h (element_pp_pow G1 n order (element_pp_init G1 a order)).
Proof.
  intros. unfold element_pp_pow, element_pp_init. rewrite table_hom, <- h_one.
  destruct (n =? 0)%Z; auto.
  destruct (if (n >? order)%Z then _ else _); cbn [bind]; auto. apply base_loop_hom.
Qed.
End H.
