(** Byte encodings, sign and hashing of extension fields (arith/fieldquadratic.c,
    arith/poly.c), over any base field that offers the same calls. *)
From Coq Require Import ZArith List Bool.
From Verif.Base Require Import Outcome Gmp Array.
From Verif.Model Require Import FieldInt NaiveFp.
From Verif.Spec Require ElementText.     (* only for the shape of towers *)
Import ListNotations.
Open Scope Z_scope.

(** [c_len]: element_length_in_bytes; [c_enc]: the bytes element_to_bytes
    stores; [c_dec]: element_from_bytes on a buffer, and the number it returns;
    [c_rand]: element_random, given the values the random source delivers. *)
Record codec (A : Type) := mk_codec {
  c_len : A -> nat;
  c_enc : A -> res (list Z);
  c_dec : list Z -> res (A * nat);
  c_sign : A -> Z;
  c_neg : A -> A;
  c_hash : list Z -> res A;
  c_rand : list Z -> res (A * list Z) }.
Arguments c_len {A}. Arguments c_enc {A}. Arguments c_dec {A}. Arguments c_sign {A}. Arguments c_neg {A}.
Arguments c_hash {A}. Arguments c_rand {A}.

(** naivefp.c: sign (:58-77, 238), neg, from_hash, to_bytes, from_bytes;
    pbc_mpz_random (:174-176) takes the next value of the source. *)
Definition fp_codec (p : Z) : codec Z := {|
  c_len := fun _ => Z.to_nat (fixed_length p);
  c_enc := zp_to_bytes p;
  c_dec := fun data => d <- slice data 0 (Z.to_nat (fixed_length p)) ;; Ok (zp_from_bytes d, Z.to_nat (fixed_length p));
  c_sign := zp_sign p; c_neg := zp_neg p; c_hash := zp_from_hash p;
  c_rand := fun src => match src with [] => OutOfFuel | z :: src' => Ok (z, src') end |}.

Section Quad.
Context {A : Type} (C : codec A).
(** fieldquadratic.c:318-337 *)
Definition fq_len (e : A * A) : nat := (c_len C (fst e) + c_len C (snd e))%nat.
Definition fq_enc (e : A * A) : res (list Z) := l <- c_enc C (fst e) ;; l' <- c_enc C (snd e) ;; Ok (l ++ l').
Definition fq_dec (data : list Z) : res ((A * A) * nat) :=
  r <- c_dec C data ;; let '(x, len) := r in
  r <- c_dec C (skipn len data) ;; let '(y, len') := r in
  Ok ((x, y), (len + len')%nat).
(** fieldquadratic.c:159-165 *)
Definition fq_sign (e : A * A) : Z := let res := c_sign C (fst e) in if res =? 0 then c_sign C (snd e) else res.
(** fieldquadratic.c:271-276 *)
Definition fq_neg (e : A * A) : A * A := (c_neg C (fst e), c_neg C (snd e)).
(** fieldquadratic.c:311-316 *)
Definition fq_from_hash (data : list Z) : res (A * A) :=
  let k := (length data / 2)%nat in
  x <- c_hash C (firstn k data) ;; y <- c_hash C (skipn k data) ;; Ok (x, y).
(** fieldquadratic.c:278-282 *)
Definition fq_random (src : list Z) : res ((A * A) * list Z) :=
  r <- c_rand C src ;; let '(x, src) := r in r <- c_rand C src ;; let '(y, src) := r in Ok ((x, y), src).
Definition quad_codec : codec (A * A) := {|
  c_len := fq_len; c_enc := fq_enc; c_dec := fq_dec; c_sign := fq_sign; c_neg := fq_neg; c_hash := fq_from_hash; c_rand := fq_random |}.
End Quad.

Section Poly.
Context {A : Type} (C : codec A).
(** poly.c:718-740 *)
Fixpoint pm_len (l : list A) : nat := match l with [] => 0%nat | x :: l' => (c_len C x + pm_len l')%nat end.
Fixpoint pm_enc (l : list A) : res (list Z) :=
  match l with [] => Ok [] | x :: l' => a <- c_enc C x ;; b <- pm_enc l' ;; Ok (a ++ b) end.
(** poly.c:742-752; [n] coefficients remain *)
Fixpoint pm_dec (n : nat) (data : list Z) : res (list A * nat) :=
  match n with
  | O => Ok ([], 0%nat)
  | S n' => r <- c_dec C data ;; let '(x, k) := r in
            r <- pm_dec n' (skipn k data) ;; let '(l, k') := r in Ok (x :: l, (k + k')%nat)
  end.
(** poly.c:1189-1199 *)
Fixpoint pm_sign (l : list A) : Z := match l with [] => 0 | x :: l' => let res := c_sign C x in if res =? 0 then pm_sign l' else res end.
(** poly.c:805-812 *)
Definition pm_neg (l : list A) : list A := map (c_neg C) l.
(** poly.c:341-348: every coefficient is hashed from the same bytes. *)
Fixpoint pm_hash (n : nat) (data : list Z) : res (list A) :=
  match n with O => Ok [] | S n' => x <- c_hash C data ;; l <- pm_hash n' data ;; Ok (x :: l) end.
(** poly.c:332-339 *)
Fixpoint pm_random (n : nat) (src : list Z) : res (list A * list Z) :=
  match n with
  | O => Ok ([], src)
  | S n' => r <- c_rand C src ;; let '(x, src) := r in r <- pm_random n' src ;; let '(l, src) := r in Ok (x :: l, src)
  end.
Definition polymod_codec (n : nat) : codec (list A) := {|
  c_len := pm_len; c_enc := pm_enc; c_dec := pm_dec n; c_sign := pm_sign; c_neg := pm_neg; c_hash := pm_hash n; c_rand := pm_random n |}.
(** poly.c:556-576: polynomials, two bytes for the number of coefficients. *)
Definition poly_to_bytes (l : list A) : res (list Z) :=
  let count := Z.of_nat (length l) in
  b <- pm_enc l ;; Ok (count mod 256 :: (count / 256) mod 256 :: b).
Definition poly_length (l : list A) : nat := (2 + pm_len l)%nat.
(** poly.c:578-587 *)
Definition poly_from_bytes (data : list Z) : res (list A * nat) :=
  b0 <- get data 0 ;; b1 <- get data 1 ;;
  r <- pm_dec (Z.to_nat (b0 + b1 * 256)) (skipn 2 data) ;; let '(l, k) := r in Ok (l, (2 + k)%nat).
End Poly.

(** Towers, as in Model/ElementText.v. *)
Fixpoint tower_codec (p : Z) (t : ElementText.tower) : codec (ElementText.carrier t) :=
  match t with
  | ElementText.TFp => fp_codec p
  | ElementText.TQuad t' => quad_codec (tower_codec p t')
  | ElementText.TPoly n t' => polymod_codec (tower_codec p t') n
  end.
