(** C68, C69: elements as text.  [tower_textual p num t] holds the functions
    element_snprint, element_out_str, element_set_str of the field described by
    [t]: F_p, or quadratic and polynomial extensions of such a field to any
    height.  [num base x] is the numeral GMP prints for x. *)
From Coq Require Import ZArith List Bool.
From Verif.Base Require Import Outcome Algebra.
From Verif.Model Require Import ElementText.
From Verif.Spec Require Import Numerals Printf ElementText.
From Verif.Proofs Require Import ElementTextFacts TowerText.
Import ListNotations.
Open Scope Z_scope.

(** C68: element_snprint is snprintf of the element's text, whatever the
    buffer size. *)
Theorem tower_snprint : forall p num t e, is_elem p t e ->
  prints_as (t_snprint (tower_textual p num t) e) (elem_text (num 10) t e).
Proof. exact tower_print. Qed.
Print Assumptions tower_snprint.

(** C68: polynomials print the same way. *)
Theorem polynomial_snprint : forall A (T : textual A) l ts, Forall2 (fun x t => prints_as (t_snprint T x) t) l ts ->
  prints_as (coeffs_snprint T l) (bracket ts).
Proof. exact coeffs_print. Qed.
Print Assumptions polynomial_snprint.

(** C68: points. *)
Theorem point_snprint : forall K (T : textual (fcar K)) x y tx ty,
  prints_as (t_snprint T x) tx -> prints_as (t_snprint T y) ty ->
  prints_as (curve_snprint K T (mk_stored false x y)) (bracket [tx; ty]).
Proof. exact curve_print. Qed.
Print Assumptions point_snprint.

Theorem infinity_snprint : forall K (T : textual (fcar K)) x y, prints_as (curve_snprint K T (mk_stored true x y)) [79].
Proof. exact curve_print_inf. Qed.
Print Assumptions infinity_snprint.

(** C68: element_set_str reads the text of an element in any base, after any
    white space and before anything that cannot continue it. *)
Theorem tower_set_str : forall p num b t e, 1 < p -> 2 <= b <= 36 -> (forall x, 0 <= x < p -> is_numeral b x (num b x)) ->
  is_elem p t e -> reads_as (t_set_str (tower_textual p num t)) b (elem_text (num b) t e) e.
Proof. exact tower_read. Qed.
Print Assumptions tower_set_str.

(** C68: what element_snprint stores in a large enough buffer is read back by
    element_set_str as the same element, and the two return the same number. *)
Theorem tower_text_round_trip : forall p num t e buf size, 1 < p ->
  (forall x, 0 <= x < p -> is_numeral 10 x (num 10 x)) -> is_elem p t e ->
  (length (elem_text (num 10%Z) t e) < size <= length buf)%nat ->
  exists buf' n, t_snprint (tower_textual p num t) e buf 0%nat size = Ok (buf', n) /\
                 t_set_str (tower_textual p num t) buf' 10 = Ok (e, n).
Proof. exact tower_trip. Qed.
Print Assumptions tower_text_round_trip.

Theorem gt_text_round_trip : forall p num t e buf size, 1 < p ->
  (forall x, 0 <= x < p -> is_numeral 10 x (num 10 x)) -> is_elem p t e ->
  (length (elem_text (num 10%Z) t e) < size <= length buf)%nat ->
  exists buf' n, t_snprint (mulg_textual (tower_textual p num t)) e buf 0%nat size = Ok (buf', n) /\
                 t_set_str (mulg_textual (tower_textual p num t)) buf' 10 = Ok (e, n).
Proof. exact gt_trip. Qed.
Print Assumptions gt_text_round_trip.

Theorem point_text_round_trip : forall K a b (T : textual (fcar K)) x y tx ty P buf size,
  prints_as (t_snprint T x) tx -> prints_as (t_snprint T y) ty ->
  reads_as (t_set_str T) 10 tx x -> reads_as (t_set_str T) 10 ty y ->
  stored_valid K a b (mk_stored false x y) = true ->
  (length (bracket [tx; ty]) < size <= length buf)%nat ->
  exists buf' n, curve_snprint K T (mk_stored false x y) buf 0%nat size = Ok (buf', n) /\
                 curve_set_str K a b T P buf' 10 = Ok (mk_stored false x y, n).
Proof. exact point_trip. Qed.
Print Assumptions point_text_round_trip.

Theorem infinity_text_round_trip : forall K a b (T : textual (fcar K)) x y P buf size, (1 < size <= length buf)%nat ->
  exists buf' n, curve_snprint K T (mk_stored true x y) buf 0%nat size = Ok (buf', n) /\
                 curve_set_str K a b T P buf' 10 = Ok (mk_stored true (st_x P) (st_y P), n).
Proof. exact infinity_trip. Qed.
Print Assumptions infinity_text_round_trip.

Example tower_text_example : is_elem 7 (TQuad (TPoly 3 TFp)) ([1; 2; 3], [4; 0; 6]) /\
  elem_text (num7 10) (TQuad (TPoly 3 TFp)) ([1; 2; 3], [4; 0; 6]) =
  [91; 91; 49; 44; 32; 50; 44; 32; 51; 93; 44; 32; 91; 52; 44; 32; 48; 44; 32; 54; 93; 93].
Proof. exact tower7. Qed.
Example numeral_function_example : forall x, 0 <= x < 7 -> is_numeral 10 x (num7 10 x).
Proof. exact num7_ok. Qed.
Example point_text_example : stored_valid raw7 0 1 (@mk_stored raw7 false 2 3) = true /\
  prints_as (t_snprint (fp_textual 7 num7) 2) [50] /\ reads_as (t_set_str (fp_textual 7 num7)) 10 [50] 2 /\
  prints_as (t_snprint (fp_textual 7 num7) 3) [51] /\ reads_as (t_set_str (fp_textual 7 num7)) 10 [51] 3.
Proof. exact point7. Qed.

(** C69: on any terminated string whatever, in any base, element_set_str reads
    nothing beyond the terminator and returns a position before it. *)
Theorem tower_set_str_safe : forall p num t, reads_safely (t_set_str (tower_textual p num t)).
Proof. exact tower_safe. Qed.
Print Assumptions tower_set_str_safe.

Theorem point_set_str_safe : forall K a b (T : textual (fcar K)) P,
  reads_safely (t_set_str T) -> reads_safely (curve_set_str K a b T P).
Proof. exact curve_safe. Qed.
Print Assumptions point_set_str_safe.

(** C69: coordinates that are not on the curve are refused: 0 is returned and
    the element is O. *)
Theorem point_set_str_refuses : forall K a b (T : textual (fcar K)) base x y tx ty P ws c rest,
  reads_as (t_set_str T) base tx x -> reads_as (t_set_str T) base ty y -> Forall white ws ->
  stored_valid K a b (mk_stored false x y) = false ->
  exists P', curve_set_str K a b T P (ws ++ bracket [tx; ty] ++ c :: rest) base = Ok (P', 0%nat) /\ st_inf P' = true.
Proof. exact off_curve. Qed.
Print Assumptions point_set_str_refuses.

(** C69: but a text that is not a point at all is not: 0 is returned and the
    element is left outside the group. *)
Theorem point_set_str_garbage_refuted : forall K, fld_laws K -> forall a b : K, b <> f0 -> forall T : textual (fcar K),
  exists P s, stored_valid K a b P = true /\ In 0 s /\
  exists P', curve_set_str K a b T P s 10 = Ok (P', 0%nat) /\ stored_valid K a b P' = false.
Proof. exact garbage_invalid. Qed.
Print Assumptions point_set_str_garbage_refuted.

(** C68: element_out_str returns the number of characters written for points
    and polynomials; for quadratic extensions it returns four less. *)
Theorem point_out_str_count : forall K (T : textual (fcar K)) base x y tx ty, counts (t_out T) base x tx -> counts (t_out T) base y ty ->
  curve_out_str K T base (mk_stored false x y) = (bracket [tx; ty], Z.of_nat (length (bracket [tx; ty]))).
Proof. exact curve_out. Qed.
Print Assumptions point_out_str_count.

Theorem polynomial_out_str_count : forall A (T : textual A) base l ts, Forall2 (counts (t_out T) base) l ts ->
  coeffs_out_str T base l = (bracket ts, Z.of_nat (length (bracket ts))).
Proof. exact coeffs_out_count. Qed.
Print Assumptions polynomial_out_str_count.

Theorem quadratic_out_str_count_refuted : forall A (T : textual A) base x y tx ty, counts (t_out T) base x tx -> counts (t_out T) base y ty ->
  fq_out_str T base (x, y) = (bracket [tx; ty], Z.of_nat (length (bracket [tx; ty])) - 4).
Proof. exact quad_out_count. Qed.
Print Assumptions quadratic_out_str_count_refuted.

(** C68: the fields that keep the default functions (fastfp, fasterfp,
    tinyfp, Z, GF(3^m)) print "?" for every element, and leave a buffer of size
    one without terminator. *)
Theorem default_snprint_refuted : forall num x buf, (2 <= length buf)%nat -> exists buf',
  t_snprint (default_textual num) x buf 0%nat (length buf) = Ok (buf', 1%nat) /\ firstn 2 buf' = [63; 0] /\
  t_set_str (default_textual num) buf' 10 = Ok (0, 0%nat).
Proof. exact default_text. Qed.
Print Assumptions default_snprint_refuted.

Theorem default_snprint_unterminated_refuted : forall num x,
  t_snprint (default_textual num) x [7] 0%nat 1%nat = Ok ([48], 1%nat).
Proof. exact default_unterminated. Qed.
Print Assumptions default_snprint_unterminated_refuted.
