(** C51: element_snprintf. *)
From Coq Require Import ZArith List Bool Lia.
From Verif.Base Require Import Outcome.
From Verif.Model Require Import Printf.
From Verif.Spec Require Import Printf.
From Verif.Proofs Require Import PrintfFacts.
Import ListNotations.
Open Scope Z_scope.

(** C51: for every well-formed format without "%%", the buffer holds the
    output cut to size-1 characters and terminated, the rest of it is
    unchanged, and the full length is returned.  Missing: "%%", refuted below.
    What GMP prints for one directive is a parameter. *)
Theorem snprintf_correct_partial : forall segs args out buf size,
  prints segs args out -> Forall valid segs -> ~ In Percent segs -> (size <= length buf)%nat ->
  element_vsnprintf buf size (concat (map source segs)) args = Ok (truncated buf size out, length out).
Proof. exact snprintf_spec. Qed.
Print Assumptions snprintf_correct_partial.

(** "x=%B!" *)
Example snprintf_example :
  prints [Text [120; 61]; Element []; Text [33]] [PElement [52; 50]] [120; 61; 52; 50; 33] /\
  Forall valid [Text [120; 61]; Element []; Text [33]] /\
  element_vsnprintf [9; 9; 9; 9; 9] 4 [120; 61; 37; 66; 33] [PElement [52; 50]] = Ok ([120; 61; 52; 0; 9], 5%nat).
Proof. exact snprintf_witness. Qed.

(** C51: for any format whatever, nothing beyond the first [size] bytes is
    touched. *)
Theorem snprintf_stays_in_buffer : forall buf size fmt args buf' n, (size <= length buf)%nat ->
  element_vsnprintf buf size fmt args = Ok (buf', n) ->
  length buf' = length buf /\ skipn size buf' = skipn size buf.
Proof. exact snprintf_bounded. Qed.
Print Assumptions snprintf_stays_in_buffer.

(** C51: "%%" is copied as two characters. *)
Theorem double_percent_refuted : exists segs args out buf size r,
  prints segs args out /\ Forall valid segs /\ (size <= length buf)%nat /\
  element_vsnprintf buf size (concat (map source segs)) args = Ok r /\ r <> (truncated buf size out, length out).
Proof. exact percent_wrong. Qed.
Print Assumptions double_percent_refuted.

(** C51: a format ending in "%" loses the text before it ("abc%"). *)
Theorem trailing_percent_refuted :
  element_vsnprintf [7; 7; 7; 7; 7; 7] 6 [97; 98; 99; percent] [] = Ok ([7; 7; 7; 7; 7; 7], 0%nat).
Proof. exact trailing_percent. Qed.
Print Assumptions trailing_percent_refuted.
