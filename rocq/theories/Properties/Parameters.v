(** C40, C41: pairing parameters as text.  [code] (Proofs/ParamMain.v) names the
    model's constructor for each family; [int32 n] says n fits a C int. *)
From Coq Require Import ZArith List Bool String Lia.
From Verif.Base Require Import Outcome.
From Verif.Model Require Import Memory Param.
From Verif.Spec Require Import ParamText.
From Verif.Proofs Require Import ParamFacts ParamMain ParamWitness.
Import ListNotations.
Open Scope Z_scope.

(** C40: printing then parsing, as a string or as a buffer, gives back the type
    and every number.  Type D needs k < 202, see below. *)
Theorem param_round_trip : forall bl junk, (forall n, List.length (junk n) = n) -> forall (T : family) (v : values) (t : list Z),
  (forall key, has_key T (v (chars "k")) key true -> int32 (v key)) ->
  (T = D -> 0 <= v (chars "k") < 202) ->
  exists text v', param_out_str (code T) v = Ok text /\
    param_init_set_str bl junk (text ++ 0 :: t) = Ok {| ret := 0; ptyp := Some (code T); vals := v' |} /\
    param_init_set_buf bl junk (text ++ t) (List.length text) = Ok {| ret := 0; ptyp := Some (code T); vals := v' |} /\
    forall key int, has_key T (v (chars "k")) key int -> v' key = v key.
Proof. exact round_trip. Qed.
Print Assumptions param_round_trip.
Example param_round_trip_applies :
  (forall n, List.length (mem0 n) = n) /\ (forall key, has_key D (d6 (chars "k")) key true -> int32 (d6 key)) /\ 0 <= d6 (chars "k") < 202.
Proof. split; [exact mem0_ok|]. split; [exact d6_ok|vm_compute; split; congruence]. Qed.

(** C40: with k >= 202 printing a type D parameter overruns an 8-byte buffer. *)
Theorem param_print_large_k_refuted : exists v, v (chars "k") = 202 /\ param_out_str (code D) v = UB.
Proof. exists big. split; [reflexivity|exact print_overflow]. Qed.
Print Assumptions param_print_large_k_refuted.

(** C41: only the last value of each key matters: neither layout, nor comments,
    nor the order of the pairs, nor the bytes after the terminator. *)
Theorem param_layout_and_order : forall bl1 bl2 junk1 junk2, (forall n, List.length (junk1 n) = n) -> (forall n, List.length (junk2 n) = n) ->
  forall f1 f2 t1 t2, file_ok f1 -> file_ok f2 ->
  (forall k, value_for (pairs (words f1)) k = value_for (pairs (words f2)) k) ->
  param_init_set_str bl1 junk1 (file_text f1 ++ 0 :: t1) = param_init_set_str bl2 junk2 (file_text f2 ++ 0 :: t2).
Proof. exact layout_order. Qed.
Print Assumptions param_layout_and_order.
Example param_layout_and_order_applies : file_ok f1 /\ file_ok f2 /\ file_text f1 <> file_text f2 /\
  forall k, value_for (pairs (words f1)) k = value_for (pairs (words f2)) k.
Proof. split; [exact f1_ok|]. split; [exact f2_ok|]. split; [vm_compute; discriminate|exact f12]. Qed.

(** C41: a file with the type and all its keys is accepted and gives the
    numbers written in it. *)
Theorem param_complete_file : forall bl junk, (forall n, List.length (junk n) = n) -> forall f t T k num, file_ok f ->
  value_for (pairs (words f)) (chars "type") = Some (chars (family_name T)) ->
  (forall key int, has_key T k key int ->
     exists w, value_for (pairs (words f)) key = Some w /\ is_decimal (num key) w /\ (int = true -> int32 (num key))) ->
  (T = D -> num (chars "k") = k /\ 0 <= k) ->
  exists v, param_init_set_str bl junk (file_text f ++ 0 :: t) = Ok {| ret := 0; ptyp := Some (code T); vals := v |} /\
    forall key int, has_key T k key int -> v key = num key.
Proof. exact accepts. Qed.
Print Assumptions param_complete_file.

(** C41: a missing key gives a non-zero result, except that a type D file whose
    embedding degree is less than -1 ends the program. *)
Theorem param_missing_key : forall bl junk, (forall n, List.length (junk n) = n) -> forall f t T k key int, file_ok f ->
  value_for (pairs (words f)) (chars "type") = Some (chars (family_name T)) ->
  has_key T k key int -> value_for (pairs (words f)) key = None ->
  (T = D -> forall w, value_for (pairs (words f)) (chars "k") = Some w -> is_decimal k w /\ int32 k) ->
  (exists o, param_init_set_str bl junk (file_text f ++ 0 :: t) = Ok o /\ 0 < ret o) \/
  (T = D /\ k < -1 /\ param_init_set_str bl junk (file_text f ++ 0 :: t) = Die).
Proof. exact refuses_missing. Qed.
Print Assumptions param_missing_key.
Example param_missing_key_applies : (* f1 does not have the key exp2 of type E *)
  has_key E 0 (chars "exp2") true /\ value_for (pairs (words f1)) (chars "exp2") = None.
Proof. split; [left; exists "exp2"%string; split; [cbn; tauto|reflexivity]|reflexivity]. Qed.

(** C41: an unknown or missing type gives the result 1. *)
Theorem param_unknown_type : forall bl junk, (forall n, List.length (junk n) = n) -> forall f t, file_ok f ->
  (forall T, value_for (pairs (words f)) (chars "type") <> Some (chars (family_name T))) ->
  exists o, param_init_set_str bl junk (file_text f ++ 0 :: t) = Ok o /\ ret o = 1.
Proof. exact refuses_unknown. Qed.
Print Assumptions param_unknown_type.

(** C41: with a length n > 0, whatever the bytes, no byte after the first n is
    read (a read outside the block is UB) and none has an effect: the result is
    that of the string made of the first n bytes.  (A length of 0 is documented
    to mean a string.) *)
Theorem param_buffer_in_bounds : forall bl junk, (forall n, List.length (junk n) = n) -> forall s n, (0 < n <= List.length s)%nat ->
  ((exists o, param_init_set_buf bl junk s n = Ok o) \/ param_init_set_buf bl junk s n = Die) /\
  param_init_set_buf bl junk s n = param_init_set_buf bl junk (firstn n s) n /\
  forall t, param_init_set_buf bl junk s n = param_init_set_str bl junk (firstn n s ++ 0 :: t).
Proof.
  exact (fun bl junk Hj s n H => conj (buffer_total bl junk Hj s n H)
    (conj (buffer_prefix bl junk Hj s n H) (fun t => buffer_like_string bl bl junk junk Hj Hj s n t H))).
Qed.
Print Assumptions param_buffer_in_bounds.
Theorem param_string_in_bounds : forall bl junk, (forall n, List.length (junk n) = n) -> forall s t,
  (exists o, param_init_set_str bl junk (s ++ 0 :: t) = Ok o) \/ param_init_set_str bl junk (s ++ 0 :: t) = Die.
Proof. exact string_total. Qed.
Print Assumptions param_string_in_bounds.

(** A value that is not a number is not reported: it is read as 0. *)
Theorem param_malformed_number_refuted : exists o,
  param_init_set_str Plain mem0 (chars "type a1 p twelve n 5 l 3" ++ [0]) = Ok o /\ ret o = 0 /\ vals o (chars "p") = 0.
Proof. exact malformed. Qed.
Print Assumptions param_malformed_number_refuted.
