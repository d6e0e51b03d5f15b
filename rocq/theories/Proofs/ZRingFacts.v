(** The ring Z. *)
From Coq Require Import ZArith List Bool Lia.
From Verif.Base Require Import Outcome Gmp Array.
From Verif.Model Require Import ZRing.
From Verif.Spec Require Import Integers.
From Verif.Proofs Require Import GmpFacts ArrayFacts BytesFacts.
Import ListNotations.
Open Scope Z_scope.

Section R.
Variable pp : Z -> bool.
Hypothesis Hpp : forall a, pp a = true <-> perfect_power a.

Lemma z_step_spec : forall s c s' os, zspec s c s' os -> z_step pp s c = Ok (s', os).
Proof.
  intros s c s' os H. destruct H; cbn [z_step]; try reflexivity.
  - do 3 f_equal. apply Z.mul_comm.
  - do 3 f_equal. apply Z.mul_comm.
  - unfold z_pow_mpz. rewrite Z.abs_eq, Z.mod_small by lia. reflexivity.
  - unfold z_invert. assert (s a = 1 \/ s a = -1) as [E|E] by (apply Z.eq_mul_1 with v; auto); rewrite E in *; cbn; do 3 f_equal; lia.
  - unfold z_div. rewrite (proj2 (Z.eqb_neq _ _) H). cbn [bind]. rewrite H0, Z.mul_comm, Z.quot_mul by auto. reflexivity.
  - unfold z_sqrt. assert (E : (s a <? 0) = false) by (apply Z.ltb_ge; nia). rewrite E. cbn [bind].
    rewrite H0, Z.sqrt_square by auto. reflexivity.
  - do 4 f_equal. apply eq_true_iff_eq. rewrite Z.eqb_eq. symmetry; auto.
  - do 4 f_equal. apply eq_true_iff_eq. rewrite Z.eqb_eq. symmetry; auto.
  - do 4 f_equal. unfold z_cmp. destruct (Z.compare_spec (s a) (s b)); lia.
  - do 4 f_equal. unfold z_is_sqr. apply eq_true_iff_eq. rewrite Hpp, H. split; auto.
    intros [y Hy]. exists y, 2. split; [lia|]. rewrite Hy. ring.
Qed.

Lemma z_run_spec : forall h s os, zspec_run s h os -> z_run pp s h = Ok os.
Proof.
  intros h s os H. induction H as [|s c s' os h os' Hc _ IH]; [reflexivity|]. cbn [z_run].
  rewrite (z_step_spec _ _ _ _ Hc). cbn [bind fst snd]. rewrite IH. reflexivity.
Qed.

Lemma eight_not_square : ~ square 8.
Proof. intros [b H]. assert (b <= -3 \/ b = -2 \/ b = -1 \/ b = 0 \/ b = 1 \/ b = 2 \/ 3 <= b) by lia. nia. Qed.
Lemma is_sqr_8 : z_is_sqr pp 8 = true.
Proof. unfold z_is_sqr. apply Hpp. exists 2, 3. split; [lia|reflexivity]. Qed.
End R.

Lemma halve_zero : forall a, Z.abs a < 2 ^ 64 -> z_halve a = 0.
Proof.
  intros a Ha. unfold z_halve, mpz_tdiv_q_2exp. change ((-1) mod 2 ^ 64) with (2 ^ 64 - 1).
  assert (E : (sizeinbase2 a <=? 2 ^ 64 - 1) = true); [|rewrite E; reflexivity].
  apply Z.leb_le. unfold sizeinbase2. destruct (a =? 0) eqn:E; [lia|]. apply Z.eqb_neq in E.
  assert (Z.log2 (Z.abs a) < 64) by (apply Z.log2_lt_pow2; lia). lia.
Qed.

Lemma pow_truncated : forall a, z_pow_mpz a (2 ^ 64 + 1) = a.
Proof. intros. unfold z_pow_mpz. change (Z.abs (2 ^ 64 + 1) mod 2 ^ 64) with 1. apply Z.pow_1_r. Qed.

(** * Serialisation *)
Lemma low_bytes : forall x, 0 <= x < 128 -> Z.lor x 128 = x + 128 /\ Z.land x 128 = 0 /\ Z.land (x + 128) 128 = 128 /\ Z.land (x + 128) 127 = x.
Proof.
  assert (T : forallb (fun n => let x := Z.of_nat n in (Z.lor x 128 =? x + 128) && (Z.land x 128 =? 0) && (Z.land (x + 128) 128 =? 128) && (Z.land (x + 128) 127 =? x)) (seq 0 128) = true)
    by (vm_compute; reflexivity).
  rewrite forallb_forall in T. intros x Hx. specialize (T (Z.to_nat x)).
  cbv zeta in T. rewrite Z2Nat.id in T by lia. rewrite !andb_true_iff, !Z.eqb_eq in T.
  destruct T as [[[T1 T2] T3] T4]; auto. apply in_seq. lia.
Qed.

Lemma from_loop : forall l pre rest acc, z_from_loop (pre ++ l ++ rest) (length l) (length pre) acc = Ok (acc + import_be l).
Proof.
  induction l as [|x l IH]; intros pre rest acc; cbn [length z_from_loop app].
  - f_equal. unfold import_be. simpl. lia.
  - rewrite get_app by reflexivity. cbn [bind].
    replace (pre ++ x :: l ++ rest) with ((pre ++ [x]) ++ l ++ rest) by (rewrite <- app_assoc; reflexivity).
    replace (S (length pre)) with (length (pre ++ [x])) by (rewrite app_length; simpl; lia).
    rewrite IH. f_equal. change (x :: l) with ([x] ++ l). rewrite import_be_app.
    replace (2 ^ (8 * Z.of_nat (length l))) with (256 ^ Z.of_nat (length l)) by (change 256 with (2 ^ 8); rewrite <- Z.pow_mul_r by lia; f_equal; lia).
    unfold import_be at 2. cbn [fold_left]. ring.
Qed.

Lemma header_value : forall n, 0 <= n < 2 ^ 32 ->
  let byte i := (n / 2 ^ (8 * (3 - i))) mod 256 in
  byte 0 * 2 ^ 24 + byte 1 * 2 ^ 16 + byte 2 * 2 ^ 8 + byte 3 = n.
Proof.
  intros n Hn byte. unfold byte.
  change (8 * (3 - 0)) with 24. change (8 * (3 - 1)) with 16. change (8 * (3 - 2)) with 8. change (8 * (3 - 3)) with 0.
  change (2 ^ 24) with 16777216. change (2 ^ 16) with 65536. change (2 ^ 8) with 256. change (2 ^ 0) with 1. change (2 ^ 32) with 4294967296 in Hn.
  rewrite Z.div_1_r.
  rewrite (Z.mod_small (n / 16777216)) by (split; [apply Z.div_pos; lia|apply Z.div_lt_upper_bound; lia]).
  assert (E1 : n / 65536 = n / 256 / 256) by (rewrite Z.div_div by lia; reflexivity).
  assert (E2 : n / 16777216 = n / 65536 / 256) by (rewrite Z.div_div by lia; reflexivity).
  pose proof (Z.div_mod n 256 ltac:(lia)). pose proof (Z.div_mod (n / 256) 256 ltac:(lia)). pose proof (Z.div_mod (n / 65536) 256 ltac:(lia)).
  lia.
Qed.

(** the body: a null byte if needed, then the magnitude, big-endian *)
Definition z_body (z : Z) : list Z := (if sizeinbase2 z mod 8 =? 0 then [0] else []) ++ export_be (Z.abs z).

Lemma sizeinbase2_abs : forall z, sizeinbase2 (Z.abs z) = sizeinbase2 z.
Proof.
  intros. unfold sizeinbase2. rewrite Z.abs_involutive. destruct (Z.eqb_spec z 0) as [->|]; [reflexivity|].
  destruct (Z.eqb_spec (Z.abs z) 0); [lia|reflexivity].
Qed.

Lemma z_body_spec : forall z, z <> 0 -> Z.of_nat (length (z_body z)) = z_size z /\ import_be (z_body z) = Z.abs z /\
  exists x l, z_body z = x :: l /\ 0 <= x < 128.
Proof.
  intros z Hz. unfold z_body, z_size.
  pose proof (export_be_exact (Z.abs z) ltac:(lia)) as EL. rewrite sizeinbase2_abs in EL.
  destruct (export_be_spec (Z.abs z) ltac:(lia)) as [Hb Hi].
  destruct (Z.eqb_spec (sizeinbase2 z mod 8) 0) as [P|P].
  - rewrite app_length. cbn [length app]. split; [lia|]. split.
    + rewrite <- Hi at 2. reflexivity.
    + exists 0, (export_be (Z.abs z)). split; auto. lia.
  - cbn [app]. split; [lia|]. split; auto.
    destruct (export_be (Z.abs z)) as [|x l] eqn:E. { cbn in Hi. lia. }
    exists x, l. split; auto. inversion Hb as [|? ? Hx Hl]; subst. split; [apply Hx|].
    change (x :: l) with ([x] ++ l) in Hi. rewrite import_be_app in Hi.
    change (import_be [x]) with x in Hi.
    assert (0 <= import_be l) by (apply import_be_range; auto).
    pose proof (sizeinbase2_bound (Z.abs z) ltac:(lia)) as SB. rewrite sizeinbase2_abs in SB.
    cbn [length] in EL. set (s := sizeinbase2 z) in *.
    assert (s <= 8 * Z.of_nat (length l) + 7). { pose proof (Z.div_mod (s + 7) 8 ltac:(lia)). pose proof (Z.mod_pos_bound (s + 7) 8 ltac:(lia)).
      assert (s <> (Z.of_nat (length l) + 1) * 8) by (intro Q; apply P; rewrite Q; apply Z.mod_mul; lia). lia. }
    assert (2 ^ s <= 2 ^ (8 * Z.of_nat (length l) + 7)) by (apply Z.pow_le_mono_r; lia).
    rewrite Z.pow_add_r in H1 by lia. rewrite Z.pow_mul_r in H1 by lia. change (2 ^ 8) with 256 in H1. change (2 ^ 7) with 128 in H1.
    assert (0 < 256 ^ Z.of_nat (length l)) by (apply Z.pow_pos_nonneg; lia). nia.
Qed.

Definition z_header (n : Z) : list Z :=
  let byte i := (n / 2 ^ (8 * (3 - i))) mod 256 in [byte 0; byte 1; byte 2; byte 3].
Definition z_signed (z : Z) (l : list Z) : list Z :=
  if z <? 0 then match l with [] => [] | x :: l' => x + 128 :: l' end else l.

Lemma splice_into : forall (pre m rest buf : list Z), length buf = (length pre + length m + length rest)%nat ->
  firstn (length pre) buf = pre -> skipn (length pre + length m) buf = rest ->
  splice buf (length pre) m = Ok (pre ++ m ++ rest).
Proof.
  intros pre m rest buf L F S. unfold splice. replace (_ <=? _)%nat with true by (symmetry; apply Nat.leb_le; lia).
  rewrite F, S. reflexivity.
Qed.

Lemma to_bytes_form : forall z a0 a1 a2 a3 mid rest, z <> 0 -> Z.of_nat (length mid) = z_size z ->
  z_to_bytes (a0 :: a1 :: a2 :: a3 :: mid ++ rest) z = Ok (z_header (z_size z) ++ z_signed z (z_body z) ++ rest, z_size z + 4).
Proof.
  intros z a0 a1 a2 a3 mid rest Hz Hm. destruct (z_body_spec z Hz) as [BL [_ [x [l [BX Hx]]]]].
  unfold z_to_bytes.
  assert (P1 : (buf <- (if sizeinbase2 z mod 8 =? 0 then put (a0 :: a1 :: a2 :: a3 :: mid ++ rest) 4 0 else Ok (a0 :: a1 :: a2 :: a3 :: mid ++ rest)) ;;
     splice buf (Z.to_nat (if sizeinbase2 z mod 8 =? 0 then 5 else 4)) (export_be (Z.abs z))) = Ok ([a0; a1; a2; a3] ++ z_body z ++ rest)).
  { unfold z_body in *. unfold z_size in *.
    assert (LM : length mid = length ((if sizeinbase2 z mod 8 =? 0 then [0] else []) ++ export_be (Z.abs z))) by lia.
    destruct (sizeinbase2 z mod 8 =? 0).
    - cbn [app length] in LM. destruct mid as [|m0 mid]; [discriminate|]. injection LM as LM.
      change (a0 :: a1 :: a2 :: a3 :: (m0 :: mid) ++ rest) with ([a0; a1; a2; a3] ++ m0 :: (mid ++ rest)).
      rewrite put_app by reflexivity. cbn [bind].
      change ([a0; a1; a2; a3] ++ 0 :: mid ++ rest) with ([a0; a1; a2; a3; 0] ++ mid ++ rest).
      rewrite splice_app by auto. reflexivity.
    - cbn [bind]. cbn [app] in LM. change (a0 :: a1 :: a2 :: a3 :: mid ++ rest) with ([a0; a1; a2; a3] ++ mid ++ rest).
      rewrite splice_app by auto. reflexivity. }
  assert (B : forall (k : list Z -> res (list Z * Z)),
    (buf <- (if sizeinbase2 z mod 8 =? 0 then put (a0 :: a1 :: a2 :: a3 :: mid ++ rest) 4 0 else Ok (a0 :: a1 :: a2 :: a3 :: mid ++ rest)) ;;
     buf <- splice buf (Z.to_nat (if sizeinbase2 z mod 8 =? 0 then 5 else 4)) (export_be (Z.abs z)) ;; k buf) = k ([a0; a1; a2; a3] ++ z_body z ++ rest)).
  { intros k. apply bind_ok in P1. destruct P1 as [b [-> P1]]. cbn [bind]. rewrite P1. reflexivity. }
  cbv zeta. rewrite B. clear B P1.
  assert (N : (if sizeinbase2 z mod 8 =? 0 then 5 else 4) + (sizeinbase2 z + 7) / 8 - 4 = z_size z)
    by (unfold z_size; destruct (sizeinbase2 z mod 8 =? 0); lia).
  rewrite N. rewrite BX. cbn [app].
  assert (Q : (if z <? 0 then x0 <- get (a0 :: a1 :: a2 :: a3 :: x :: l ++ rest) 4 ;; put (a0 :: a1 :: a2 :: a3 :: x :: l ++ rest) 4 (Z.lor x0 128) else Ok (a0 :: a1 :: a2 :: a3 :: x :: l ++ rest))
    = Ok ([a0; a1; a2; a3] ++ z_signed z (x :: l) ++ rest)).
  { unfold z_signed. destruct (z <? 0); [|reflexivity]. cbn [get nth_error bind].
    change (a0 :: a1 :: a2 :: a3 :: x :: l ++ rest) with ([a0; a1; a2; a3] ++ x :: l ++ rest). rewrite put_app by reflexivity.
    rewrite (proj1 (low_bytes x Hx)). reflexivity. }
  rewrite Q. cbn [bind].
  pose proof (splice_app Z [] [a0; a1; a2; a3] (z_header (z_size z)) (z_signed z (x :: l) ++ rest) 0 eq_refl eq_refl) as SP.
  cbn [app] in SP. unfold z_header in SP at 1. cbn [app]. rewrite SP. reflexivity.
Qed.

Lemma from_bytes_form : forall z rest, z <> 0 -> z_size z < 2 ^ 32 ->
  exists data, z_from_bytes (z_header (z_size z) ++ z_signed z (z_body z) ++ rest) = Ok (z, data, z_size z).
Proof.
  intros z rest Hz Hs. destruct (z_body_spec z Hz) as [BL [BI [x [l [BX Hx]]]]].
  assert (Hn : 0 <= z_size z) by lia. pose proof (header_value (z_size z) (conj Hn Hs)) as HV. cbv zeta in HV.
  unfold z_from_bytes. unfold z_header at 1 2 3 4. cbn [app get nth_error bind]. cbv zeta. rewrite HV.
  rewrite BX. rewrite BX in BL, BI. destruct (low_bytes x Hx) as (E1 & E2 & E3 & E4).
  unfold z_signed. destruct (Z.ltb_spec z 0) as [Ln|Ln].
  - unfold z_header. cbn [app get nth_error bind]. rewrite E3. cbn [Z.eqb negb]. rewrite E4.
    match goal with |- context [put (?a :: ?b :: ?c :: ?d :: ?e :: ?t) 4 _] =>
      change (a :: b :: c :: d :: e :: t) with ([a; b; c; d] ++ e :: t); rewrite (put_app Z [a; b; c; d] e x t 4 eq_refl);
      pose proof (from_loop (x :: l) [a; b; c; d] rest 0) as FL end.
    cbn [bind]. replace (Z.to_nat (z_size z)) with (S (length l)) by (cbn [length] in BL; lia). cbn [length app] in FL. cbn [length app]. rewrite FL. cbn [bind].
    eexists. do 3 f_equal. rewrite BI. lia.
  - unfold z_header. cbn [app get nth_error bind]. rewrite E2. cbn [Z.eqb negb bind].
    match goal with |- context [z_from_loop (?a :: ?b :: ?c :: ?d :: ?e :: ?t) _ 4 _] =>
      pose proof (from_loop (x :: l) [a; b; c; d] rest 0) as FL end.
    replace (Z.to_nat (z_size z)) with (S (length l)) by (cbn [length] in BL; lia). cbn [length app] in FL. cbn [length]. rewrite FL. cbn [bind].
    eexists. do 3 f_equal. rewrite BI. lia.
Qed.

Lemma split_buffer : forall (buf : list Z) n, 0 <= n -> (Z.of_nat (length buf) = n + 4) ->
  exists a0 a1 a2 a3 mid, buf = a0 :: a1 :: a2 :: a3 :: mid ++ [] /\ Z.of_nat (length mid) = n.
Proof.
  intros buf n Hn Hl. destruct buf as [|a0 [|a1 [|a2 [|a3 mid]]]]; cbn [length] in Hl; try lia.
  exists a0, a1, a2, a3, mid. rewrite app_nil_r. split; auto. lia.
Qed.

Lemma z_size_nonneg : forall z, 0 <= z_size z.
Proof.
  intros. unfold z_size. assert (0 <= (sizeinbase2 z + 7) / 8) by (apply Z.div_pos; pose proof (sizeinbase2_pos z); lia).
  destruct (_ =? _); lia.
Qed.

(** Value round trip. *)
Lemma z_round_trip : forall z buf, z <> 0 -> Z.of_nat (length buf) = z_size z + 4 -> z_size z < 2 ^ 32 ->
  exists bytes data, z_to_bytes buf z = Ok (bytes, Z.of_nat (length buf)) /\
    z_from_bytes bytes = Ok (z, data, Z.of_nat (length buf) - 4).
Proof.
  intros z buf Hz Hl Hs. destruct (split_buffer buf (z_size z) (z_size_nonneg z) Hl) as (a0 & a1 & a2 & a3 & mid & -> & Hm).
  destruct (from_bytes_form z [] Hz Hs) as [data D]. exists (z_header (z_size z) ++ z_signed z (z_body z) ++ []), data.
  rewrite Hl. replace (z_size z + 4 - 4) with (z_size z) by lia. split; auto. apply to_bytes_form; auto.
Qed.
Lemma z_size_length : forall z, sizeinbase2 z mod 8 <> 0 -> z_size z + 4 = z_length_in_bytes z.
Proof. intros z H. unfold z_size, z_length_in_bytes. destruct (Z.eqb_spec (sizeinbase2 z mod 8) 0); [congruence|lia]. Qed.
Lemma z_length_short : z_to_bytes [9; 9; 9; 9; 9] 200 = UB /\ z_length_in_bytes 200 = Z.of_nat (length [9; 9; 9; 9; 9]).
Proof. split; reflexivity. Qed.
Lemma z_zero_bytes : forall x, 0 <= x < 128 -> exists bytes data, z_to_bytes [9; 9; 9; 9; x] 0 = Ok (bytes, 5) /\ z_from_bytes bytes = Ok (x, data, 1).
Proof.
  intros x Hx. exists [0; 0; 0; 1; x], [0; 0; 0; 1; x]. split; [reflexivity|]. unfold z_from_bytes. cbn [get nth_error bind].
  rewrite (proj1 (proj2 (low_bytes x Hx))). cbn [Z.eqb negb bind].
  change (Z.to_nat (0 * 2 ^ 24 + 0 * 2 ^ 16 + 0 * 2 ^ 8 + 1)) with 1%nat. cbn [z_from_loop get nth_error bind].
  change (2 ^ (8 * Z.of_nat 0)) with 1. rewrite Z.mul_1_r. reflexivity.
Qed.
