(** The order of a curve over an extension is divisible by r^2. *)
From Coq Require Import ZArith List Lia.
From Verif.Model Require Import CurveCodec CurveGen.
From Verif.Spec Require Export CurveChoice.
Open Scope Z_scope.

Lemma geo_q : forall q k, (q - 1) * geo q k = q ^ Z.of_nat k - 1.
Proof. intros q k. induction k as [ | k IH]; [cbn; lia | ]. cbn [geo]. rewrite Nat2Z.inj_succ, Z.pow_succ_r by lia. nia. Qed.
Lemma geo_pow : forall q k, q * geo q k = geo q k + q ^ Z.of_nat k - 1.
Proof. intros. pose proof (geo_q q k). nia. Qed.
(** the trace, modulo n^2 *)
Definition lin (q n : Z) (k : nat) : Z := 1 + q ^ Z.of_nat k - n * (Z.of_nat k * geo q k).
Lemma loop_mod : forall q n m k c1 c2, (exists w, c1 = lin q n (S k) + n * n * w) -> (exists w, c2 = lin q n k + n * n * w) ->
  exists w, trace_loop m q (q + 1 - n) c1 c2 = lin q n (m + S k) + n * n * w.
Proof.
  intros q n m. induction m as [ | m IH]; intros k c1 c2 H1 H2; [exact H1 | ]. cbn [trace_loop].
  replace (S m + S k)%nat with (m + S (S k))%nat by lia. apply IH; [ | exact H1].
  destruct H1 as (w1 & ->), H2 as (w2 & ->). exists ((q + 1 - n) * w1 - q * w2 + Z.of_nat (S k) * geo q (S k)).
  unfold lin. rewrite !Nat2Z.inj_succ, !Z.pow_succ_r by lia. cbn [geo].
  pose proof (geo_pow q k) as G. set (s := geo q k) in *. set (u := q ^ Z.of_nat k) in *. set (z := Z.of_nat k) in *.
  assert (U : u = q * s - s + 1) by lia. rewrite U. unfold Z.succ. ring.
Qed.
Lemma trace_mod : forall q n k, 1 <= k -> exists w, trace_n q (q + 1 - n) k = lin q n (Z.to_nat k) + n * n * w.
Proof.
  intros q n k Hk. unfold trace_n.
  destruct (loop_mod q n (Z.to_nat (k - 1)) 0 (q + 1 - n) 2) as (w & E).
  - exists 0. unfold lin. change (Z.of_nat 1) with 1. rewrite Z.pow_1_r. cbn [geo]. ring.
  - exists 0. unfold lin. change (Z.of_nat 0) with 0. rewrite Z.pow_0_r. cbn [geo]. ring.
  - exists w. rewrite E. f_equal. f_equal. lia.
Qed.
Lemma order_mod : forall q n k, 1 <= k -> exists w, extension_order q n k = n * (k * geo q (Z.to_nat k)) + n * n * w.
Proof.
  intros q n k Hk. unfold extension_order. replace (q - n + 1) with (q + 1 - n) by ring.
  destruct (trace_mod q n k Hk) as (w & ->). exists (- w). unfold lin. rewrite Z2Nat.id by lia. ring.
Qed.
Lemma order_r2 : forall q n r k, 1 <= k -> (r | n) -> (r | geo q (Z.to_nat k)) -> (r * r | extension_order q n k).
Proof.
  intros q n r k Hk (h & ->) (g & G). destruct (order_mod q (h * r) k Hk) as (w & ->). rewrite G.
  exists (h * k * g + h * h * w). ring.
Qed.
Lemma cofactor_ok : forall q n r k, 1 <= k -> r <> 0 -> (r | n) -> (r | geo q (Z.to_nat k)) ->
  extension_cofactor q n r k * (r * r) = extension_order q n k.
Proof.
  intros q n r k Hk R D G. unfold extension_cofactor. destruct (order_r2 q n r k Hk D G) as (c & ->).
  rewrite Z.div_mul by nia. reflexivity.
Qed.
Lemma mnt_cofactor : forall q n r, r <> 0 -> (r | n) -> (r | q * q - q + 1) -> extension_cofactor q n r 6 * (r * r) = extension_order q n 6.
Proof.
  intros q n r R D (c & P). apply cofactor_ok; auto; try lia. change (Z.to_nat 6) with 6%nat. cbn [geo].
  exists (c * (1 + q) * (1 + q + q * q)). replace (c * (1 + q) * (1 + q + q * q) * r) with ((c * r) * ((1 + q) * (1 + q + q * q))) by ring. rewrite <- P. ring.
Qed.
Lemma freeman_cofactor : forall q n r, r <> 0 -> (r | n) -> (r | q ^ 4 - q ^ 3 + q ^ 2 - q + 1) -> extension_cofactor q n r 10 * (r * r) = extension_order q n 10.
Proof.
  intros q n r R D (c & P). apply cofactor_ok; auto; try lia. change (Z.to_nat 10) with 10%nat. cbn [geo].
  exists (c * ((1 + q) * (1 + q + q ^ 2 + q ^ 3 + q ^ 4))). replace (c * ((1 + q) * (1 + q + q ^ 2 + q ^ 3 + q ^ 4)) * r) with ((c * r) * ((1 + q) * (1 + q + q ^ 2 + q ^ 3 + q ^ 4))) by ring. rewrite <- P. ring.
Qed.
Lemma bn_cofactor : forall q r, r <> 0 -> (r | q ^ 4 - q ^ 2 + 1) ->
  let n12 := q ^ 12 + 1 - trace_n q (q + 1 - r) 12 in n12 / (r * r) * (r * r) = n12.
Proof.
  intros q r R (c & P) n12. assert (E : n12 = extension_order q r 12). { unfold n12, extension_order. replace (q - r + 1) with (q + 1 - r) by ring. lia. }
  rewrite E. apply (cofactor_ok q r r 12); auto; try lia; [exists 1; ring | ]. change (Z.to_nat 12) with 12%nat. cbn [geo].
  exists (c * ((1 + q) * (1 + q ^ 2) * (1 + q + q ^ 2) * (1 - q + q ^ 2))).
  replace (c * ((1 + q) * (1 + q ^ 2) * (1 + q + q ^ 2) * (1 - q + q ^ 2)) * r) with ((c * r) * ((1 + q) * (1 + q ^ 2) * (1 + q + q ^ 2) * (1 - q + q ^ 2))) by ring.
  rewrite <- P. ring.
Qed.
Lemma extension_order_is : forall q n k, extension_order q n k = curve_order_extn q (q + 1 - n) k.
Proof. intros. unfold extension_order, curve_order_extn. replace (q - n + 1) with (q + 1 - n) by ring. ring. Qed.
