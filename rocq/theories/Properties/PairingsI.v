(** Type I: the group of points, random points, and the pairing as a user calls it.

    [holds_curve_point m t p a P]: the stored point a stands for the point P
    of y^2 = x^3 - x + 1 over GF(3)[X]/(X^m + X^t + 2); [tp_add], [tp_mul] the
    chord-and-tangent law, [tp_pair] the pairing formula, 1 at infinity
    (Spec/TernaryPoints.v).  [eta_N m] is the number of points. *)
From Coq Require Import ZArith List Bool.
From Verif.Base Require Import Outcome Algebra.
From Verif.Spec Require Import FiniteField Polynomials Curve Extension Ternary TernaryTower TernaryValues EtaT TernaryPoints.
From Verif.Model Require Import GF3m GF3Tower EtaT3 PairingI.
From Verif.Proofs Require Import GF3mMain EtaMain PairingIMain.
From Verif.Properties Require Import EtaTPairing.
Import ListNotations.
Open Scope nat_scope.

(** * C66: the group of points *)
(** Stored points are equal exactly if they stand for the same point. *)
Theorem type_i_points_canonical : forall m t p a b P, holds_point m t p a P -> holds_point m t p b P -> a = b.
Proof. exact injP. Qed.
Print Assumptions type_i_points_canonical.
Theorem type_i_point_operations : forall m t p, type_i_field m t p -> forall a b P Q, holds_curve_point m t p a P -> holds_curve_point m t p b Q ->
  let K := GF3m m t in let h := holds_curve_point m t p in let F := gf3m_ops p in
  returns h (point_add F a b) (tp_add K P Q) /\ returns h (i_point_double p a) (tp_add K P P) /\
  returns h (point_invert F a) (pneg P) /\ returns h (i_point_sub p a b) (tp_add K P (pneg Q)) /\
  exists r, point_cmp F a b = Ok r /\ (r = 0%Z <-> P = Q).
Proof.
  intros m t p (D & E & I & O & N) a b P Q A B. split; [exact (add_ok m t p D E I a b P Q A B) | split; [exact (add_ok m t p D E I a a P P A A) | ]].
  split; [exact (neg_ok m t p D I a P A) | split; [exact (sub_ok m t p D E I a b P Q A B) | exact (cmp_ok m t p D E a b P Q (proj1 A) (proj1 B))]].
Qed.
Print Assumptions type_i_point_operations.
Theorem type_i_point_pow : forall m t p, type_i_field m t p -> forall a P n, (0 <= n)%Z -> holds_curve_point m t p a P ->
  returns (holds_curve_point m t p) (i_point_pow p a n) (tp_mul (GF3m m t) n P).
Proof. intros m t p (D & E & I & O & N). exact (pow_ok m t p D E I). Qed.
Print Assumptions type_i_point_pow.
(** Every point is killed by the number of points. *)
Theorem type_i_group_order : forall m t p, type_i_field m t p -> forall a P, holds_curve_point m t p a P -> i_point_pow p a (eta_N m) = Ok None.
Proof. intros m t p (D & E & I & O & N). exact (api_N m t p D E I O N). Qed.
Print Assumptions type_i_group_order.
(** element_mul_si and element_halve do not compute multiples: they return the point. *)
Theorem type_i_mul_si_halve_refuted : forall p a n, i_point_mul_si p a n = Ok a /\ i_point_halve p a = Ok a.
Proof. exact (fun p a n => conj (mul_si_ok p a n) (halve_ok p a)). Qed.
Print Assumptions type_i_mul_si_halve_refuted.

(** element_random: if the first value is not 0, the point is n2 times a point
    over the first abscissa met, whatever values follow, and n kills it. *)
Theorem type_i_random_partial : forall m t p, type_i_field m t p -> forall n n2 y0 xs pre v post, (0 <= n)%Z -> (0 <= n2)%Z -> (n * n2 = eta_N m)%Z ->
  Forall2 (holds m t) xs (pre ++ v :: post) -> hd f0 (pre ++ v :: post) <> f0 ->
  Forall (fun w => ~ tp_abscissa (GF3m m t) w) pre -> tp_abscissa (GF3m m t) v ->
  (exists y, tp_on (GF3m m t) (Some (v, y)) /\ returns (holds_curve_point m t p) (i_point_random p n2 y0 xs) (tp_mul (GF3m m t) n2 (Some (v, y)))) /\
  exists a P, i_point_random p n2 y0 xs = Ok a /\ holds_curve_point m t p a P /\ i_point_pow p a n = Ok None.
Proof.
  intros m t p (D & E & I & O & N) n n2 y0 xs pre v post Hn Hn2 EN F2 NZ FN GV. split.
  - exact (random_ok m t p D E I O N n2 y0 xs pre v post Hn2 F2 NZ FN GV).
  - exact (random_order m t p D E I O N n n2 y0 xs pre v post Hn Hn2 EN F2 NZ FN GV).
Qed.
Print Assumptions type_i_random_partial.
(** If the first value is 0 the loop ends at once: (0, y0) is used, with y0
    what the coordinate held before. *)
Theorem type_i_random_zero_first : forall m t p, type_i_field m t p -> forall n2 y0 xs x, holds m t x f0 ->
  i_point_random p n2 y0 (x :: xs) = i_point_pow p (Some (x, y0)) n2.
Proof. intros m t p (D & E & I & O & N). exact (random_first_0 m t p D E). Qed.
Print Assumptions type_i_random_zero_first.
Theorem type_i_random_refuted : exists p n n2, type_i_field 5 4 p /\ (n * n2 = eta_N 5)%Z /\ (1 < n)%Z /\
  exists xs a P, Forall2 (holds 5 4) xs [f0; f1] /\ i_point_random p n2 (zero (p_len p)) xs = Ok a /\
  holds_point 5 4 p a P /\ ~ tp_on (GF3m 5 4) P /\ i_point_pow p a n <> Ok None.
Proof. exact rnd_ref. Qed.
Print Assumptions type_i_random_refuted.
(** element_random on GT, with the same restriction. *)
Theorem type_i_gt_random_partial : forall m t p, type_i_field m t p -> forall n n2 xs pre v post xs' pre' v' post', (0 <= n)%Z -> (0 <= n2)%Z -> (n * n2 = eta_N m)%Z ->
  Forall2 (holds m t) xs (pre ++ v :: post) -> hd f0 (pre ++ v :: post) <> f0 -> Forall (fun w => ~ tp_abscissa (GF3m m t) w) pre -> tp_abscissa (GF3m m t) v ->
  Forall2 (holds m t) xs' (pre' ++ v' :: post') -> hd f0 (pre' ++ v' :: post') <> f0 -> Forall (fun w => ~ tp_abscissa (GF3m m t) w) pre' -> tp_abscissa (GF3m m t) v' ->
  exists g one, i_gt_random p n2 xs xs' = Ok g /\ i_gt_one p = Ok one /\ i_gt_pow p g n = Ok one.
Proof. intros m t p (D & E & I & O & N). exact (gt_random_ok m t p D E I O N). Qed.
Print Assumptions type_i_gt_random_partial.

(** * C39: bilinearity *)
Theorem type_i_pairing_value : forall m t p, type_i_field m t p -> forall a b P Q, holds_curve_point m t p a P -> holds_curve_point m t p b Q ->
  returns (holds6 m t p) (i_pairing p a b) (tp_pair (GF3m m t) m P Q).
Proof. intros m t p (D & E & I & O & N). exact (pair_ok m t p D E I O N). Qed.
Print Assumptions type_i_pairing_value.
(** e(P^i, Q^j) = e(P, Q)^(ij), as stored elements. *)
Theorem type_i_bilinear : forall m t p, type_i_field m t p -> forall a b P Q i j, holds_curve_point m t p a P -> holds_curve_point m t p b Q -> (0 <= i)%Z -> (0 <= j)%Z ->
  exists ai bj v w, i_point_pow p a i = Ok ai /\ i_point_pow p b j = Ok bj /\ i_pairing p a b = Ok v /\ i_gt_pow p v (i * j) = Ok w /\
    i_pairing p ai bj = Ok w.
Proof. intros m t p (D & E & I & O & N). exact (api_bilinear m t p D E I O N). Qed.
Print Assumptions type_i_bilinear.
(** e(P + P', Q) = e(P, Q) e(P', Q) and e(P, Q + Q') = e(P, Q) e(P, Q'). *)
Theorem type_i_additive : forall m t p, type_i_field m t p -> forall a a' b P P' Q, holds_curve_point m t p a P -> holds_curve_point m t p a' P' -> holds_curve_point m t p b Q ->
  (exists s v v' w, point_add (gf3m_ops p) a a' = Ok s /\ i_pairing p a b = Ok v /\ i_pairing p a' b = Ok v' /\ i_gt_mul p v v' = Ok w /\ i_pairing p s b = Ok w) /\
  (exists s v v' w, point_add (gf3m_ops p) a a' = Ok s /\ i_pairing p b a = Ok v /\ i_pairing p b a' = Ok v' /\ i_gt_mul p v v' = Ok w /\ i_pairing p b s = Ok w).
Proof.
  intros m t p (D & E & I & O & N) a a' b P P' Q A A' B. split.
  - exact (api_add m t p D E I O N a a' b P P' Q A A' B).
  - exact (api_add_r m t p D E I O N b a a' Q P P' B A A').
Qed.
Print Assumptions type_i_additive.
(** The value to the order of the first point is 1, and so is its power to the number of points. *)
Theorem type_i_value_order : forall m t p, type_i_field m t p -> forall a b P Q r, holds_curve_point m t p a P -> holds_curve_point m t p b Q -> (0 <= r)%Z ->
  tp_mul (GF3m m t) r P = None \/ r = eta_N m ->
  exists v one, i_pairing p a b = Ok v /\ i_gt_one p = Ok one /\ i_gt_pow p v r = Ok one.
Proof. intros m t p (D & E & I & O & N). exact (api_order m t p D E I O N). Qed.
Print Assumptions type_i_value_order.

(** * C34: products *)
Theorem type_i_product_partial : forall m t p, type_i_field m t p -> forall in1 in2 Ps Qs,
  Forall2 (holds_curve_point m t p) in1 Ps -> Forall2 (holds_curve_point m t p) in2 Qs -> length Ps = length Qs -> Ps <> [] -> ~ In None Ps -> ~ In None Qs ->
  returns (holds6 m t p) (i_prod_pairing p in1 in2 (length Ps)) (tp_prod (GF3m m t) m Ps Qs).
Proof. intros m t p (D & E & I & O & N). exact (prod_ok m t p D E I O N). Qed.
Print Assumptions type_i_product_partial.
(** One point at infinity anywhere makes the whole product 1. *)
Theorem type_i_product_identity_gives_1 : forall m t p, type_i_field m t p -> forall in1 in2 Ps Qs,
  Forall2 (holds_curve_point m t p) in1 Ps -> Forall2 (holds_curve_point m t p) in2 Qs -> length Ps = length Qs -> In None Ps \/ In None Qs ->
  returns (holds6 m t p) (i_prod_pairing p in1 in2 (length Ps)) f1.
Proof. intros m t p (D & E & I & O & N). exact (prod_inf m t p D E I O N). Qed.
Print Assumptions type_i_product_identity_gives_1.

(** * C64: element_is_almost_coddh *)
Theorem type_i_almost_coddh : forall m t p, type_i_field m t p -> forall a b c d P Q R S,
  holds_curve_point m t p a P -> holds_curve_point m t p b Q -> holds_curve_point m t p c R -> holds_curve_point m t p d S ->
  exists r, i_is_almost_coddh p a b c d = Ok r /\ (r = true <->
    tp_pair (GF3m m t) m P S = tp_pair (GF3m m t) m Q R \/ fmul (tp_pair (GF3m m t) m P S) (tp_pair (GF3m m t) m Q R) = f1).
Proof. intros m t p (D & E & I & O & N). exact (coddh_ok m t p D E I O N). Qed.
Print Assumptions type_i_almost_coddh.
Theorem type_i_coddh_accepts : forall m t p, type_i_field m t p -> forall a b c d P Q x S, (0 <= x)%Z ->
  holds_curve_point m t p a P -> holds_curve_point m t p b (tp_mul (GF3m m t) x P) -> holds_curve_point m t p c Q -> holds_curve_point m t p d S ->
  S = tp_mul (GF3m m t) x Q \/ S = pneg (tp_mul (GF3m m t) x Q) -> i_is_almost_coddh p a b c d = Ok true.
Proof. intros m t p (D & E & I & O & N). exact (coddh_acc m t p D E I O N). Qed.
Print Assumptions type_i_coddh_accepts.

(** GF(3^5): two points, an abscissa other than 0, and the order 217 = 31 * 7. *)
Example type_i_points_5 : exists p, type_i_field 5 4 p /\ (31 * 7 = eta_N 5)%Z /\
  holds_curve_point 5 4 p (Some (zero5, one5)) (Some (f0, f1)) /\ holds_curve_point 5 4 p (Some (one5, one5)) (Some (f1, f1)) /\
  holds 5 4 one5 f1 /\ tp_abscissa (GF3m 5 4) f1.
Proof.
  exists p5. split; [split; [exact dims5 | split; [exact init5 | split; [exact tri5_irr | split; [reflexivity | discriminate]]]] | ].
  split; [reflexivity | split; [exact (proj1 points5) | split; [exact (proj2 points5) | split; [exact (proj2 holds5) | exact abs5]]]].
Qed.
Print Assumptions type_i_points_5.
