(** Type I pairings over generated parameters. *)
From Coq Require Import ZArith List Bool Lia Arith.
From Verif.Base Require Import Outcome Algebra.
From Verif.Spec Require Import Polynomials Ternary TernaryValues EtaT TernaryPoints ParamEqs.
From Verif.Model Require Import GF3m GF3Tower EtaT3 PairingI ParamGen.
From Verif.Proofs Require Import GF3mMain EtaMain PairingIMain ParamGenFacts RabinTable.
Open Scope Z_scope.

Lemma i_gen_irr : forall g p, i_gen g = Ok p -> irreducible (trinomial (Z.to_nat (i_m p)) (Z.to_nat (i_t p))).
Proof. intros g p H. destruct (i_gen_field g p H) as (P & _ & _ & I & _). exact I. Qed.
Lemma order_eq : forall m, 0 <= m -> ternary_order m = eta_N (Z.to_nat m).
Proof. intros m Hm. unfold ternary_order, eta_N, eta_mu, eta_t. rewrite Z2Nat.id by auto. ring. Qed.
Lemma n2_nonneg : forallb (fun bp => (0 <=? i_n (snd bp)) && (0 <=? i_n2 (snd bp))) i_table = true.
Proof. vm_compute. reflexivity. Qed.
Lemma i_gen_pairing_ok : forall g p, i_gen g = Ok p -> let m := Z.to_nat (i_m p) in let t := Z.to_nat (i_t p) in
  exists P, field_init_gf3m (i_m p) (i_t p) = Ok P /\
    (forall a A, holds_curve_point m t P a A -> exists b B, i_point_pow P a (i_n2 p) = Ok b /\ holds_curve_point m t P b B /\ i_point_pow P b (i_n p) = Ok None) /\
    (forall a b A B i j, holds_curve_point m t P a A -> holds_curve_point m t P b B -> 0 <= i -> 0 <= j ->
       exists ai bj v w, i_point_pow P a i = Ok ai /\ i_point_pow P b j = Ok bj /\ i_pairing P a b = Ok v /\ i_gt_pow P v (i * j) = Ok w /\
         i_pairing P ai bj = Ok w) /\
    (forall a b A B, holds_curve_point m t P a A -> holds_curve_point m t P b B -> i_point_pow P a (i_n p) = Ok None ->
       exists v one, i_pairing P a b = Ok v /\ i_gt_one P = Ok one /\ i_gt_pow P v (i_n p) = Ok one).
Proof.
  intros g p H m t. destruct (i_gen_field g p H) as (P & D & E & I & O & N). fold m t in D, E, I, O, N. destruct (i_gen_ok g p H) as (EN & _ & _ & B & _).
  rewrite order_eq in EN by lia. fold m in EN. destruct (i_gen_in g p H) as [bb Ib]. pose proof n2_nonneg as NN. rewrite forallb_forall in NN. specialize (NN _ Ib). cbn [snd] in NN.
  apply andb_true_iff in NN. destruct NN as [N1 N2]. apply Z.leb_le in N1. apply Z.leb_le in N2.
  exists P. split; [unfold m, t in E; rewrite !Z2Nat.id in E by lia; exact E | split; [ | split]].
  - intros a A HA. destruct (pow_ok m t P D E I a A (i_n2 p) N2 HA) as (b & E1 & R1). exists b, (tp_mul (GF3m m t) (i_n2 p) A). split; [exact E1 | split; [exact R1 | ]].
    destruct (pow_ok m t P D E I b _ (i_n p) N1 R1) as (c & E2 & (R2 & _)). rewrite E2. f_equal.
    assert (X : tp_mul (GF3m m t) (i_n p) (tp_mul (GF3m m t) (i_n2 p) A) = None).
    { rewrite <- (mul_mul m t D I A _ _ (proj2 HA) N1 N2), EN. pose proof (api_N m t P D E I O N a A HA) as EA.
      destruct (pow_ok m t P D E I a A (eta_N m)) as (c0 & E3 & (R3 & _)); [rewrite <- EN; apply Z.mul_nonneg_nonneg; auto | exact HA | ].
      rewrite EA in E3. inversion E3. subst c0. destruct (tp_mul (GF3m m t) (eta_N m) A) as [[? ?] | ]; [contradiction R3 | reflexivity]. }
    rewrite X in R2. destruct c as [[? ?] | ]; [contradiction R2 | reflexivity].
  - exact (api_bilinear m t P D E I O N).
  - intros a b A B' HA HB EA. apply (api_order m t P D E I O N a b A B' (i_n p) HA HB N1). left.
    destruct (pow_ok m t P D E I a A (i_n p) N1 HA) as (c & E3 & (R3 & _)). rewrite EA in E3. inversion E3. subst c.
    destruct (tp_mul (GF3m m t) (i_n p) A) as [[? ?] | ]; [contradiction R3 | reflexivity].
Qed.
