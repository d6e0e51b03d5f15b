(** Type D and G pairings: the interface. *)
From Coq Require Import ZArith List Bool Lia Ring Field Znumtheory.
From Verif.Base Require Import Outcome Array Algebra Slots Gmp.
From Verif.Spec Require Import Curve Tate Quadratic Twist FiniteField Polynomials Extension PairingValue PairingValueD.
From Verif.Model Require Import GenericPow Curve Lucas Pairing PairingA Miller PairingD.
From Verif.Proofs Require Import PowFacts FieldFacts QuadFacts ExtFacts PolymodFacts ExtFrobenius BilinearZ TwistedValue DFinal PairingDFacts.
From Verif.Model Require Import Pairing.
Import ListNotations.

Section Main.
Variable K : fld.
Variables (n : nat) (m : list K).
Variables c a b : K.
Variables q r : Z.
Hypothesis T : type_dg K n m c a b q r.
Local Notation M := (Ext K n m).
Local Notation h := (const K n m).
Local Notation v := (const K n m c).
Local Notation L := (Quad M v).
Local Notation NZ := (Z.of_nat n).
Local Notation e := ((q ^ (2 * NZ) - 1) / r)%Z.
Local Notation val := (dg_value K n m c a q r).
Local Notation G1 := (torsion K a b r).
Local Notation onM := (on_twist K n m c a b).
Let HK := dg_field _ _ _ _ _ _ _ _ T.
Let Hn := dg_n _ _ _ _ _ _ _ _ T.
Let Hm := dg_monic _ _ _ _ _ _ _ _ T.
Let Hi := dg_irred _ _ _ _ _ _ _ _ T.
Let HE := dg_ell _ _ _ _ _ _ _ _ T.
Let R3 := dg_r2 _ _ _ _ _ _ _ _ T.
Let HO := dg_order _ _ _ _ _ _ _ _ T.
Let HM : fld_laws M := Ext_laws K HK n m Hm (n_pos n Hn) Hi.
Let Hh : embedding K M h := cvec_embedding K HK n m Hm Hn.
Let Hv' := Hv K n m c a b q r T.
Let HL : fld_laws L := Quad_laws M HM v Hv'.
Let HOM : has_order M (q ^ NZ) := ext_order K n m q HO.
Let q2' := q2 K n m c a b q r T.
Let RO' := RO K n m c a b q r T.
Let RK' := RK K n m c a b q r T.
Let EE' := EE K n m c a b q r T.
Lemma NZ0' : (0 <= NZ)%Z. Proof. lia. Qed.
Theorem dg_value_r : forall P Q, G1 P -> onM Q -> fpow (val P Q) r = f1.
Proof. intros P Q HP HQ. exact (value_r K M HK HM h Hh v Hv' a b HE r R3 RO' q NZ q2' NZ0' HOM e _ RK' EE' P Q HP HQ). Qed.
Theorem dg_bilinear : forall i j P Q, G1 P -> onM Q ->
  val (pzmul K a i P) (pzmul M (fmul (fmul (h a) v) v) j Q) = fpow (val P Q) ((i * j) mod r).
Proof. intros i j P Q HP HQ. exact (value_bilinear K M HK HM h Hh v Hv' a b HE r R3 RO' q NZ q2' NZ0' HOM e _ RK' EE' i j P Q HP HQ). Qed.
Theorem dg_add1 : forall P P' Q, G1 P -> G1 P' -> onM Q -> val (padd K a P P') Q = fmul (val P Q) (val P' Q).
Proof. intros P P' Q HP HP' HQ. exact (value_add1 K M HK HM h Hh v Hv' a b HE r R3 RO' q NZ q2' NZ0' HOM e _ RK' EE' P P' Q HP HP' HQ). Qed.
Theorem dg_add2 : forall P Q Q', G1 P -> onM Q -> onM Q' -> val P (padd M (fmul (fmul (h a) v) v) Q Q') = fmul (val P Q) (val P Q').
Proof. intros P Q Q' HP HQ HQ'. exact (value_add2 K M HK HM h Hh v Hv' a b HE r R3 RO' q NZ q2' NZ0' HOM e _ RK' EE' P Q Q' HP HQ HQ'). Qed.
Theorem dg_additive : forall P P' Q Q', G1 P -> G1 P' -> onM Q -> onM Q' ->
  val (padd K a P P') Q = fmul (val P Q) (val P' Q) /\ val P (padd M (fmul (fmul (h a) v) v) Q Q') = fmul (val P Q) (val P Q').
Proof. intros. split; [apply dg_add1 | apply dg_add2]; auto. Qed.
Lemma dg_fermat : forall x : L, x <> f0 -> fpow (fpow x e) r = f1.
Proof.
  intros x N. assert (0 <= e)%Z.
  { apply Z.div_pos; [ | lia]. assert (0 < q ^ (2 * NZ))%Z by (apply Z.pow_pos_nonneg; lia). lia. }
  rewrite <- (fpowM L HL) by lia. rewrite Z.mul_comm. exact (fermat_e M HM v Hv' r q NZ q2' NZ0' HOM e _ RK' EE' x N).
Qed.
(** ** the interface *)
Variable tp : L -> res L.
Variable ok : L -> Prop.
Hypothesis HT : forall x : L, x <> f0 -> ok (fpow x e) -> tp x = Ok (fpow x e).
Variable prd : list (point K) -> list (point M) -> nat -> res L.
Definition pr : pairing :=
  {| g1 := point K; g2 := point M; gt := L; ppt := table K;
     is0_1 := is_inf K; is0_2 := is_inf2 K n m;
     map_ := cc_pairing K n m v a r tp MillerAffine;
     pp_init_ := d_pairing_pp_init K a r;
     pp_apply_ := d_pairing_pp_apply K n m v r tp;
     prod_ := prd |}.
Theorem dg_apply : forall P Q, G1 P -> onM Q -> (P <> None -> Q <> None -> ok (val P Q)) -> pairing_apply pr P Q = Ok (val P Q).
Proof.
  intros P Q HP HQ OV. refine (apply_ok K M HM h v Hv' a r e _ _ _ _ _ P Q _).
  intros NP NQ. apply (d_affine_ok K n m c a b q r T tp ok HT); auto.
Qed.
Theorem dg_pp : not_all_ones r -> forall P, G1 P -> exists pp, pairing_pp_init pr P = Ok pp /\
  forall Q, onM Q -> (P <> None -> Q <> None -> ok (val P Q)) -> pairing_pp_apply pr Q pp = Ok (val P Q).
Proof.
  intros NA P HP. 
  destruct (pp_ok K M HM h v Hv' a r e (table K) (cc_pairing K n m v a r tp MillerAffine) (d_pairing_pp_init K a r) (d_pairing_pp_apply K n m v r tp) prd P (fun Q => onM Q /\ (P <> None -> Q <> None -> ok (val P Q)))) as (pp & E & H).
  - intros NP. destruct (d_pp_ok K n m c a b q r T tp ok HT NA P HP NP) as (t & E & _ & _ & H). exists t. split; [exact E | ]. intros Q (OQ & OV) NQ. apply H; auto.
  - exists pp. split; [exact E | ]. intros Q OQ OV. apply H. auto.
Qed.
Theorem dg_pp_table : not_all_ones r -> forall P t, G1 P -> pairing_pp_init pr P = Ok (Some t) ->
  length t = (2 * start_bit r)%nat /\ d_pairing_pp_clear K r t = Ok tt.
Proof.
  intros NA P t HP E. destruct (pp_t K M v _ _ _ _ _ P t E) as (NP & E'). destruct (d_pp_ok K n m c a b q r T tp ok HT NA P HP NP) as (t' & E2 & H1 & H2 & _).
  assert (ET : t' = t) by (rewrite E2 in E'; injection E' as <-; reflexivity). subst t'. auto.
Qed.
Theorem dg_pp_overrun : ~ not_all_ones r -> forall P, G1 P -> P <> None -> pairing_pp_init pr P = UB.
Proof.
  intros NA P HP NP. unfold pairing_pp_init. cbn [is0_1 pp_init_ pr]. destruct P as [pp | ]; [ | congruence]. cbn [is_inf].
  rewrite (d_pp_overrun K n m c a b q r T NA _ HP NP). reflexivity.
Qed.
Local Notation prods in1 in2 := (gprod (map (fun pq => val (fst pq) (snd pq)) (combine in1 in2))).
Theorem dg_prod_1 : forall in1 in2 i P Q, length in1 = length in2 -> nth_error in1 i = Some P -> nth_error in2 i = Some Q -> P = None \/ Q = None ->
  element_prod_pairing pr in1 in2 (length in1) = Ok f1.
Proof. intros in1 in2 i P Q EL I1 I2 H. exact (prod_one K M v q NZ _ _ _ _ _ in1 in2 i P Q EL I1 I2 H). Qed.
Lemma dg_prod_red : forall in1 in2, length in1 = length in2 -> Forall (fun P => P <> None) in1 -> Forall (fun Q => Q <> None) in2 ->
  element_prod_pairing pr in1 in2 (length in1) = prd in1 in2 (length in1).
Proof. intros. exact (prod_reduce K M v q NZ q2' NZ0' _ _ _ _ _ in1 in2 H H0 H1). Qed.
Lemma val_nz : forall P Q, G1 P -> onM Q -> val P Q <> f0.
Proof.
  intros P Q HP HQ E. pose proof (dg_value_r P Q HP HQ) as A. rewrite E in A. apply (f_1_neq_0 L HL). rewrite <- A.
  unfold fpow, zpow. apply (npow_0_pos L HL). lia.
Qed.
(** cc_is_almost_coddh *)
Theorem dg_coddh : forall P B Q R, G1 P -> G1 B -> onM Q -> onM R -> P <> None -> B <> None -> Q <> None -> R <> None -> ok (val P R) -> ok (val B Q) ->
  exists z, cc_is_almost_coddh K n m v a r tp MillerAffine P B Q R = Ok z /\ (z = true <-> val P R = val B Q \/ fmul (val P R) (val B Q) = f1).
Proof.
  intros P B Q R HP HB HQ HR NP NB NQ NR O1 O2. unfold cc_is_almost_coddh.
  pose proof (d_affine_ok K n m c a b q r T tp ok HT P R HP NP HR NR O1) as E1. pose proof (d_affine_ok K n m c a b q r T tp ok HT B Q HB NB HQ NQ O2) as E2.
  pose proof (val_nz B Q HB HQ) as NZ.
  match goal with |- context [bind ?x _] => replace x with (Ok (val P R)) by (symmetry; exact E1) end. cbn [bind].
  match goal with |- context [bind ?x _] => replace x with (Ok (val B Q)) by (symmetry; exact E2) end. cbn [bind].
  change (@feqb (Fqk K n m v)) with (@feqb L). change (@fmul (Fqk K n m v)) with (@fmul L). change (@f1 (Fqk K n m v)) with (@f1 L).
  destruct (@feqb L (fmul (val P R) (val B Q)) f1) eqn:F.
  - exists true. split; auto. split; auto. intros _. right. apply (fl_eqb L HL). auto.
  - match goal with |- context [bind ?x _] => replace x with (@Ok L (finv (val B Q))) by (symmetry; apply (finvert_ok L HL); auto) end. cbn [bind].
    eexists. split; [reflexivity | ]. rewrite (fl_eqb L HL). 
    assert (G : forall x y : L, y <> f0 -> (fmul x (finv y) = f1 <-> x = y)).
    { intros x y N. pose proof (fl_field L HL) as FT. destruct FT as [[] _ _ Hinv]. split; intros EX.
      - transitivity (fmul (fmul x (finv y)) y); [rewrite <- Rmul_assoc, Hinv by auto; rewrite Rmul_comm, Rmul_1_l; reflexivity | rewrite EX; apply Rmul_1_l].
      - rewrite EX, Rmul_comm. apply Hinv. auto. }
    rewrite (G _ _ NZ). split; auto. intros [A | A]; auto. apply (feqb_neq L HL) in F. contradiction.
Qed.
Lemma dg_dh : forall P Q x s, G1 P -> onM Q -> s = 1%Z \/ s = (-1)%Z ->
  val P (pzmul M (fmul (fmul (h a) v) v) (s * x) Q) = val (pzmul K a x P) Q \/ fmul (val P (pzmul M (fmul (fmul (h a) v) v) (s * x) Q)) (val (pzmul K a x P) Q) = f1.
Proof. intros. exact (dh_values K M HK HM h Hh v Hv' a b HE r R3 RO' q NZ q2' NZ0' HOM e _ RK' EE' P Q x s H H0 H1). Qed.
Lemma dg_mul1 : forall x P, G1 P -> G1 (pzmul K a x P).
Proof. intros x P H. exact (G1_mul K M HK HM h Hh v Hv' a b HE r R3 RO' q NZ x P H). Qed.
Lemma dg_mul2 : forall x Q, onM Q -> onM (pzmul M (fmul (fmul (h a) v) v) x Q).
Proof. intros x Q H. exact (onM_mul K M HK HM h Hh v a b HE x Q H). Qed.
Theorem dg_coddh_accepts : forall P Q x s, G1 P -> onM Q -> s = 1%Z \/ s = (-1)%Z ->
  let B := pzmul K a x P in let R := pzmul M (fmul (fmul (h a) v) v) (s * x) Q in
  P <> None -> B <> None -> Q <> None -> R <> None -> ok (val P R) -> ok (val B Q) ->
  cc_is_almost_coddh K n m v a r tp MillerAffine P B Q R = Ok true.
Proof.
  intros P Q x s HP HQ HS B R NP NB NQ NR O1 O2.
  destruct (dg_coddh P B Q R HP (dg_mul1 x P HP) HQ (dg_mul2 (s * x) Q HQ) NP NB NQ NR O1 O2) as (z & E & H). rewrite E. f_equal. apply H. apply dg_dh; auto.
Qed.
End Main.

(** ** Type D *)
Section D.
Variable K : fld.
Variables (n : nat) (m : list K).
Variables c a b : K.
Variables q r : Z.
Hypothesis T : type_d K n m c a b q r.
Let T1 := proj1 T.
Local Notation M := (Ext K n m).
Local Notation h := (const K n m).
Local Notation v := (const K n m c).
Local Notation L := (Quad M v).
Local Notation NZ := (Z.of_nat n).
Local Notation k := (2 * NZ)%Z.
Local Notation e := ((q ^ k - 1) / r)%Z.
Local Notation val := (dg_value K n m c a q r).
Local Notation G1 := (torsion K a b r).
Local Notation onM := (on_twist K n m c a b).
Local Notation D := (d_pairing K n m v a r k q MillerAffine).
Lemma d_tp : forall x : L, x <> f0 -> True -> d_tatepower K n m v r k q x = Ok (fpow x e).
Proof.
  intros x N _. pose proof (dg_r2 _ _ _ _ _ _ _ _ T1). pose proof (dg_q3 _ _ _ _ _ _ _ _ T1).
  destruct (Nat.eq_dec n 3) as [E3 | E3].
  - assert (N' := N). destruct (proj2 T E3) as (w & W). destruct T1. revert x N N'. rewrite E3 in *. intros x N N'. change (2 * Z.of_nat 3)%Z with 6%Z.
    apply (d_power_ok K dg_field m q dg_q ltac:(lia) dg_order c dg_c r w ltac:(lia) dg_monic dg_irred); auto. rewrite W. ring.
  - unfold d_tatepower. destruct (Z.eqb_spec k 6); [lia | ].
    assert (HL : fld_laws L) by exact (Quad_laws M (Ext_laws K (dg_field _ _ _ _ _ _ _ _ T1) n m (dg_monic _ _ _ _ _ _ _ _ T1) (n_pos n (dg_n _ _ _ _ _ _ _ _ T1)) (dg_irred _ _ _ _ _ _ _ _ T1)) v (Hv K n m c a b q r T1)).
    rewrite (generic_pow_spec _ (mul_monoid_laws L HL)); [reflexivity | ].
    apply Z.div_pos; [ | lia]. assert (0 < q ^ k)%Z by (apply Z.pow_pos_nonneg; lia). lia.
Qed.
Theorem d_apply : forall P Q, G1 P -> onM Q -> pairing_apply D P Q = Ok (val P Q).
Proof. intros P Q HP HQ. exact (dg_apply K n m c a b q r T1 _ (fun _ => True) d_tp _ P Q HP HQ (fun _ _ => I)). Qed.
Theorem d_pp : not_all_ones r -> forall P, G1 P -> exists pp, pairing_pp_init D P = Ok pp /\ forall Q, onM Q -> pairing_pp_apply D Q pp = Ok (val P Q).
Proof.
  intros NA P HP. destruct (dg_pp K n m c a b q r T1 _ (fun _ => True) d_tp (cc_pairings_affine K n m v a r (d_tatepower K n m v r k q)) NA P HP) as (pp & E & H).
  exists pp. split; [exact E | ]. intros Q HQ. exact (H Q HQ (fun _ _ => I)).
Qed.
Theorem d_pp_table : not_all_ones r -> forall P t, G1 P -> pairing_pp_init D P = Ok (Some t) -> length t = (2 * start_bit r)%nat /\ d_pairing_pp_clear K r t = Ok tt.
Proof. intros NA P t HP E. exact (dg_pp_table K n m c a b q r T1 _ (fun _ => True) d_tp (cc_pairings_affine K n m v a r (d_tatepower K n m v r k q)) NA P t HP E). Qed.
Theorem d_overrun : ~ not_all_ones r -> forall P, G1 P -> P <> None -> pairing_pp_init D P = UB.
Proof. intros NA P HP NP. exact (dg_pp_overrun K n m c a b q r T1 (d_tatepower K n m v r k q) (cc_pairings_affine K n m v a r (d_tatepower K n m v r k q)) NA P HP NP). Qed.
Local Notation prods in1 in2 := (gprod (map (fun pq => val (fst pq) (snd pq)) (combine in1 in2))).
Theorem d_prod : forall in1 in2, length in1 = length in2 -> in1 <> [] -> Forall G1 in1 -> Forall onM in2 ->
  Forall (fun P => P <> None) in1 -> Forall (fun Q => Q <> None) in2 -> element_prod_pairing D in1 in2 (length in1) = Ok (prods in1 in2).
Proof.
  intros in1 in2 EL NE F1 F2 N1 N2. etransitivity; [exact (dg_prod_red K n m c a b q r T1 (d_tatepower K n m v r k q) (cc_pairings_affine K n m v a r (d_tatepower K n m v r k q)) in1 in2 EL N1 N2) | ].
  exact (d_prod_ok K n m c a b q r T1 _ (fun _ => True) d_tp in1 in2 EL NE F1 F2 N1 N2 I).
Qed.
Theorem d_prod_identity : forall mt in1 in2 i P Q, length in1 = length in2 -> nth_error in1 i = Some P -> nth_error in2 i = Some Q -> P = None \/ Q = None ->
  element_prod_pairing (d_pairing K n m v a r k q mt) in1 in2 (length in1) = Ok f1.
Proof. intros mt in1 in2 i P Q EL I1 I2 H. exact (prod_one K M v q NZ _ _ _ _ _ in1 in2 i P Q EL I1 I2 H). Qed.
Theorem d_coddh : forall P B Q R, G1 P -> G1 B -> onM Q -> onM R -> P <> None -> B <> None -> Q <> None -> R <> None ->
  exists z, cc_is_almost_coddh K n m v a r (d_tatepower K n m v r k q) MillerAffine P B Q R = Ok z /\ (z = true <-> val P R = val B Q \/ fmul (val P R) (val B Q) = f1).
Proof. intros P B Q R HP HB HQ HR NP NB NQ NR. exact (dg_coddh K n m c a b q r T1 _ (fun _ => True) d_tp P B Q R HP HB HQ HR NP NB NQ NR I I). Qed.
Theorem d_coddh_accepts : forall P Q x s, G1 P -> onM Q -> s = 1%Z \/ s = (-1)%Z ->
  let B := pzmul K a x P in let R := pzmul M (fmul (fmul (h a) v) v) (s * x) Q in
  P <> None -> B <> None -> Q <> None -> R <> None ->
  cc_is_almost_coddh K n m v a r (d_tatepower K n m v r k q) MillerAffine P B Q R = Ok true.
Proof. intros P Q x s HP HQ HS B R NP NB NQ NR. exact (dg_coddh_accepts K n m c a b q r T1 _ (fun _ => True) d_tp P Q x s HP HQ HS NP NB NQ NR I I). Qed.
Theorem d_gt : forall x : L, x <> f0 -> exists u, d_tatepower K n m v r k q x = Ok u /\ fpow u r = f1.
Proof. intros x N. exists (fpow x e). split; [apply d_tp; auto | exact (dg_fermat K n m c a b q r T1 x N)]. Qed.
End D.

(** ** Type G *)
Section G.
Variable K : fld.
Variables (m : list K).
Variables c a b : K.
Variables q r : Z.
Hypothesis T : type_g K m c a b q r.
Let T1 := proj1 T.
Local Notation n := 5%nat.
Local Notation M := (Ext K n m).
Local Notation h := (const K n m).
Local Notation v := (const K n m c).
Local Notation L := (Quad M v).
Local Notation e := ((q ^ (2 * Z.of_nat 5) - 1) / r)%Z.
Local Notation val := (dg_value K n m c a q r).
Local Notation G1 := (torsion K a b r).
Local Notation onM := (on_twist K n m c a b).
Local Notation G := (g_pairing K n m v a r q MillerAffine).
Lemma g_tp : forall x : L, x <> f0 -> fpow x e <> f1 -> g_tatepower K n m v r q x = Ok (fpow x e).
Proof.
  intros x N NV. destruct (proj2 T) as (w & W). destruct T1. change (2 * Z.of_nat 5)%Z with 10%Z in *.
  apply (g_power_ok K dg_field m q dg_q ltac:(lia) dg_order c dg_c r w ltac:(lia) dg_monic dg_irred); auto. rewrite W. ring.
Qed.
Theorem g_apply : forall P Q, G1 P -> onM Q -> P = None \/ Q = None \/ val P Q <> f1 -> pairing_apply G P Q = Ok (val P Q).
Proof. intros P Q HP HQ OV. refine (dg_apply K n m c a b q r T1 _ (fun x => x <> f1) g_tp _ P Q HP HQ _). intros A B. destruct OV as [ | [ | ]]; congruence. Qed.
Theorem g_pp : not_all_ones r -> forall P, G1 P -> exists pp, pairing_pp_init G P = Ok pp /\
  forall Q, onM Q -> P = None \/ Q = None \/ val P Q <> f1 -> pairing_pp_apply G Q pp = Ok (val P Q).
Proof.
  intros NA P HP. destruct (dg_pp K n m c a b q r T1 _ (fun x => x <> f1) g_tp (generic_prod_pairings (cc_pairing K n m v a r (g_tatepower K n m v r q) MillerAffine)) NA P HP) as (pp & E & H).
  exists pp. split; [exact E | ]. intros Q HQ OV. refine (H Q HQ _). intros A B. destruct OV as [ | [ | ]]; congruence.
Qed.
Theorem g_pp_table : not_all_ones r -> forall P t, G1 P -> pairing_pp_init G P = Ok (Some t) -> length t = (2 * start_bit r)%nat /\ d_pairing_pp_clear K r t = Ok tt.
Proof. intros NA P t HP E. exact (dg_pp_table K n m c a b q r T1 _ (fun x => x <> f1) g_tp (generic_prod_pairings (cc_pairing K n m v a r (g_tatepower K n m v r q) MillerAffine)) NA P t HP E). Qed.
Local Notation prods in1 in2 := (gprod (map (fun pq => val (fst pq) (snd pq)) (combine in1 in2))).
Theorem g_prod : forall in1 in2, length in1 = length in2 -> in1 <> [] -> Forall G1 in1 -> Forall onM in2 ->
  Forall (fun P => P <> None) in1 -> Forall (fun Q => Q <> None) in2 -> Forall (fun pq => val (fst pq) (snd pq) <> f1) (combine in1 in2) ->
  element_prod_pairing G in1 in2 (length in1) = Ok (prods in1 in2).
Proof.
  intros in1 in2 EL NE F1 F2 N1 N2 OV. etransitivity; [exact (dg_prod_red K n m c a b q r T1 (g_tatepower K n m v r q) (generic_prod_pairings (cc_pairing K n m v a r (g_tatepower K n m v r q) MillerAffine)) in1 in2 EL N1 N2) | ].
  exact (prods_generic K n m c a b q r T1 (fun x => x <> f1) _ (d_affine_ok K n m c a b q r T1 _ (fun x => x <> f1) g_tp) in1 in2 EL NE F1 F2 N1 N2 OV).
Qed.
Theorem g_coddh : forall P B Q R, G1 P -> G1 B -> onM Q -> onM R -> P <> None -> B <> None -> Q <> None -> R <> None -> val P R <> f1 -> val B Q <> f1 ->
  exists z, cc_is_almost_coddh K n m v a r (g_tatepower K n m v r q) MillerAffine P B Q R = Ok z /\ (z = true <-> val P R = val B Q \/ fmul (val P R) (val B Q) = f1).
Proof. intros P B Q R HP HB HQ HR NP NB NQ NR. exact (dg_coddh K n m c a b q r T1 _ (fun x => x <> f1) g_tp P B Q R HP HB HQ HR NP NB NQ NR). Qed.
End G.
