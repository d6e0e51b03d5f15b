(** C73: the method shipsey-stange (elliptic nets) gives the same pairing
    values as Miller's algorithm, with and without preprocessing: they are the
    Tate pairings that C31, C35 and C36 state for the other methods.  [Ok j] is
    what the field library returns for the inverse of zero, which the final
    powering may ask for. *)
From Coq Require Import ZArith Znumtheory List Bool.
From Verif.Base Require Import Outcome Algebra Gmp.
From Verif.Spec Require Import FiniteField Quadratic Polynomials Extension Curve Tate Twist PairingValue PairingValueD PairingValueE.
From Verif.Model Require Import Lucas Pairing PairingA PairingA1 Miller PairingD EllNet.
From Verif.Proofs Require Import PairingAFacts PairingAApi NetApi NetE PairingAWitness PairingA1Witness PairingDWitness NetEWitness.
From Verif.Model Require Import Pairing.
Import ListNotations.
Open Scope Z_scope.

(** Type A: the map, the preprocessed map, the table and products. *)
Theorem type_a_net_is_tate : forall (K : fld) q r h e2 e1 s1 s0, type_a K q r h e2 e1 s1 s0 ->
  forall (j : K) P Q, torsion K f1 f0 r P -> on_curve K f1 f0 Q ->
  pairing_apply (a_pairing_net K (Ok j) r h (a_info_of h e2 e1 s1)) P Q = Ok (type_a_value K q r P Q).
Proof. exact a_net_apply. Qed.
Print Assumptions type_a_net_is_tate.
Theorem type_a_net_preprocessed_is_tate : forall (K : fld) q r h e2 e1 s1 s0, type_a K q r h e2 e1 s1 s0 ->
  forall (j : K) P, torsion K f1 f0 r P ->
  exists pp, pairing_pp_init (a_pairing_net K (Ok j) r h (a_info_of h e2 e1 s1)) P = Ok pp /\
  forall Q, on_curve K f1 f0 Q -> pairing_pp_apply (a_pairing_net K (Ok j) r h (a_info_of h e2 e1 s1)) Q pp = Ok (type_a_value K q r P Q).
Proof. exact a_net_pp. Qed.
Print Assumptions type_a_net_preprocessed_is_tate.
(** Every block of the table that is allocated is written (a write past it
    would be [UB]). *)
Theorem type_a_net_table_size : forall (K : fld) q r h e2 e1 s1 s0, type_a K q r h e2 e1 s1 s0 ->
  forall (j : K) P t, torsion K f1 f0 r P -> pairing_pp_init (a_pairing_net K (Ok j) r h (a_info_of h e2 e1 s1)) P = Ok (Some t) ->
  length (seq K t) = Z.to_nat (sizeinbase2 r).
Proof. exact a_net_size. Qed.
Print Assumptions type_a_net_table_size.
Theorem type_a_net_product : forall (K : fld) q r h e2 e1 s1 s0, type_a K q r h e2 e1 s1 s0 ->
  forall (j : K) in1 in2, length in1 = length in2 -> in1 <> [] ->
  Forall (torsion K f1 f0 r) in1 -> Forall (on_curve K f1 f0) in2 -> Forall (fun P => P <> None) in1 -> Forall (fun Q => Q <> None) in2 ->
  element_prod_pairing (a_pairing_net K (Ok j) r h (a_info_of h e2 e1 s1)) in1 in2 (length in1) =
    Ok (gprod (map (fun pq => type_a_value K q r (fst pq) (snd pq)) (combine in1 in2))).
Proof. exact a_net_prod. Qed.
Print Assumptions type_a_net_product.
(** Hence the choice among all three methods never changes a value ... *)
Theorem type_a_method_unobservable : forall (K : fld) q r h e2 e1 s1 s0, type_a K q r h e2 e1 s1 s0 ->
  forall (j : K) (m : any_method) P Q, torsion K f1 f0 r P -> on_curve K f1 f0 Q ->
  any_map K (Ok j) r h (a_info_of h e2 e1 s1) m P Q = Ok (type_a_value K q r P Q).
Proof. exact any_map_value. Qed.
Print Assumptions type_a_method_unobservable.
(** ... also when it changes between building a table and using it, provided
    it stays on the same side of the net/Miller divide. *)
Theorem type_a_method_change_partial : forall (K : fld) q r h e2 e1 s1 s0, type_a K q r h e2 e1 s1 s0 ->
  forall (j : K) (m1 m2 : any_method) P, torsion K f1 f0 r P -> (m1 = UseNet <-> m2 = UseNet) ->
  exists pp, any_init K (Ok j) r h (a_info_of h e2 e1 s1) m1 P = Ok pp /\
  forall Q, on_curve K f1 f0 Q -> any_apply K (Ok j) r h (a_info_of h e2 e1 s1) m2 Q pp = Ok (type_a_value K q r P Q).
Proof. exact any_pp_value. Qed.
Print Assumptions type_a_method_change_partial.
(** Otherwise the table of one method is read as the table of the other. *)
Theorem type_a_method_change_refuted : forall (K : fld) q r h e2 e1 s1 s0, type_a K q r h e2 e1 s1 s0 ->
  forall (j : K) (m1 m2 : any_method) P Q, torsion K f1 f0 r P -> P <> None -> Q <> None -> ~ (m1 = UseNet <-> m2 = UseNet) ->
  exists pp, any_init K (Ok j) r h (a_info_of h e2 e1 s1) m1 P = Ok pp /\ any_apply K (Ok j) r h (a_info_of h e2 e1 s1) m2 Q pp = UB.
Proof. exact any_pp_mixed. Qed.
Print Assumptions type_a_method_change_refuted.

(** Type A1, for first arguments that are the identity or have order exactly
    n. *)
Theorem type_a1_net_is_tate_partial : forall (K : fld) p n l, type_a1 K p n l -> 5 <= n ->
  forall (j : K) P Q, torsion K f1 f0 n P /\ (P <> None -> exact_order K f1 n P) -> on_curve K f1 f0 Q ->
  pairing_apply (a1_pairing_net K (Ok j) n l) P Q = Ok (type_a_value K p n P Q).
Proof. exact a1_net_apply. Qed.
Print Assumptions type_a1_net_is_tate_partial.
Theorem type_a1_net_preprocessed_partial : forall (K : fld) p n l, type_a1 K p n l -> 5 <= n ->
  forall (j : K) P, torsion K f1 f0 n P /\ (P <> None -> exact_order K f1 n P) ->
  exists pp, pairing_pp_init (a1_pairing_net K (Ok j) n l) P = Ok pp /\
  forall Q, on_curve K f1 f0 Q -> pairing_pp_apply (a1_pairing_net K (Ok j) n l) Q pp = Ok (type_a_value K p n P Q).
Proof. exact a1_net_pp. Qed.
Print Assumptions type_a1_net_preprocessed_partial.
Theorem type_a1_net_table_size : forall (K : fld) p n l, type_a1 K p n l -> 5 <= n ->
  forall (j : K) P t, torsion K f1 f0 n P /\ (P <> None -> exact_order K f1 n P) -> pairing_pp_init (a1_pairing_net K (Ok j) n l) P = Ok (Some t) ->
  length (seq K t) = Z.to_nat (sizeinbase2 n).
Proof. exact a1_net_size. Qed.
Print Assumptions type_a1_net_table_size.

(** Type G: the net is used by the map and by products; as with the other
    methods the powering dies if the value is 1. *)
Theorem type_g_net_is_tate_partial : forall (K : fld) m (c a b : K) q r, type_g K m c a b q r ->
  forall P Q, torsion K a b r P -> on_twist K 5 m c a b Q -> P = None \/ Q = None \/ dg_value K 5 m c a q r P Q <> f1 ->
  pairing_apply (g_pairing_net K 5 m (const K 5 m c) a b r (g_tatepower K 5 m (const K 5 m c) r q)) P Q = Ok (dg_value K 5 m c a q r P Q).
Proof. exact g_net_apply. Qed.
Print Assumptions type_g_net_is_tate_partial.
Theorem type_g_net_preprocessed_partial : forall (K : fld) m (c a b : K) q r, type_g K m c a b q r -> not_all_ones r ->
  forall P, torsion K a b r P ->
  exists pp, pairing_pp_init (g_pairing_net K 5 m (const K 5 m c) a b r (g_tatepower K 5 m (const K 5 m c) r q)) P = Ok pp /\
  forall Q, on_twist K 5 m c a b Q -> P = None \/ Q = None \/ dg_value K 5 m c a q r P Q <> f1 ->
  pairing_pp_apply (g_pairing_net K 5 m (const K 5 m c) a b r (g_tatepower K 5 m (const K 5 m c) r q)) Q pp = Ok (dg_value K 5 m c a q r P Q).
Proof. exact g_net_pp. Qed.
Print Assumptions type_g_net_preprocessed_partial.
Theorem type_g_net_product_partial : forall (K : fld) m (c a b : K) q r, type_g K m c a b q r ->
  forall in1 in2, length in1 = length in2 -> in1 <> [] ->
  Forall (torsion K a b r) in1 -> Forall (on_twist K 5 m c a b) in2 -> Forall (fun P => P <> None) in1 -> Forall (fun Q => Q <> None) in2 ->
  Forall (fun pq => dg_value K 5 m c a q r (fst pq) (snd pq) <> f1) (combine in1 in2) ->
  element_prod_pairing (g_pairing_net K 5 m (const K 5 m c) a b r (g_tatepower K 5 m (const K 5 m c) r q)) in1 in2 (length in1) =
    Ok (gprod (map (fun pq => dg_value K 5 m c a q r (fst pq) (snd pq)) (combine in1 in2))).
Proof. exact g_net_prod. Qed.
Print Assumptions type_g_net_product_partial.

(** Type E, when the second argument is not a multiple of the first; for the
    first argument itself, its opposite and its double the code inverts
    zero. *)
Theorem type_e_net_is_tate_partial : forall (K : fld) (a b : K) q r e2 e1 s1 s0, type_e K a b q r e2 e1 s1 s0 ->
  forall R, e_shift K a b r R -> forall P Q, torsion K a b r P -> torsion K a b r Q -> P = None \/ Q = None \/ (forall j, pmul K a j P <> Q) ->
  pairing_apply (e_pairing_net K a b q r) P Q = Ok (e_value K a q r R P Q).
Proof. exact e_net_apply. Qed.
Print Assumptions type_e_net_is_tate_partial.
Theorem type_e_net_preprocessed_partial : forall (K : fld) (a b : K) q r e2 e1 s1 s0, type_e K a b q r e2 e1 s1 s0 ->
  forall R, e_shift K a b r R -> forall P, torsion K a b r P ->
  exists pp, pairing_pp_init (e_pairing_net K a b q r) P = Ok pp /\
  forall Q, torsion K a b r Q -> P = None \/ Q = None \/ (forall j, pmul K a j P <> Q) -> pairing_pp_apply (e_pairing_net K a b q r) Q pp = Ok (e_value K a q r R P Q).
Proof. exact e_net_pp. Qed.
Print Assumptions type_e_net_preprocessed_partial.
Theorem type_e_net_product_partial : forall (K : fld) (a b : K) q r e2 e1 s1 s0, type_e K a b q r e2 e1 s1 s0 ->
  forall R, e_shift K a b r R -> forall in1 in2, length in1 = length in2 -> in1 <> [] ->
  Forall (torsion K a b r) in1 -> Forall (torsion K a b r) in2 -> Forall (fun P => P <> None) in1 -> Forall (fun Q => Q <> None) in2 ->
  Forall (fun pq => forall j, pmul K a j (fst pq) <> snd pq) (combine in1 in2) ->
  element_prod_pairing (e_pairing_net K a b q r) in1 in2 (length in1) = Ok (gprod (map (fun pq => e_value K a q r R (fst pq) (snd pq)) (combine in1 in2))).
Proof. exact e_net_prod. Qed.
Print Assumptions type_e_net_product_partial.
Theorem type_e_net_refuted : forall (K : fld) (a b : K) q r e2 e1 s1 s0, type_e K a b q r e2 e1 s1 s0 ->
  forall P Q, torsion K a b r P -> P <> None -> Q = P \/ Q = pneg P \/ Q = padd K a P P -> e_pairing_ellnet K a b q r P Q = UB.
Proof. exact e_net_fails. Qed.
Print Assumptions type_e_net_refuted.

(** Instances. *)
Example type_e_net_instance : type_e F113 (e113 5) (e113 0) 113 7 2 1 1 1 /\ e_shift F113 (e113 5) (e113 0) 7 RR113 /\
  torsion F113 (e113 5) (e113 0) 7 PP113 /\ torsion F113 (e113 5) (e113 0) 7 QQ113 /\ (forall j, pmul F113 (e113 5) j PP113 <> QQ113) /\
  e_value F113 (e113 5) 113 7 RR113 PP113 QQ113 <> f1.
Proof. split; [exact type_e_113 | ]. split; [exact s113 | ]. split; [exact tP113 | ]. split; [exact tQ113 | ]. split; [exact a113 | exact val113_not_1]. Qed.
Example type_a_net_instance : type_a F83 83 7 12 3 1 (-1) 1 /\ torsion F83 f1 f0 7 P83 /\ on_curve F83 f1 f0 Q83 /\ type_a_value F83 83 7 P83 Q83 <> f1.
Proof. exact (conj type_a_83 (conj P83_G1 (conj Q83_on PairingAWitness.value_not_1))). Qed.
Example type_a1_net_instance : type_a1 F59 59 15 4 /\ torsion F59 f1 f0 15 P59 /\ exact_order F59 f1 15 P59 /\ type_a_value F59 59 15 P59 P59 <> f1.
Proof. exact (conj type_a1_59 (conj (proj1 P59_input) (conj P59_exact PairingA1Witness.value_not_1))). Qed.
Example type_g_net_instance : type_g F7 m7 (e7 3) (e7 1) (e7 6) 7 11 /\ not_all_ones 11 /\
  torsion F7 (e7 1) (e7 6) 11 PP7 /\ on_twist F7 5 m7 (e7 3) (e7 1) (e7 6) QQ7 /\ PP7 <> None /\ QQ7 <> None /\
  dg_value F7 5 m7 (e7 3) (e7 1) 7 11 PP7 QQ7 <> f1.
Proof. split; [exact type_g_7 | ]. split; [discriminate | ]. split; [exact t7 | ]. split; [exact o7 | ]. split; [discriminate | ]. split; [discriminate | exact val7_not_1]. Qed.
