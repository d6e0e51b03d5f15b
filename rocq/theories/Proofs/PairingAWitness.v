(** A small type A instance: q = 83, r = 7 = 2^3 - 2 + 1, h = 12. *)
From Coq Require Import ZArith Znumtheory List Bool Lia.
From Verif.Base Require Import Outcome Algebra.
From Verif.Spec Require Import FiniteField Quadratic Curve PairingValue.
From Verif.Model Require Import Lucas Pairing PairingA GT.
From Verif.Proofs Require Import FieldFacts QuadFacts ZpField RootWitness MntMain PairingAFacts PairingAApi.
Import ListNotations.
Open Scope Z_scope.

Lemma lt83 : 1 < 83. Proof. reflexivity. Qed.
Notation F83 := (Zp 83 lt83).
Definition c83 (n : Z) : F83 := zmk 83 lt83 n.
Lemma type_a_83 : type_a F83 83 7 12 3 1 (-1) 1.
Proof.
  assert (P83 : prime 83) by (apply isprime_spec; vm_compute; reflexivity).
  split; try reflexivity; try lia; auto.
  - apply Zp_laws. exact P83.
  - apply (Zp_instance 83 lt83). exact P83.
  - apply isprime_spec. vm_compute. reflexivity.
Qed.
Definition P83 : point F83 := Some (c83 69, c83 8).
Definition Q83 : point F83 := Some (c83 2, c83 33).
Lemma P83_G1 : torsion F83 f1 f0 7 P83.
Proof. split; [apply zval_inj; vm_compute; reflexivity | vm_compute; reflexivity]. Qed.
Lemma Q83_on : on_curve F83 f1 f0 Q83. Proof. apply zval_inj. vm_compute. reflexivity. Qed.
Definition show2 (x : res (Fq2 F83)) : option (Z * Z) := match x with Ok (a, b) => Some (zval 83 a, zval 83 b) | _ => None end.
Definition info83 : a_info := a_info_of 12 3 1 (-1).
Lemma value_83 : forall m, show2 (pairing_apply (a_pairing F83 (Ok f0) info83 m) P83 Q83) = show2 (pairing_apply (a_pairing F83 (Ok f0) info83 Miller) P83 Q83) /\
  show2 (pairing_apply (a_pairing F83 (Ok f0) info83 m) P83 Q83) <> Some (1, 0).
Proof. intros []; split; try (vm_compute; reflexivity); vm_compute; discriminate. Qed.
Lemma one_83 : show2 (Ok f1) = Some (1, 0). Proof. vm_compute. reflexivity. Qed.
Lemma value_not_1 : type_a_value F83 83 7 P83 Q83 <> f1.
Proof.
  intro E. assert (A := apply_value F83 83 7 12 3 1 (-1) 1 type_a_83 f0 Miller P83 Q83 P83_G1 Q83_on). rewrite E in A.
  apply (proj2 (value_83 Miller)). unfold info83. etransitivity; [exact (f_equal show2 A) | exact one_83].
Qed.
Lemma prod_aux : forall (T : fld), fld_laws T -> forall x y : T, y = f1 -> @Ok T (fmul x (fmul y f1)) = Ok f1 -> x = f1.
Proof.
  intros T HT x y -> E. assert (E2 : fmul x (fmul f1 f1) = (f1 : T)) by congruence. rewrite <- E2.
  pose proof (fl_field T HT) as FT. destruct FT as [[] _ _ _]. rewrite Rmul_1_l, Rmul_comm, Rmul_1_l. reflexivity.
Qed.
(** a product with an identity among the inputs loses the other factors *)
Lemma prod_refuted : exists (K : fld) q r h e2 e1 s1 s0 in1 in2, type_a K q r h e2 e1 s1 s0 /\ Forall (torsion K f1 f0 r) in1 /\ Forall (on_curve K f1 f0) in2 /\
  length in1 = length in2 /\ forall j m,
  element_prod_pairing (a_pairing K (Ok j) (a_info_of h e2 e1 s1) m) in1 in2 (length in1) <>
    Ok (gprod (map (fun pq => type_a_value K q r (fst pq) (snd pq)) (combine in1 in2))).
Proof.
  exists F83, 83, 7, 12, 3, 1, (-1), 1, [P83; P83], [Q83; None]. split; [exact type_a_83 | ].
  split; [auto using P83_G1 | ]. split; [repeat constructor; apply Q83_on | ]. split; [reflexivity | ]. intros j m E.
  assert (I := prod_identity F83 12 3 1 (-1) j m [P83; P83] [Q83; None] 1 P83 None eq_refl eq_refl eq_refl (or_intror eq_refl)).
  assert (E2 : @Ok (Fq2 F83) (gprod (map (fun pq => type_a_value F83 83 7 (fst pq) (snd pq)) (combine [P83; P83] [Q83; None]))) = Ok f1) by (transitivity (element_prod_pairing (a_pairing F83 (Ok j) (a_info_of 12 3 1 (-1)) m) [P83; P83] [Q83; None] 2); [symmetry; exact E | exact I]).
  apply value_not_1. refine (prod_aux _ (Quad_laws F83 (ta_field _ _ _ _ _ _ _ _ type_a_83) (fopp f1) (vns F83 (ta_field _ _ _ _ _ _ _ _ type_a_83) 83 (ta_q _ _ _ _ _ _ _ _ type_a_83) eq_refl (ta_order _ _ _ _ _ _ _ _ type_a_83))) _ _ (value_0r F83 83 7 12 3 1 (-1) 1 type_a_83 P83) E2).
Qed.
Lemma prod_empty : forall j m, element_prod_pairing (a_pairing F83 (Ok j) info83 m) [] [] 0 = UB.
Proof. intros j []; reflexivity. Qed.
(** mul_si and halve in GT do nothing *)
Lemma gt_refuted : exists (T : fld) (a : T) r, fld_laws T /\ 0 < r /\ fpow a r = f1 /\ gt_mul_si T a 2 <> gt_double T a /\ gt_halve T (gt_double T a) <> Ok a.
Proof.
  assert (P7 : prime 83) by exact (ta_q _ _ _ _ _ _ _ _ type_a_83).
  exists F83, (c83 82), 2. split; [apply (ta_field _ _ _ _ _ _ _ _ type_a_83) | ]. split; [lia | ]. split; [apply zval_inj; vm_compute; reflexivity | ].
  split; [intro E; apply (f_equal (zval 83)) in E; vm_compute in E; discriminate | ].
  intro E. assert (E2 : match gt_halve F83 (gt_double F83 (c83 82)) with Ok u => zval 83 u = 82 | _ => False end) by (rewrite E; vm_compute; reflexivity).
  vm_compute in E2. discriminate.
Qed.
