(** A type E instance whose r-torsion is not cyclic: q = 113, r = 7. *)
From Coq Require Import ZArith Znumtheory List Bool Lia.
From Verif.Base Require Import Outcome Algebra Gmp.
From Verif.Spec Require Import FiniteField Curve PairingValue PairingValueE.
From Verif.Model Require Import Curve Pairing PairingA EllNet.
From Verif.Proofs Require Import FieldFacts ZpField RootWitness MntMain PairingDWitness CurveFacts PairingEApi NetE NetFacts.
From Verif.Model Require Import Pairing.
Import ListNotations.
Open Scope Z_scope.
Lemma lt113 : 1 < 113. Proof. reflexivity. Qed.
Notation F113 := (Zp 113 lt113).
Lemma P113 : prime 113. Proof. apply isprime_spec. vm_compute. reflexivity. Qed.
Definition e113 (n : Z) : F113 := zmk 113 lt113 n.
Lemma type_e_113 : type_e F113 (e113 5) (e113 0) 113 7 2 1 1 1.
Proof.
  split; try reflexivity; try lia.
  - exact P113. - exact (Zp_laws 113 lt113 P113). - apply (Zp_instance 113 lt113 P113). - ell. - apply isprime_spec. vm_compute. reflexivity.
  - exists 16. reflexivity.
Qed.
Definition PP113 : point F113 := Some (e113 2, e113 40).
Definition QQ113 : point F113 := Some (e113 8, e113 10).
Definition RR113 : point F113 := Some (e113 0, e113 0).
Lemma tP113 : torsion F113 (e113 5) (e113 0) 7 PP113. Proof. split; [apply zval_inj; vm_compute; reflexivity | vm_compute; reflexivity]. Qed.
Lemma tQ113 : torsion F113 (e113 5) (e113 0) 7 QQ113. Proof. split; [apply zval_inj; vm_compute; reflexivity | vm_compute; reflexivity]. Qed.
Lemma nn113 : forall K (P : point K), is_inf K P = false -> P <> None. Proof. intros K [p | ] H; discriminate. Qed.
Lemma s113 : e_shift F113 (e113 5) (e113 0) 7 RR113. Proof. split; [apply zval_inj; vm_compute; reflexivity | apply nn113; vm_compute; reflexivity]. Qed.
Lemma on113 : on_curve F113 (e113 5) (e113 0) PP113. Proof. exact (proj1 tP113). Qed.
Definition xof (P : point F113) : option Z := match P with None => None | Some (x, _) => Some (zval 113 x) end.
Lemma a113 : apart F113 (e113 5) PP113 QQ113.
Proof.
  intros j E. pose proof (te_field _ _ _ _ _ _ _ _ _ type_e_113) as HK. pose proof (te_curve _ _ _ _ _ _ _ _ _ type_e_113) as HE.
  assert (TOR : pmul F113 (e113 5) 7 PP113 = None) by (vm_compute; reflexivity).
  rewrite (Nat.div_mod j 7) in E by lia. rewrite Nat.mul_comm in E.
  assert (F : pmul F113 (e113 5) (j mod 7) PP113 = QQ113).
  { transitivity (pmul F113 (e113 5) (j / 7 * 7 + j mod 7) PP113); [ | exact E].
    transitivity (padd F113 (e113 5) (pmul F113 (e113 5) (j / 7 * 7) PP113) (pmul F113 (e113 5) (j mod 7) PP113)); [ | symmetry; exact (T_plus F113 HK (e113 5) (e113 0) HE _ _ on113 (j / 7 * 7) (j mod 7))].
    pose proof (T_cycle F113 HK (e113 5) (e113 0) HE _ _ on113 7 TOR (j / 7)) as C. change (Some (e113 2, e113 40)) with PP113 in C. rewrite C. reflexivity. }
  apply (f_equal xof) in F. assert (B := Nat.mod_upper_bound j 7 ltac:(lia)).
  destruct (j mod 7)%nat as [ | [ | [ | [ | [ | [ | [ | w]]]]]]]; try lia; vm_compute in F; discriminate F.
Qed.
Definition show113 (x : res F113) : option Z := match x with Ok a => Some (zval 113 a) | _ => None end.
Lemma v113 : show113 (pairing_apply (e_pairing_net F113 (e113 5) (e113 0) 113 7) PP113 QQ113) <> Some 1. Proof. vm_compute. discriminate. Qed.
Lemma val113_not_1 : e_value F113 (e113 5) 113 7 RR113 PP113 QQ113 <> f1.
Proof.
  intro E. assert (A := e_net_apply F113 (e113 5) (e113 0) 113 7 2 1 1 1 type_e_113 RR113 s113 PP113 QQ113 tP113 tQ113 (or_intror (or_intror a113))). rewrite E in A.
  apply v113. etransitivity; [exact (f_equal show113 A) | vm_compute; reflexivity].
Qed.
