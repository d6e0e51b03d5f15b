(** Type A parameters with r dividing h: q = 587, r = 7, h = 84.  Every
    pairing of two elements of the subgroup is 1. *)
From Coq Require Import ZArith Znumtheory List Bool Lia.
From Verif.Base Require Import Outcome Algebra.
From Verif.Spec Require Import FiniteField Quadratic Curve PairingValue.
From Verif.Model Require Import Pairing PairingA.
From Verif.Proofs Require Import FieldFacts QuadFacts ZpField RootWitness MntMain PairingAFacts PairingAApi BilinearZ PairingA1Facts PerfectA PairingAWitness PairingA1Witness.
Import ListNotations.
Open Scope Z_scope.
Lemma lt587 : 1 < 587. Proof. reflexivity. Qed.
Notation F587 := (Zp 587 lt587).
Definition c587 (n : Z) : F587 := zmk 587 lt587 n.
Lemma type_a_587 : type_a F587 587 7 84 3 1 (-1) 1.
Proof.
  assert (P587 : prime 587) by (apply isprime_spec; vm_compute; reflexivity).
  split; try reflexivity; try lia; auto.
  - apply Zp_laws. exact P587.
  - apply (Zp_instance 587 lt587). exact P587.
  - apply isprime_spec. vm_compute. reflexivity.
Qed.
Definition S587 : point F587 := Some (c587 3, c587 183).
Definition P587 : point F587 := Some (c587 121, c587 65).
Lemma S587_on : on_curve F587 f1 f0 S587. Proof. apply zval_inj. vm_compute. reflexivity. Qed.
Definition show587 (P : point F587) : option (Z * Z) := match P with Some (x, y) => Some (zval 587 x, zval 587 y) | None => None end.
Lemma show_inj587 : forall P Q, show587 P = show587 Q -> P = Q.
Proof. intros [[x y] | ] [[x' y'] | ] E; cbn in E; try discriminate; auto. injection E as E1 E2. f_equal. f_equal; apply zval_inj; auto. Qed.
Lemma P587_mul : P587 = pzmul F587 f1 84 S587. Proof. apply show_inj587. vm_compute. reflexivity. Qed.
Lemma P587_G1 : torsion F587 f1 f0 7 P587.
Proof. split; [apply zval_inj; vm_compute; reflexivity | apply show_inj587; vm_compute; reflexivity]. Qed.
Theorem degenerate_w : exists (K : fld) q r h e2 e1 s1 s0 (P : point K), type_a K q r h e2 e1 s1 s0 /\ torsion K f1 f0 r P /\ P <> None /\
  forall j m Q, torsion K f1 f0 r Q -> pairing_apply (a_pairing K (Ok j) (a_info_of h e2 e1 s1) m) Q P = Ok f1.
Proof.
  exists F587, 587, 7, 84, 3, 1, (-1), 1, P587. split; [exact type_a_587 | ]. split; [exact P587_G1 | ]. split; [discriminate | ].
  intros j m Q HQ. rewrite (apply_value F587 587 7 84 3 1 (-1) 1 type_a_587 j m Q P587 HQ (proj1 P587_G1)).
  rewrite P587_mul, (val_mul2 F587 587 7 84 3 1 (-1) 1 type_a_587) by (auto; exact S587_on). reflexivity.
Qed.
(** the small instance with 7 not dividing 12 *)
Lemma not_div_83 : ~ (7 | 12). Proof. intros [c C]. lia. Qed.
Lemma self_83 : type_a_value F83 83 7 P83 P83 <> f1.
Proof. apply (a_perfect F83 83 7 12 3 1 (-1) 1 type_a_83 not_div_83); auto using P83_G1; discriminate. Qed.
Lemma P83_nz : P83 <> None. Proof. unfold P83. congruence. Qed.
Lemma P59_nz : PairingA1Witness.P59 <> None. Proof. unfold PairingA1Witness.P59. congruence. Qed.
