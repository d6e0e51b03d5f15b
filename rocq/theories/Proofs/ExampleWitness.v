(** The example programs over the type A curve of order 84 over F_83. *)
From Coq Require Import ZArith Znumtheory List Bool Lia.
From Verif.Base Require Import Outcome Gmp Algebra Slots.
From Verif.Spec Require Import FiniteField Quadratic Curve Tate PairingValue HashToCurve.
From Verif.Model Require Import GenericPow Curve CurveCodec GT Pairing PairingA Examples.
From Verif.Proofs Require Import FieldFacts ZpField FpWitness RootFacts CurveFacts CodecFacts PairingAApi PairingAWitness ExampleMain.
Import ListNotations.
Local Open Scope Z_scope.

Definition enc83 (x : F83) : list Z := [zval 83 x].
Definition dec83 (l : list Z) : F83 := match l with z :: _ => c83 z | [] => c83 0 end.
Definition sign83 (x : F83) : Z := if zval 83 x =? 0 then 0 else if 2 * zval 83 x <? 83 then 1 else -1.
Definition sqrt83 (x : F83) : res F83 := Ok (fpow x 21).
Definition is_sqr83 (x : F83) : bool := existsb (fun y => feqb (fmul y y) x) (zp_elems 83 lt83).
Definition bls83 m st0 g x h rs := bls F83 F83 (Fq2 F83) f1 f0 f1 1 enc83 dec83 sign83 sqrt83 (pairing_apply (a_pairing F83 (Ok f0) info83 m)) st0 g x h rs.
Definition st83 : cst F83 := {| sl := fun _ => f0; inf := fun _ => true |}.
Definition st83' : cst F83 := {| sl := fun l => match snd l with O => c83 69 | _ => c83 8 end; inf := fun _ => false |}.
Lemma L83 : fld_laws F83. Proof. exact (ta_field _ _ _ _ _ _ _ _ type_a_83). Qed.
Lemma code83 : is_code F83 1 enc83 dec83.
Proof. split; [reflexivity | ]. intro x. apply zmk_zval. Qed.
Lemma sign83_ok : is_sign F83 sign83.
Proof.
  assert (A : forall x : F83, sign83 (fopp x) = (- sign83 x)%Z /\ (sign83 x = 0 -> zval 83 x = 0)).
  { assert (B : forallb (fun x : F83 => (sign83 (fopp x) =? - sign83 x)%Z && implb (sign83 x =? 0) (zval 83 x =? 0)) (zp_elems 83 lt83) = true) by (vm_compute; reflexivity).
    intro x. assert (I := zp_elems_in 83 lt83 x). rewrite forallb_forall in B. specialize (B x I). apply andb_true_iff in B. destruct B as [B1 B2].
    split; [apply Z.eqb_eq; exact B1 | ]. intro H. rewrite H in B2. cbn [Z.eqb implb] in B2. apply Z.eqb_eq. exact B2. }
  split; intro x; [apply A | ]. intro H. apply zval_inj. apply A in H. rewrite H. reflexivity.
Qed.
Lemma roots83 : good_roots F83 is_sqr83 sqrt83.
Proof.
  assert (A : forall x : F83, is_sqr83 x = true <-> is_square x).
  { intro x. unfold is_sqr83. rewrite existsb_exists. split.
    - intros (y & _ & E). apply (fl_eqb F83 L83) in E. exists y. auto.
    - intros [y E]. exists y. split; [apply zp_elems_in | ]. apply (fl_eqb F83 L83). auto. }
  split; auto. intros x H. apply A in H. revert H. assert (I := zp_elems_in 83 lt83 x). revert x I.
  assert (B : forallb (fun x : F83 => implb (is_sqr83 x) (match sqrt83 x with Ok r => feqb (fmul r r) x | _ => false end)) (zp_elems 83 lt83) = true) by (vm_compute; reflexivity).
  intros x I H. rewrite forallb_forall in B. specialize (B x I). rewrite H in B. cbn [implb] in B.
  destruct (sqrt83 x) as [r | | | ]; try discriminate. exists r. split; auto. apply (fl_eqb F83 L83). auto.
Qed.
Lemma show3 : pzmul F83 f1 3 P83 <> None.
Proof. intro E. assert (A : match pzmul F83 f1 3 P83 with None => False | Some _ => True end) by (vm_compute; exact I). rewrite E in A. exact A. Qed.
(** an honest run with key 3, and with the random signature not accepted *)
Lemma run83 : bls83 Miller st83 Q83 3 P83 P83 = Ok (true, true, false). Proof. vm_compute. reflexivity. Qed.
(** with the secret key 0 the signature is O, which the encodings lose: the
    verification of the signature read back divides by zero when [sig] is
    fresh, and fails when it has held another point *)
Lemma zero_key_w : exists (K : fld) q r h e2 e1 s1 s0 (g hh rs : point K) blen enc dec sign is_sqr sqrt (fresh used : cst K),
  type_a K q r h e2 e1 s1 s0 /\ torsion K f1 f0 r hh /\ on_curve K f1 f0 g /\ torsion K f1 f0 r rs /\
  is_code K blen enc dec /\ is_sign K sign /\ good_roots K is_sqr sqrt /\
  (forall o, cval fresh o = None) /\ (forall l, sl fresh l = f0) /\
  let run st := bls K K (Quad K (fopp f1)) f1 f0 f1 blen enc dec sign sqrt (pairing_apply (a_pairing K (Ok f0) (a_info_of h e2 e1 s1) Miller)) st g 0 hh rs in
  run fresh = UB /\ exists v, run used = Ok (false, false, v).
Proof.
  exists F83, 83, 7, 12, 3, 1, (-1), 1, Q83, P83, P83, 1%nat, enc83, dec83, sign83, is_sqr83, sqrt83, st83, st83'.
  split; [exact type_a_83 | ]. split; [exact P83_G1 | ]. split; [exact Q83_on | ]. split; [exact P83_G1 | ]. split; [exact code83 | ]. split; [exact sign83_ok | ].
  split; [exact roots83 | ]. split; [reflexivity | ]. split; [reflexivity | ]. split; [vm_compute; reflexivity | ].
  exists false. vm_compute. reflexivity.
Qed.
(** paterson.c inverts a random k and zss.c inverts H(m) + x *)
Lemma invert_zero_w : exists (K : fld) q r h e2 e1 s1 s0 (P Q : point K),
  type_a K q r h e2 e1 s1 s0 /\ torsion K f1 f0 r P /\ torsion K f1 f0 r Q /\ P <> None /\ 
  let pr := pairing_apply (a_pairing K (Ok f0) (a_info_of h e2 e1 s1) Miller) in
  paterson K (Quad K (fopp f1)) f1 r pr P Q 1 0 1 (fun _ => 1) = UB /\ zss K (Quad K (fopp f1)) f1 r pr P 1 (r - 1) = UB.
Proof.
  exists F83, 83, 7, 12, 3, 1, (-1), 1, P83, P83. split; [exact type_a_83 | ]. split; [exact P83_G1 | ]. split; [exact P83_G1 | ]. split; [discriminate | ].
  split; vm_compute; reflexivity.
Qed.
