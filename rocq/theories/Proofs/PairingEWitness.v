(** A small type E instance, q = 29, r = 7, and preprocessing through a pointer. *)
From Coq Require Import ZArith Znumtheory List Bool Lia.
From Verif.Base Require Import Outcome Algebra Gmp.
From Verif.Spec Require Import FiniteField Curve PairingValue PairingValueE.
From Verif.Model Require Import Pairing PairingA PairingE DefaultPP.
From Verif.Proofs Require Import FieldFacts ZpField RootWitness MntMain PairingDWitness PairingEApi.
From Verif.Model Require Import Pairing.
Import ListNotations.
Open Scope Z_scope.

Section P.
Variable p : pairing.
Lemma assigns_other : forall l h a, Forall (fun ax => fst ax <> a) l -> assigns p h l a = h a.
Proof.
  unfold assigns. induction l as [ | [b x] l IH]; intros h a F; cbn [fold_left]; auto. rewrite IH by (apply Forall_inv_tail in F; auto).
  unfold assign. apply Forall_inv in F. cbn [fst] in *. destruct (Nat.eqb_spec a b); congruence.
Qed.
Lemma table_snapshot : forall h a P o, h a = Some P -> table_pp_init p h a = Ok o ->
  forall l Q, object_pp_apply p (assigns p h l) Q o = (pp <- pairing_pp_init p P ;; pairing_pp_apply p Q pp).
Proof.
  intros h a P o E H l Q. unfold table_pp_init, load in H. rewrite E in H. cbn [bind] in H. unfold pairing_pp_init.
  destruct (is0_1 p P); [injection H as <-; reflexivity | ]. destruct (pp_init_ p P); cbn [bind] in *; try discriminate. injection H as <-. reflexivity.
Qed.
Lemma pointer_unchanged : forall h a P o, h a = Some P -> default_pp_init p h a = Ok o -> (forall Q, is0_1 p P = true -> pairing_apply p P Q = Ok f1) ->
  forall l Q, Forall (fun ax => fst ax <> a) l -> object_pp_apply p (assigns p h l) Q o = pairing_apply p P Q.
Proof.
  intros h a P o E H Z l Q F. unfold default_pp_init, load in H. rewrite E in H. cbn [bind] in H. unfold pairing_apply.
  destruct (is0_1 p P); injection H as <-; cbn [object_pp_apply]; auto. destruct (is0_2 p Q); auto. unfold load. rewrite assigns_other, E by auto. reflexivity.
Qed.
Lemma pointer_same : forall h a P o, h a = Some P -> default_pp_init p h a = Ok o ->
  forall l Q, Forall (fun ax => fst ax <> a) l -> object_pp_apply p (assigns p h l) Q o = pairing_apply p P Q.
Proof. intros h a P o E H l Q F. apply (pointer_unchanged h a P o E H); auto. intros Q' Z. unfold pairing_apply. rewrite Z. reflexivity. Qed.
End P.

Lemma lt29 : 1 < 29. Proof. reflexivity. Qed.
Notation F29 := (Zp 29 lt29).
Lemma P29 : prime 29. Proof. apply isprime_spec. vm_compute. reflexivity. Qed.
Definition e29 (n : Z) : F29 := zmk 29 lt29 n.
Lemma type_e_29 : type_e F29 (e29 1) (e29 7) 29 7 2 1 1 1.
Proof.
  split; try reflexivity; try lia.
  - exact P29. - exact (Zp_laws 29 lt29 P29). - apply (Zp_instance 29 lt29 P29). - ell. - apply isprime_spec. vm_compute. reflexivity.
  - exists 4. reflexivity.
Qed.
Definition PP29 : point F29 := Some (e29 0, e29 6).
Definition RR29 : point F29 := Some (e29 1, e29 3).
Lemma t29 : torsion F29 (e29 1) (e29 7) 7 PP29. Proof. split; [apply zval_inj; vm_compute; reflexivity | vm_compute; reflexivity]. Qed.
Lemma nn : forall K (P : point K), is_inf K P = false -> P <> None. Proof. intros K [p | ] H; discriminate. Qed.
Lemma s29 : e_shift F29 (e29 1) (e29 7) 7 RR29. Proof. split; [apply zval_inj; vm_compute; reflexivity | apply nn; vm_compute; reflexivity]. Qed.
Lemma k29 : forall k, 0 < k < 5 -> pzmul F29 (e29 1) (k * 7) RR29 <> None.
Proof. intros k H. apply nn. assert (E : k = 1 \/ k = 2 \/ k = 3 \/ k = 4) by lia. destruct E as [-> | [-> | [-> | ->]]]; vm_compute; reflexivity. Qed.
Definition E29 m := e_pairing_rec F29 (e29 1) {| ee2 := 2; ee1 := 1; es1 := 1; es0 := 1 |} 29 7 RR29 m.
Definition showz (x : res F29) : option Z := match x with Ok a => Some (zval 29 a) | _ => None end.
Definition val29 := e_value F29 (e29 1) 29 7 RR29 PP29 PP29.
Lemma ap29 : showz (pairing_apply (E29 PairingA.Miller) PP29 PP29) = Some 7. Proof. vm_compute. reflexivity. Qed.
Lemma val29_show : showz (Ok val29) = Some 7.
Proof. etransitivity; [ | exact ap29]. symmetry. refine (f_equal showz _). exact (e_apply F29 (e29 1) (e29 7) 29 7 2 1 1 1 type_e_29 RR29 s29 PairingA.Miller PP29 PP29 t29 t29). Qed.
Lemma val29_not_1 : val29 <> f1.
Proof. intro E. pose proof val29_show as A. rewrite E in A. discriminate A. Qed.
(** element_double(in1, in1) between pairing_pp_init and pairing_pp_apply *)
Definition PD29 : point F29 := pzmul F29 (e29 1) 2 PP29.
Definition h29 : memory (E29 PairingA.Miller) := fun a => if Nat.eqb a 0 then Some PP29 else None.
Lemma pd29 : showz (object_pp_apply (E29 PairingA.Miller) (assigns (E29 PairingA.Miller) h29 [(0%nat, Some PD29)]) PP29 (Pointer (E29 PairingA.Miller) 0)) = Some 20. Proof. vm_compute. reflexivity. Qed.
Lemma pointer_refuted : exists (K : fld) a b q r e2 e1 s1 s0 R P Q h l o,
  type_e K a b q r e2 e1 s1 s0 /\ e_shift K a b r R /\ torsion K a b r P /\ torsion K a b r Q /\
  let E := e_pairing_rec K a {| ee2 := e2; ee1 := e1; es1 := s1; es0 := s0 |} q r R PairingA.Miller in
  h 0%nat = Some P /\ default_pp_init E h 0 = Ok o /\ object_pp_apply E (assigns E h l) Q o <> pairing_apply E P Q.
Proof.
  exists F29, (e29 1), (e29 7), 29, 7, 2, 1, 1, 1, RR29, PP29, PP29, h29, [(0%nat, Some PD29)], (Pointer (E29 PairingA.Miller) 0).
  split; [exact type_e_29 | ]. split; [exact s29 | ]. split; [exact t29 | ]. split; [exact t29 | ]. split; [reflexivity | ]. split; [reflexivity | ].
  intro E. apply (f_equal showz) in E. assert (A : Some 20 = Some 7) by (etransitivity; [symmetry; exact pd29 | etransitivity; [exact E | exact ap29]]). discriminate A.
Qed.
(** element_clear(in1) *)
Lemma dangling : forall p h a P o Q, h a = Some P -> is0_1 p P = false -> default_pp_init p h a = Ok o -> is0_2 p Q = false ->
  object_pp_apply p (assigns p h [(a, None)]) Q o = UB.
Proof.
  intros p h a P o Q E N H NQ. unfold default_pp_init, load in H. rewrite E in H. cbn [bind] in H. rewrite N in H. injection H as <-.
  cbn [object_pp_apply]. rewrite NQ. unfold load, assigns. cbn [fold_left fst snd]. unfold assign. rewrite Nat.eqb_refl. reflexivity.
Qed.
