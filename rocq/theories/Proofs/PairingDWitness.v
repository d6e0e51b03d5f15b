(** Small type D and G instances: q = 17, r = 13; q = 5, r = 7; q = 7, r = 11. *)
From Coq Require Import ZArith Znumtheory List Bool Lia String.
From Verif.Base Require Import Outcome Algebra Gmp.
From Verif.Spec Require Import FiniteField Quadratic Polynomials Extension Curve PairingValue PairingValueD.
From Verif.Model Require Import Lucas Pairing PairingA PairingD PairingOptions.
From Verif.Proofs Require Import FieldFacts QuadFacts ZpField RootWitness MntMain PolyRoots PolyQuintic ExtFacts PairingDFacts PairingDApi OptionFacts.
From Verif.Model Require Import Pairing.
Import ListNotations.
Open Scope Z_scope.

Section Any.
Variable p : Z.
Hypothesis Hp : 1 < p.
Local Notation F := (Zp p Hp).
Definition cs (l : list Z) : list F := map (zmk p Hp) l.
Hypothesis Pp : prime p.
Lemma no_roots : forall m : list F, forallb (fun x => negb (feqb (peval F m x) f0)) (zp_elems p Hp) = true -> forall x, peval F m x <> f0.
Proof.
  intros m H x E. rewrite forallb_forall in H. specialize (H x (zp_elems_in p Hp x)). rewrite E in H. rewrite (feqb_refl F (Zp_laws p Hp Pp)) in H. discriminate.
Qed.
Lemma no_quadratic : forall m : list F, forallb (fun x => forallb (fun y => negb (feqb (fst (qev F x y m)) f0 && feqb (snd (qev F x y m)) f0)) (zp_elems p Hp)) (zp_elems p Hp) = true ->
  forall x y, qev F x y m <> (f0, f0).
Proof.
  intros m H x y E. rewrite forallb_forall in H. specialize (H x (zp_elems_in p Hp x)). rewrite forallb_forall in H. specialize (H y (zp_elems_in p Hp y)). rewrite E in H. cbn [fst snd] in H.
  rewrite (feqb_refl F (Zp_laws p Hp Pp)) in H. discriminate.
Qed.
Lemma non_square : forall c : F, forallb (fun x => negb (feqb (fmul x x) c)) (zp_elems p Hp) = true -> ~ is_square c.
Proof.
  intros c H (x & E). rewrite forallb_forall in H. specialize (H x (zp_elems_in p Hp x)). rewrite E in H. rewrite (feqb_refl F (Zp_laws p Hp Pp)) in H. discriminate.
Qed.
End Any.

Lemma lt17 : 1 < 17. Proof. reflexivity. Qed.
Lemma lt5 : 1 < 5. Proof. reflexivity. Qed.
Lemma lt7 : 1 < 7. Proof. reflexivity. Qed.
Notation F17 := (Zp 17 lt17). Notation F5 := (Zp 5 lt5). Notation F7 := (Zp 7 lt7).
Lemma P17 : prime 17. Proof. apply isprime_spec. vm_compute. reflexivity. Qed.
Lemma P5 : prime 5. Proof. apply isprime_spec. vm_compute. reflexivity. Qed.
Lemma P7 : prime 7. Proof. apply isprime_spec. vm_compute. reflexivity. Qed.
Definition m17 : list F17 := cs 17 lt17 [1; 0; 3; 1].
Definition m5 : list F5 := cs 5 lt5 [1; 0; 1; 1].
Definition m7 : list F7 := cs 7 lt7 [1; 0; 0; 0; 3; 1].
Definition e17 (n : Z) : F17 := zmk 17 lt17 n.
Definition e5 (n : Z) : F5 := zmk 5 lt5 n.
Definition e7 (n : Z) : F7 := zmk 7 lt7 n.
Lemma irr17 : irreducible m17.
Proof. apply (no_roots_irreducible F17 (Zp_laws 17 lt17 P17)); [intros _ E; discriminate E | right; reflexivity | apply (no_roots 17 lt17 P17); vm_compute; reflexivity]. Qed.
Lemma irr5 : irreducible m5.
Proof. apply (no_roots_irreducible F5 (Zp_laws 5 lt5 P5)); [intros _ E; discriminate E | right; reflexivity | apply (no_roots 5 lt5 P5); vm_compute; reflexivity]. Qed.
Lemma irr7 : irreducible m7.
Proof. apply (quintic_irreducible F7 (Zp_laws 7 lt7 P7)); [intros _ E; discriminate E | reflexivity | apply (no_roots 7 lt7 P7); vm_compute; reflexivity | apply (no_quadratic 7 lt7 P7); vm_compute; reflexivity]. Qed.
Lemma zneq : forall p Hp (x y : Zp p Hp), zval p x <> zval p y -> x <> y. Proof. congruence. Qed.
Ltac ell := split; apply zneq; vm_compute; discriminate.
Lemma type_d_17 : type_d F17 3 m17 (e17 3) (e17 6) (e17 8) 17 13.
Proof.
  split; [split; try reflexivity; try lia | ].
  - exact P17. - exact (Zp_laws 17 lt17 P17). - apply (Zp_instance 17 lt17 P17). - split; reflexivity. - exact irr17.
  - apply (non_square 17 lt17 P17). vm_compute. reflexivity. - ell. - apply isprime_spec. vm_compute. reflexivity.
  - exists 378. reflexivity.
  - intros _. exists 21. reflexivity.
Qed.
Lemma type_d_5 : type_d F5 3 m5 (e5 2) (e5 2) (e5 1) 5 7.
Proof.
  split; [split; try reflexivity; try lia | ].
  - exact P5. - exact (Zp_laws 5 lt5 P5). - apply (Zp_instance 5 lt5 P5). - split; reflexivity. - exact irr5.
  - apply (non_square 5 lt5 P5). vm_compute. reflexivity. - ell. - apply isprime_spec. vm_compute. reflexivity.
  - exists 18. reflexivity.
  - intros _. exists 3. reflexivity.
Qed.
Lemma type_g_7 : type_g F7 m7 (e7 3) (e7 1) (e7 6) 7 11.
Proof.
  split; [split; try reflexivity; try lia | ].
  - exact P7. - exact (Zp_laws 7 lt7 P7). - apply (Zp_instance 7 lt7 P7). - split; reflexivity. - exact irr7.
  - apply (non_square 7 lt7 P7). vm_compute. reflexivity. - ell. - apply isprime_spec. vm_compute. reflexivity.
  - exists 1528. reflexivity.
  - exists 191. reflexivity.
Qed.
Definition v17 (l : list Z) : Ext F17 3 m17 := mkvec 3 (fun i => e17 (nth i l 0)).
Definition v5 (l : list Z) : Ext F5 3 m5 := mkvec 3 (fun i => e5 (nth i l 0)).
Definition v7 (l : list Z) : Ext F7 5 m7 := mkvec 5 (fun i => e7 (nth i l 0)).
Definition PP17 : point F17 := Some (e17 0, e17 5).
Definition QQ17 : point (Ext F17 3 m17) := Some (v17 [4; 2; 8], v17 [13; 4; 15]).
Definition PP5 : point F5 := Some (e5 0, e5 1).
Definition QQ5 : point (Ext F5 3 m5) := Some (v5 [1; 4; 0], v5 [0; 1; 4]).
Definition PP7 : point F7 := Some (e7 1, e7 1).
Definition QQ7 : point (Ext F7 5 m7) := Some (v7 [0; 2; 0; 3; 6], v7 [2; 2; 4; 4; 3]).
Lemma t17 : torsion F17 (e17 6) (e17 8) 13 PP17. Proof. split; [apply zval_inj; vm_compute; reflexivity | vm_compute; reflexivity]. Qed.
Lemma t5 : torsion F5 (e5 2) (e5 1) 7 PP5. Proof. split; [apply zval_inj; vm_compute; reflexivity | vm_compute; reflexivity]. Qed.
Lemma t7 : torsion F7 (e7 1) (e7 6) 11 PP7. Proof. split; [apply zval_inj; vm_compute; reflexivity | vm_compute; reflexivity]. Qed.
Definition l17 := Ext_laws F17 (Zp_laws 17 lt17 P17) 3 m17 (dg_monic _ _ _ _ _ _ _ _ (proj1 type_d_17)) ltac:(lia) irr17.
Definition l5 := Ext_laws F5 (Zp_laws 5 lt5 P5) 3 m5 (dg_monic _ _ _ _ _ _ _ _ (proj1 type_d_5)) ltac:(lia) irr5.
Definition l7 := Ext_laws F7 (Zp_laws 7 lt7 P7) 5 m7 (dg_monic _ _ _ _ _ _ _ _ (proj1 type_g_7)) ltac:(lia) irr7.
Lemma o17 : on_twist F17 3 m17 (e17 3) (e17 6) (e17 8) QQ17. Proof. apply (fl_eqb _ l17). vm_compute. reflexivity. Qed.
Lemma o5 : on_twist F5 3 m5 (e5 2) (e5 2) (e5 1) QQ5. Proof. apply (fl_eqb _ l5). vm_compute. reflexivity. Qed.
Lemma o7 : on_twist F7 5 m7 (e7 3) (e7 1) (e7 6) QQ7. Proof. apply (fl_eqb _ l7). vm_compute. reflexivity. Qed.
Definition show {p n Hp m v} (x : res (Quad (Ext (Zp p Hp) n m) v)) : option (list Z * list Z) :=
  match x with Ok (a, b) => Some (map (zval p) (proj1_sig a), map (zval p) (proj1_sig b)) | _ => None end.
Definition D17 m := d_pairing F17 3 m17 (const F17 3 m17 (e17 3)) (e17 6) 13 6 17 m.
Definition D5 m := d_pairing F5 3 m5 (const F5 3 m5 (e5 2)) (e5 2) 7 6 5 m.
Definition G7 m := g_pairing F7 5 m7 (const F7 5 m7 (e7 3)) (e7 1) 11 7 m.
Lemma show_1 : forall p n Hp m v, (n = 3 \/ n = 5)%nat -> p = 17 \/ p = 5 \/ p = 7 -> @show p n Hp m v (Ok f1) = Some (map (fun i => if Nat.eqb i 0 then 1 else 0) (seq 0 n), repeat 0 n).
Proof. intros p n Hp m v [-> | ->] [-> | [-> | ->]]; reflexivity. Qed.
Definition val17 := dg_value F17 3 m17 (e17 3) (e17 6) 17 13 PP17 QQ17.
Definition val5 := dg_value F5 3 m5 (e5 2) (e5 2) 5 7 PP5 QQ5.
Definition val7 := dg_value F7 5 m7 (e7 3) (e7 1) 7 11 PP7 QQ7.
Lemma ap17 : show (pairing_apply (D17 MillerAffine) PP17 QQ17) = Some ([14; 1; 2], [7; 13; 15]). Proof. vm_compute. reflexivity. Qed.
Lemma pr17 : show (pairing_apply (D17 PairingA.Miller) PP17 QQ17) = Some ([1; 0; 0], [0; 0; 0]). Proof. vm_compute. reflexivity. Qed.
Lemma ap7 : show (pairing_apply (G7 MillerAffine) PP7 QQ7) = Some ([1; 3; 1; 1; 1], [3; 3; 5; 2; 0]). Proof. vm_compute. reflexivity. Qed.
Lemma pr7 : show (pairing_apply (G7 PairingA.Miller) PP7 QQ7) = Some ([0; 0; 3; 0; 1], [6; 1; 2; 4; 6]). Proof. vm_compute. reflexivity. Qed.
Lemma val17_show : show (Ok val17) = Some ([14; 1; 2], [7; 13; 15]).
Proof. etransitivity; [ | exact ap17]. symmetry. refine (f_equal show _). exact (d_apply F17 3 m17 (e17 3) (e17 6) (e17 8) 17 13 type_d_17 PP17 QQ17 t17 o17). Qed.
Lemma val17_not_1 : val17 <> f1.
Proof. intro E. pose proof val17_show as A. rewrite E in A. rewrite show_1 in A; auto. discriminate A. Qed.
Lemma type_d_7 : type_d F7 5 m7 (e7 3) (e7 1) (e7 6) 7 11. Proof. split; [exact (proj1 type_g_7) | discriminate]. Qed.
Definition D7 := d_pairing F7 5 m7 (const F7 5 m7 (e7 3)) (e7 1) 11 10 7 MillerAffine.
Lemma apd7 : show (pairing_apply D7 PP7 QQ7) = Some ([1; 3; 1; 1; 1], [3; 3; 5; 2; 0]). Proof. vm_compute. reflexivity. Qed.
Lemma val7_show : show (Ok val7) = Some ([1; 3; 1; 1; 1], [3; 3; 5; 2; 0]).
Proof. etransitivity; [ | exact apd7]. symmetry. refine (f_equal show _). exact (d_apply F7 5 m7 (e7 3) (e7 1) (e7 6) 7 11 type_d_7 PP7 QQ7 t7 o7). Qed.
Lemma val7_not_1 : val7 <> f1.
Proof. intro E. pose proof val7_show as A. rewrite E in A. rewrite show_1 in A; auto. discriminate A. Qed.
(** the projective method *)
Lemma d_proj_refuted : exists (K : fld) m c a b q r P Q, type_d K 3 m c a b q r /\ torsion K a b r P /\ on_twist K 3 m c a b Q /\
  pairing_apply (d_pairing K 3 m (const K 3 m c) a r 6 q PairingA.Miller) P Q <> Ok (dg_value K 3 m c a q r P Q).
Proof.
  exists F17, m17, (e17 3), (e17 6), (e17 8), 17, 13, PP17, QQ17. split; [exact type_d_17 | ]. split; [exact t17 | ]. split; [exact o17 | ].
  intro E. apply (f_equal show) in E. assert (A : Some ([1; 0; 0], [0; 0; 0]) = Some ([14; 1; 2], [7; 13; 15])) by (etransitivity; [symmetry; exact pr17 | etransitivity; [exact E | exact val17_show]]). discriminate A.
Qed.
Lemma g_proj_refuted : exists (K : fld) m c a b q r P Q, type_g K m c a b q r /\ torsion K a b r P /\ on_twist K 5 m c a b Q /\ dg_value K 5 m c a q r P Q <> f1 /\
  pairing_apply (g_pairing K 5 m (const K 5 m c) a r q PairingA.Miller) P Q <> Ok (dg_value K 5 m c a q r P Q).
Proof.
  exists F7, m7, (e7 3), (e7 1), (e7 6), 7, 11, PP7, QQ7. split; [exact type_g_7 | ]. split; [exact t7 | ]. split; [exact o7 | ]. split; [exact val7_not_1 | ].
  intro E. apply (f_equal show) in E. assert (A : Some ([0; 0; 3; 0; 1], [6; 1; 2; 4; 6]) = Some ([1; 3; 1; 1; 1], [3; 3; 5; 2; 0])) by (etransitivity; [symmetry; exact pr7 | etransitivity; [exact E | exact val7_show]]). discriminate A.
Qed.
(** r = 2^s - 1 *)
Lemma d_overrun_refuted : exists (K : fld) m c a b q r P, type_d K 3 m c a b q r /\ torsion K a b r P /\
  pairing_pp_init (d_pairing K 3 m (const K 3 m c) a r 6 q MillerAffine) P = UB.
Proof. exists F5, m5, (e5 2), (e5 2), (e5 1), 5, 7, PP5. split; [exact type_d_5 | ]. split; [exact t5 | ]. vm_compute. reflexivity. Qed.
(** type G: value 1 *)
Definition R7 : point (Ext F7 5 m7) := pzmul (Ext F7 5 m7) (fmul (fmul (const F7 5 m7 (e7 1)) (const F7 5 m7 (e7 3))) (const F7 5 m7 (e7 3))) 341 QQ7.
Lemma oR7 : on_twist F7 5 m7 (e7 3) (e7 1) (e7 6) R7. Proof. apply (dg_mul2 F7 5 m7 (e7 3) (e7 1) (e7 6) 7 11 (proj1 type_g_7)). exact o7. Qed.
Lemma valR7 : dg_value F7 5 m7 (e7 3) (e7 1) 7 11 PP7 R7 = f1.
Proof.
  unfold R7. pose proof (dg_bilinear F7 5 m7 (e7 3) (e7 1) (e7 6) 7 11 (proj1 type_g_7) 1 341 PP7 QQ7 t7 o7) as B. exact B.
Qed.
Lemma g_value_1_refuted : exists (K : fld) m c a b q r P Q, type_g K m c a b q r /\ torsion K a b r P /\ on_twist K 5 m c a b Q /\ dg_value K 5 m c a q r P Q = f1 /\
  pairing_apply (g_pairing K 5 m (const K 5 m c) a r q MillerAffine) P Q = Die.
Proof.
  exists F7, m7, (e7 3), (e7 1), (e7 6), 7, 11, PP7, R7. split; [exact type_g_7 | ]. split; [exact t7 | ]. split; [exact oR7 | ]. split; [exact valR7 | ]. vm_compute. reflexivity.
Qed.
(** the identity in the CoDDH test *)
Lemma coddh_identity : exists (K : fld) m c a b q r P Q, type_d K 3 m c a b q r /\ torsion K a b r P /\ on_twist K 3 m c a b Q /\
  cc_is_almost_coddh K 3 m (const K 3 m c) a r (d_tatepower K 3 m (const K 3 m c) r 6 q) MillerAffine P (pzmul K a 0 P) Q (pzmul (Ext K 3 m) (fmul (fmul (const K 3 m a) (const K 3 m c)) (const K 3 m c)) 0 Q) = UB.
Proof. exists F17, m17, (e17 3), (e17 6), (e17 8), 17, 13, PP17, QQ17. split; [exact type_d_17 | ]. split; [exact t17 | ]. split; [exact o17 | ]. reflexivity. Qed.
(** two type D pairings; an option of one changes the results of the other *)
Definition to_method (m : meth) : a_method := match m with Proj => PairingA.Miller | _ => MillerAffine end.
Lemma options_refuted : exists (K : fld) m c a b q r P Q before after, type_d K 3 m c a b q r /\ torsion K a b r P /\ on_twist K 3 m c a b Q /\
  let history := [OInit 0; OInit 1] in
  method_of (fun _ => TD) (orun (fun _ => TD) history) 0 = Some before /\
  method_of (fun _ => TD) (orun (fun _ => TD) (history ++ [OOption 1 "method" "miller"])) 0 = Some after /\
  pairing_apply (d_pairing K 3 m (const K 3 m c) a r 6 q (to_method before)) P Q <> pairing_apply (d_pairing K 3 m (const K 3 m c) a r 6 q (to_method after)) P Q.
Proof.
  exists F17, m17, (e17 3), (e17 6), (e17 8), 17, 13, PP17, QQ17, Affine, Proj. split; [exact type_d_17 | ]. split; [exact t17 | ]. split; [exact o17 | ]. split; [reflexivity | ]. split; [reflexivity | ].
  intro E. apply (f_equal show) in E. assert (A : Some ([14; 1; 2], [7; 13; 15]) = Some ([1; 0; 0], [0; 0; 0])) by (etransitivity; [symmetry; exact ap17 | etransitivity; [exact E | exact pr17]]). discriminate A.
Qed.
