(** Concrete cases for the polynomial theorems. *)
From Coq Require Import ZArith List Bool Lia Arith.
From Verif.Base Require Import Outcome Array Algebra Slots.
From Verif.Spec Require Import FieldCalls Polynomials PolynomialCalls Extension.
From Verif.Model Require Import Poly Polymod.
From Verif.Proofs Require Import FieldFacts ZpField RootWitness FpWitness QuadWitness PolyAlgebra PolyFacts PolyRuns PolyRoots ExtFacts PolymodFacts PolymodRuns.
Import ListNotations.
Open Scope Z_scope.

Definition z3l (l : list Z) : list Z3 := map (zmk 3 lt3) l.
Definition vals (l : list Z3) : list Z := map (zval 3) l.
Definition pst0 : pst Z3 := fun v => match v with
  | 0%nat => z3l [1; 2; 0; 1] | 1%nat => z3l [2; 1] | 2%nat => z3l [2; 2; 1] | _ => [] end.
Lemma pst0_normal : all_normal Z3 pst0.
Proof. intro v. unfold pst0, normal, z3l. destruct v as [ | [ | [ | v]]]; intros H E; try discriminate E; apply H; reflexivity. Qed.
(** cancellation, division with aliased arguments, gcd *)
Definition phist : list (pcall Z3) :=
  [PMul 3 1 2; PSub 4 3 3; PIs0 4; PAdd 3 3 0; PDegree 3; PDiv 5 0 3 1; PMul 5 5 1; PAdd 5 5 0; PCmp 5 3; PGcd 6 3 2; PDegree 6; PMonic 2 2; PItem 2 0].
Lemma poly_history_witness : Forall (fits Z3) phist /\
  match p_run Z3 10 pst0 phist with
  | Ok (_, [OBool true; ODegree 3; OBool false; ODegree 0; OCoeff c]) => zval 3 c = 2
  | _ => False
  end.
Proof. split; [unfold phist; repeat (apply Forall_cons; [cbn; first [exact I | discriminate] | ]); apply Forall_nil | vm_compute; reflexivity]. Qed.

(** X^3 - X - 1 over F_3, X^2 + 1 over F_3 *)
Definition m3 : list Z3 := z3l [2; 2; 0; 1].
Definition m2 : list Z3 := z3l [1; 0; 1].
Lemma z3_in : forall x : Z3, In x (z3l [0; 1; 2]).
Proof.
  intro x. destruct (z3_cases x) as [E | [E | E]]; cbn; [left | right; left | right; right; left]; apply zval_inj; rewrite zval_zmk, E; reflexivity.
Qed.
Lemma m3_monic : monic m3 3. Proof. split; reflexivity. Qed.
Lemma m2_monic : monic m2 2. Proof. split; reflexivity. Qed.
Lemma no_roots : forall m : list Z3, forallb (fun x => negb (feqb (peval Z3 m x) f0)) (z3l [0; 1; 2]) = true -> forall x, peval Z3 m x <> f0.
Proof.
  intros m H x E. rewrite forallb_forall in H. specialize (H x (z3_in x)). rewrite E in H. rewrite (feqb_refl Z3 z3_laws) in H. discriminate.
Qed.
Lemma m3_irreducible : irreducible m3.
Proof. apply (no_roots_irreducible Z3 z3_laws); [intros _ E; discriminate E | right; reflexivity | apply no_roots; vm_compute; reflexivity]. Qed.
Lemma m2_irreducible : irreducible m2.
Proof. apply (no_roots_irreducible Z3 z3_laws); [intros _ E; discriminate E | left; reflexivity | apply no_roots; vm_compute; reflexivity]. Qed.
Lemma polymod_witness :
  monic m3 3 /\ irreducible m3 /\
  match pm_run Z3 3 m3 4 (start Z3 (zmk 3 lt3)) [FMul 0 0 1; FSqr 1 1; FInv 2 0; FMul 2 2 0; FIs1 2; FDiv 0 0 1; FMul 0 0 1; FHalve 0 0; FDbl 0 0; FMulZ 1 1 (-2); FCmp 0 1; FValue 0; FValue 1] with
  | Ok [Datatypes.inl true; Datatypes.inl true; Datatypes.inr a; Datatypes.inr b] => (vals a, vals b) = ([1; 2; 1], [1; 2; 2])
  | _ => False
  end.
Proof. split; [apply m3_monic | ]. split; [apply m3_irreducible | ]. vm_compute. reflexivity. Qed.
Lemma polymod_invert_zero : pm_run Z3 3 m3 4 (start Z3 (zmk 3 lt3)) [FSet0 0; FInv 1 0] = Die.
Proof. vm_compute. reflexivity. Qed.
(** a product modulo a reducible polynomial, degree 6: X^6 *)
Lemma z3_pol : monic (z3l [0; 0; 0; 0; 0; 0; 1]) 6. Proof. split; reflexivity. Qed.

(** unnormalised results *)
Lemma mulz_witness : match p_run Z3 0 pst0 [PMulZ 1 1 3; PDegree 1; PIs0 1] with
  | Ok (t, [ODegree 1; OBool false]) => map (zval 3) (t 1%nat) = [0; 0]
  | _ => False
  end.
Proof. vm_compute. reflexivity. Qed.
Definition Z2 : fld := Zp 2 (eq_refl : 1 < 2).
Definition pst2 : pst Z2 := fun v => match v with 0%nat => [zmk 2 eq_refl 1; zmk 2 eq_refl 1] | _ => [] end.
Lemma dbl_witness : match p_run Z2 0 pst2 [PDbl 0 0; PDegree 0; PIs0 0] with
  | Ok (t, [ODegree 1; OBool false]) => map (zval 2) (t 0%nat) = [0; 0]
  | _ => False
  end.
Proof. vm_compute. reflexivity. Qed.
Definition enc3 (x : Z3) : list Z := [zval 3 x].
Definition dec3 (l : list Z) : Z3 := zmk 3 lt3 (hd 0 l).
Lemma dec_enc3 : forall x, dec3 (enc3 x) = x. Proof. intro x. unfold dec3, enc3. cbn. apply zmk_zval. Qed.
Lemma from_bytes_witness : poly_from_bytes Z3 1 dec3 [2; 0; 1; 0] = Ok (z3l [1; 0], 4%nat) /\ ~ normal (z3l [1; 0]).
Proof. split; [vm_compute; reflexivity | ]. intro H. apply H; [discriminate | reflexivity]. Qed.
