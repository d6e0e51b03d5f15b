(** K[X]/(m) for a monic m of degree n: vectors of n coefficients (constant
    term first), with coefficientwise addition and multiplication followed by
    reduction modulo m. *)
From Coq Require Import List Arith Bool.
From Verif.Base Require Import Outcome Algebra.
From Verif.Spec Require Import Polynomials.
From Verif.Model Require Poly.   (* only for [einv], determined by the field laws *)
Import ListNotations.

Section E.
Variables (K : fld) (n : nat) (m : list K).
Definition vec : Type := { l : list K | Nat.eqb (length l) n = true }.
Lemma vec_length : forall c : nat -> K, Nat.eqb (length (map c (seq 0 n))) n = true.
Proof. intro. rewrite map_length, seq_length. apply Nat.eqb_refl. Qed.
(** The vector with the given coefficients. *)
Definition mkvec (c : nat -> K) : vec := exist _ (map c (seq 0 n)) (vec_length c).
Definition vcoef (a : vec) : nat -> K := coef (proj1_sig a).
(** f modulo m, from the leading coefficient down:
    X r + a with X^n replaced by X^n - m. *)
Fixpoint red (f : list K) : list K :=
  match f with
  | [] => []
  | a :: f' => let t := a :: red f' in map (fun i => fsub (coef t i) (fmul (coef t n) (coef m i))) (seq 0 n)
  end.
Definition emul (a b : vec) : vec := mkvec (coef (red (map (conv (proj1_sig a) (proj1_sig b)) (seq 0 (n + n))))).
(** Inverse by Euclid's algorithm; any other function satisfying the field
    laws would be equal to it. *)
Definition einv (a : vec) : vec :=
  mkvec (coef (match Poly.poly_invert K (length m) (trim (proj1_sig a)) m with Ok g => g | _ => [] end)).
Definition Ext : fld :=
  {| fcar := vec;
     f0 := mkvec (fun _ => f0);
     f1 := mkvec (fun i => if Nat.eqb i 0 then f1 else f0);
     fadd a b := mkvec (fun i => fadd (vcoef a i) (vcoef b i));
     fsub a b := mkvec (fun i => fsub (vcoef a i) (vcoef b i));
     fmul := emul;
     fopp a := mkvec (fun i => fopp (vcoef a i));
     fdiv a b := emul a (einv b);
     finv := einv;
     feqb a b := forallb (fun i => feqb (vcoef a i) (vcoef b i)) (seq 0 n) |}.
End E.
Arguments vcoef {K n}. Arguments mkvec {K}.
