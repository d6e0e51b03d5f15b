(** Type F pairings (BN curves, embedding degree 12), ecc/f_param.c.
    F_{q^2} is [Quad K beta]; F_{q^12} is [Ext F_{q^2} 6 (x^6 + alpha)].  The
    operations of these fields are those of arith/fieldquadratic.c and
    arith/poly.c (properties C18, C22, C23).  Simplification as in
    Model/PairingA.v: reading the coordinates of the identity is [UB]. *)
From Coq Require Import ZArith List Bool.
From Verif.Base Require Import Outcome Array Algebra Slots Gmp.
From Verif.Spec Require Import Quadratic Curve Extension.
From Verif.Model Require Import GenericPow Curve Pairing PairingA Miller.
Import ListNotations.
Local Open Scope Z_scope.

Section F.
Variable K : fld.
Variable beta : K.
Definition Fq2 : fld := Quad K beta.
Variable alpha : Fq2.
(** irred, :350-360 *)
Definition f_irred : list Fq2 := [alpha; f0; f0; f0; f0; f0; f1].
Definition Fq12 : fld := Ext Fq2 6 f_irred.
Local Notation "x + y" := (fadd x y). Local Notation "x - y" := (fsub x y). Local Notation "x * y" := (fmul x y). Local Notation "- x" := (fopp x).

(** element_mul(element_x(e), element_x(e), c); the same for element_y *)
Definition scale2 (e : Fq2) (c : K) : Fq2 := (fmul (fst e) c, fmul (snd e) c).

Section M.
Variable negalpha : Fq2.
(** do_term(i, j, k, flag), :109-124: the new coefficient i *)
Definition do_term (v : Fq12) (abc : coeffs K) (Qx Qy : Fq2) (i j k : nat) (flag : nat) : Fq2 :=
  let '(a, b, c) := abc in
  let e1 := fmul (vcoef v j) Qx in
  let e1 := if Nat.eqb flag 1 then fmul e1 negalpha else e1 in
  let e1 := scale2 e1 a in
  let e2 := fmul (vcoef v k) Qy in
  let e2 := scale2 e2 b in
  let e2 := fadd e2 e1 in
  let e2 := if Nat.eqb flag 2 then fmul e2 negalpha else e2 in
  let e1 := scale2 (vcoef v i) c in
  fadd e2 e1.
(** f_miller_evalfn, :141-149 *)
Definition f_miller_evalfn (v : Fq12) (abc : coeffs K) (Qx Qy : Fq2) : Fq12 :=
  mkvec 6 (fun i => match i with
    | 0%nat => do_term v abc Qx Qy 0 2 3 2
    | 1%nat => do_term v abc Qx Qy 1 3 4 2
    | 2%nat => do_term v abc Qx Qy 2 4 5 2
    | 3%nat => do_term v abc Qx Qy 3 5 0 1
    | 4%nat => do_term v abc Qx Qy 4 0 1 0
    | _ => do_term v abc Qx Qy 5 1 2 0
    end).
(** do_tangent, :171-184 *)
Definition f_tangent (Zx Zy : K) : coeffs K :=
  let a := Zx * Zx in
  let a := fofz 3 * a in
  let a := - a in
  let b := Zy + Zy in
  let t0 := b * Zy in
  let c := a * Zx in
  let c := c + t0 in
  let c := - c in
  (a, b, c).
(** do_line, :190-199 *)
Definition f_line (Zx Zy Px Py : K) : coeffs K :=
  let b := Px - Zx in
  let a := Zy - Py in
  let t0 := b * Zy in
  let c := a * Zx in
  let c := c + t0 in
  let c := - c in
  (a, b, c).
(** the loop of cc_miller_no_denom, :220-232; curve_double and curve_mul of
    Model/Curve.v with a = 0 *)
Variable r : Z.
Fixpoint f_bits (m : nat) (P : point K) (Qx Qy : Fq2) (v : Fq12) (Z : point K) : res Fq12 :=
  ' (Zx, Zy) <- coords K Z ;;
  let v := f_miller_evalfn v (f_tangent Zx Zy) Qx Qy in
  match m with
  | O => Ok v
  | S m' =>
      Z <- double_value K f0 Z ;;
      ' (v, Z) <- (if mpz_tstbit r (Z.of_nat m)
                   then (' (Zx, Zy) <- coords K Z ;; ' (Px, Py) <- coords K P ;;
                         let v := f_miller_evalfn v (f_line Zx Zy Px Py) Qx Qy in
                         Z <- mul_value K f0 Z P ;; Ok (v, Z))
                   else Ok (v, Z)) ;;
      f_bits m' P Qx Qy (fmul v v) Z
  end.
(** :97-248; called with q = pairing->r *)
Definition f_miller (P : point K) (Qx Qy : Fq2) : res Fq12 := f_bits (start_bit r) P Qx Qy f1 P.
End M.

(** struct f_pairing_data_s, :35-45: the members used here *)
Record f_data := { negalpha : Fq2; negalphainv : Fq2; tateexp : Z; xpowq2 : Fq2; xpowq6 : Fq2; xpowq8 : Fq2 }.
(** x, with element_pow_mpz(xpowq, xpowq, q) repeated k times, :431-444 *)
Definition f_x : Fq12 := mkvec 6 (fun i => if Nat.eqb i 1 then f1 else f0).
Fixpoint f_qpowers (k : nat) (q : Z) (x : Fq12) : res Fq12 :=
  match k with
  | O => Ok x
  | S k' => x <- generic_pow_mpz (mul_monoid Fq12) x q ;; f_qpowers k' q x
  end.
(** f_init_pairing, :355-363, 414-444 *)
Definition f_init (q r : Z) : res f_data :=
  let na := fopp alpha in
  nai <- finvert na ;;
  let z := Z.mul q q in
  let z := Z.sub z 1 in
  let z := Z.mul z q in
  let z := Z.mul z q in
  let z := Z.add z 1 in
  let z := Z.div z r in
  x2 <- f_qpowers 2 q f_x ;;
  x6 <- f_qpowers 4 q x2 ;;
  x8 <- f_qpowers 2 q x6 ;;
  Ok {| negalpha := na; negalphainv := nai; tateexp := z; xpowq2 := vcoef x2 1; xpowq6 := vcoef x6 1; xpowq8 := vcoef x8 1 |}.

Section D.
Variable d : f_data.
Variable r : Z.
(** qpower, :257-268 *)
Definition f_qpower (out : Fq12) (e : Fq2) : Fq12 :=
  let e2 := fmul e e in
  let e3 := fmul e2 e in
  let e4 := fmul e3 e in
  let e5 := fmul e4 e in
  mkvec 6 (fun i => match i with
    | 0%nat => vcoef out 0
    | 1%nat => fmul (vcoef out 1) e
    | 2%nat => fmul (vcoef out 2) e2
    | 3%nat => fmul (vcoef out 3) e3
    | 4%nat => fmul (vcoef out 4) e4
    | _ => fmul (vcoef out 5) e5
    end).
(** f_tateexp, :250-283 *)
Definition f_tateexp (out : Fq12) : res Fq12 :=
  let y := f_qpower out (xpowq8 d) in
  let x := f_qpower out (xpowq6 d) in
  let y := fmul y x in
  let x := f_qpower out (xpowq2 d) in
  let x := fmul x out in
  x <- finvert x ;;
  let out := fmul y x in
  generic_pow_mpz (mul_monoid Fq12) out (tateexp d).
(** f_pairing, :289-311 *)
Definition f_pairing (in1 : point K) (in2 : point Fq2) : res Fq12 :=
  ' (Qx, Qy) <- coords Fq2 in2 ;;
  let x := fmul Qx (negalphainv d) in
  let y := fmul Qy (negalphainv d) in
  out <- f_miller (negalpha d) r in1 x y ;;
  f_tateexp out.
(** Installation, :401-406, with the defaults of ecc/pairing.c:75-81; for the
    preprocessing see Model/DefaultPP.v *)
Definition f_pairing_rec : pairing :=
  {| g1 := point K; g2 := point Fq2; gt := Fq12; ppt := point K;
     is0_1 := is_inf K; is0_2 := is_inf Fq2;
     map_ := f_pairing;
     pp_init_ := fun in1 => Ok in1;
     pp_apply_ := f_pairing;
     prod_ := generic_prod_pairings f_pairing |}.
End D.
End F.
