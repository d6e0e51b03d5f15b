(** The final powerings by Lucas sequences.
    Elements of the quadratic extension are pairs (real part, imaginary
    part), as in arith/fieldquadratic.c; their ring operations are those of
    [Quad], which the code of fieldquadratic.c computes (property C18).
    [inv0] is what inverting zero in the base field gives: GMP leaves the
    destination of a failed mpz_invert unspecified, so the theorems quantify
    over this value; [UB] may be put here as well. *)
From Coq Require Import ZArith.
From Verif.Base Require Import Outcome Algebra Slots Gmp.
From Verif.Spec Require Import Quadratic.
Local Open Scope Z_scope.

Section L.
Variables (K : fld) (d : K).
Variable inv0 : res K.
Local Notation L := (Quad K d).

(** element_div in the base field (ecc/../arith/field.c: multiply by the
    inverse) *)
Definition div0 (x y : K) : res K :=
  if feqb y f0 then (j <- inv0 ;; Ok (fmul x j)) else Ok (fdiv x y).
(** element_halve in the base field (arith/fp.c:fp_halve, montfp.c): division
    by two *)
Definition lhalve (x : K) : K := fdiv x (fadd f1 f1).

(** The loop shared by lucas_odd and lucas_even: ecc/a_param.c:242-262,
    ecc/d_param.c:462-482, ecc/g_param.c:430-450.  [t0] = 2, [t1] = twice the
    real part of the input; [j] is the bit number.  At bit 0 the "bit clear"
    step is always taken. *)
Fixpoint lucas_loop (t0 t1 : K) (cofactor : Z) (j : nat) (v0 v1 : K) : K * K :=
  match j with
  | O => (fsub (fmul v0 v0) t0, fsub (fmul v0 v1) t1)
  | S j' =>
      if Z.testbit cofactor (Z.of_nat j)
      then lucas_loop t0 t1 cofactor j' (fsub (fmul v0 v1) t1) (fsub (fmul v1 v1) t0)
      else lucas_loop t0 t1 cofactor j' (fsub (fmul v0 v0) t0) (fsub (fmul v0 v1) t1)
  end.

(** ecc/a_param.c:226-283 (also the copy used by type A1).  Overwriting of
    [in] and [temp] is not observable: all callers pass temporaries. *)
Definition lucas_odd (inp : L) (cofactor : Z) : res L :=
  let '(in0, in1) := inp in
  let t0 := fofz 2 in
  let t1 := fadd in0 in0 in
  let '(v0, v1) := lucas_loop t0 t1 cofactor (Z.to_nat (sizeinbase2 cofactor - 1)) t0 t1 in
  let in0 := fmul v0 t1 in
  let v1 := fsub (fadd v1 v1) in0 in
  let t1 := fsub (fsub (fmul t1 t1) t0) t0 in
  v1 <- div0 v1 t1 ;;
  Ok (lhalve v0, fmul v1 in1).

(** ecc/g_param.c:413-466: as in d_param.c without the test for 1. *)
Definition lucas_even_core (inp : L) (cofactor : Z) : res L :=
  let '(in0, in1) := inp in
  let t0 := fofz 2 in
  let t1 := fadd in0 in0 in
  let '(v0, v1) := lucas_loop t0 t1 cofactor (Z.to_nat (sizeinbase2 cofactor - 1)) t0 t1 in
  let v0 := fadd v0 v0 in
  let in0 := fsub (fmul t1 v1) v0 in
  let t1 := fsub (fsub (fmul t1 t1) t0) t0 in
  let v0 := lhalve v1 in
  v1 <- div0 in0 t1 ;;
  Ok (v0, fmul v1 in1).
(** ecc/d_param.c:441-502 *)
Definition lucas_even (inp : L) (cofactor : Z) : res L :=
  if feqb inp f1 then Ok inp else lucas_even_core inp cofactor.

(** ecc/a_param.c:285-303 *)
Definition a_tateexp (inp : L) (cofactor : Z) : res L :=
  temp <- finvert inp ;;
  let inp := (fst inp, fopp (snd inp)) in
  let inp := fmul (inp : L) temp in
  lucas_odd inp cofactor.
End L.
