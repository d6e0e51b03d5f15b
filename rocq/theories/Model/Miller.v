(** The double-and-add Miller loop shared by the pairing types whose order has
    no special form: ecc/a_param.c:2017-2097 (a1_pairing) and 2100-2193
    (a1_pairings_affine), ecc/d_param.c:321-422 and 591-707,
    ecc/g_param.c:308-407.  Each function has its own copy of the loop; the
    copies differ in the formulas for the tangent and the line and in the way a
    line is evaluated, which are parameters here.  The C code works on private
    temporaries initialised at the start of each function, so their values are
    threaded as let-bound variables. *)
From Coq Require Import ZArith List Bool.
From Verif.Base Require Import Outcome Array Algebra Slots Gmp.
From Verif.Spec Require Import Curve.
From Verif.Model Require Import Curve PairingA.
Import ListNotations.
Local Open Scope Z_scope.

(** m = mpz_sizeinbase(r, 2); m = (m > 2 ? m - 2 : 0); *)
Definition start_bit (r : Z) : nat := let m := sizeinbase2 r in Z.to_nat (if m >? 2 then m - 2 else 0).

Section Loop.
Variables (K T : fld) (E : Type) (a : K).   (* E: coordinates of the second argument *)
Variable tangent : K -> K -> coeffs K.
Variable line : K -> K -> K -> K -> coeffs K.
Variable ev : coeffs K -> E -> T.
Variable r : Z.

Definition do_tangent (Z : point K) (Q : E) (v : T) : res T :=
  ' (Zx, Zy) <- coords K Z ;; Ok (fmul v (ev (tangent Zx Zy) Q)).
Definition do_line (Z P : point K) (Q : E) (v : T) : res T :=
  ' (Zx, Zy) <- coords K Z ;; ' (Px, Py) <- coords K P ;; Ok (fmul v (ev (line Zx Zy Px Py) Q)).

(** for (;;) { do_tangent(); if (!m) break; double; if (bit m) { do_line();
    add; } m--; square; } *)
Fixpoint miller_bits (m : nat) (P : point K) (Q : E) (v : T) (Z : point K) : res T :=
  v <- do_tangent Z Q v ;;
  match m with
  | O => Ok v
  | S m' =>
      Z <- double_value K a Z ;;
      ' (v, Z) <- (if mpz_tstbit r (Z.of_nat m)
                   then (v <- do_line Z P Q v ;; Z <- mul_value K a Z P ;; Ok (v, Z))
                   else Ok (v, Z)) ;;
      miller_bits m' P Q (fmul v v) Z
  end.
Definition miller_affine (P : point K) (Q : E) : res T := miller_bits (start_bit r) P Q f1 P.

(** ** Products: the loop on arrays of n points.  element_multi_double(Z, Z, n)
    and element_multi_add(Z, Z, P, n) are the batch operations of
    Model/Curve.v, in place on the points of Z. *)
Definition multi_double_points (Zs : list (point K)) : res (list (point K)) :=
  st <- multi_double K a (map (fun i => (Reg i, Reg i)) (seq 0 (List.length Zs))) (load_all K Zs) ;;
  Ok (map (fun i => cval st (Reg i)) (seq 0 (List.length Zs))).
Definition multi_add_points (Zs Ps : list (point K)) : res (list (point K)) :=
  let n := List.length Zs in
  st <- multi_add K a (map (fun i => (Reg i, (Reg i, Reg (n + i)))) (seq 0 n)) (load_all K (Zs ++ Ps)) ;;
  Ok (map (fun i => cval st (Reg i)) (seq 0 n)).
Fixpoint do_tangents (Zs : list (point K)) (Qs : list E) (v : T) : res T :=
  match Zs, Qs with
  | [], _ => Ok v
  | Z :: Zs', Q :: Qs' => v <- do_tangent Z Q v ;; do_tangents Zs' Qs' v
  | _ :: _, [] => UB
  end.
Fixpoint do_lines (Zs Ps : list (point K)) (Qs : list E) (v : T) : res T :=
  match Zs, Ps, Qs with
  | [], _, _ => Ok v
  | Z :: Zs', P :: Ps', Q :: Qs' => v <- do_line Z P Q v ;; do_lines Zs' Ps' Qs' v
  | _, _, _ => UB
  end.
Fixpoint millers_bits (m : nat) (Ps : list (point K)) (Qs : list E) (v : T) (Zs : list (point K)) : res T :=
  v <- do_tangents Zs Qs v ;;
  match m with
  | O => Ok v
  | S m' =>
      Zs <- multi_double_points Zs ;;
      ' (v, Zs) <- (if mpz_tstbit r (Z.of_nat m)
                    then (v <- do_lines Zs Ps Qs v ;; Zs <- multi_add_points Zs Ps ;; Ok (v, Zs))
                    else Ok (v, Zs)) ;;
      millers_bits m' Ps Qs (fmul v v) Zs
  end.
(** [Ps] are the n points in1[0..n-1], [Qs] the prepared coordinates of
    in2[0..n-1] *)
Definition millers_affine (Ps : list (point K)) (Qs : list E) : res T := millers_bits (start_bit r) Ps Qs f1 Ps.
End Loop.
