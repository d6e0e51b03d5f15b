(** Type A1 pairings: ecc/a_param.c:1564-2330.  The curve is Y^2 = X^3 + X
    over F_p, p = l n - 1, and F_{p^2} = F_p(i) as for type A.  Simplification
    as in Model/PairingA.v: reading the coordinates of the identity is [UB]. *)
From Coq Require Import ZArith List Bool String.
From Verif.Base Require Import Outcome Array Algebra Slots Gmp.
From Verif.Spec Require Import Quadratic Curve.
From Verif.Model Require Import GenericPow Curve Lucas Pairing PairingA Miller.
Import ListNotations.
Local Open Scope Z_scope.

Section A1.
Variable K : fld.
Variables r phikonr : Z.          (* param n and l: a1_init_pairing :2230-2246 *)
Local Notation T := (Fq2 K).
Local Notation "x + y" := (fadd x y). Local Notation "x - y" := (fsub x y). Local Notation "x * y" := (fmul x y). Local Notation "- x" := (fopp x).

Definition eval1 (abc : coeffs K) (Q : K * K) : T := a_miller_evalfn K abc (fst Q) (snd Q).
(** :2079-2082 and the same lines in the other methods *)
Definition a1_tateexp (f : T) : res T :=
  f0 <- finvert f ;;
  let f : T := (fst f, - snd f) in
  let f := fmul f f0 in
  generic_pow_mpz (mul_monoid T) f phikonr.
(** a1_pairing, :2017-2097 *)
Definition a1_pairing_affine (in1 in2 : point K) : res T :=
  Q <- coords K in2 ;;
  f <- miller_affine K T (K * K) f1 (compute_abc_tangent K) (compute_abc_line K) eval1 r in1 Q ;;
  a1_tateexp f.

(** ** a1_pairing_proj, :1840-2014: V = (x, y, z, z^2), in1 affine *)
(** :1820-1838 *)
Definition compute_abc_line_proj (Vx Vy z z2 V1x V1y : K) : coeffs K :=
  let c := z * z2 in
  let e0 := V1y * c in
  let a := Vy - e0 in
  let b := c * V1x in
  let e0 := Vx * z in
  let b := b - e0 in
  let c := b * V1y in
  let e0 := a * V1x in
  let c := c + e0 in
  let c := - c in
  (a, b, c).
(** :1868-1897; [z2] holds X1 while Vx is updated *)
Definition proj_add (Px Py : K) (v : jac K) : jac K :=
  let '(Vx, Vy, z, z2) := v in
  let e0 := Px * z2 in
  let e0 := e0 - Vx in
  let e1 := e0 * e0 in
  let e2 := z * z2 in
  let e2 := e2 * Py in
  let e2 := e2 - Vy in
  let z2 := Vx in
  let Vx := e2 * e2 in
  let e3 := e0 * e1 in
  let Vx := Vx - e3 in
  let e3 := z2 + z2 in
  let e3 := e3 * e1 in
  let Vx := Vx - e3 in
  let e3 := z2 * e1 in
  let e3 := e3 - Vx in
  let e3 := e3 * e2 in
  let e2 := e0 * e1 in
  let e2 := e2 * Vy in
  let Vy := e3 - e2 in
  let z := z * e0 in
  let z2 := z * z in
  (Vx, Vy, z, z2).
(** :1972-1985; proj_double :1899-1938 is the text of :1081-1118 *)
Fixpoint proj_bits (m : nat) (Px Py : K) (Q : K * K) (f : T) (v : jac K) : T :=
  let '(Vx, Vy, z, z2) := v in
  let f := fmul f (eval1 (compute_abc_tangent_proj K Vx Vy z z2) Q) in
  match m with
  | O => f
  | S m' =>
      let v := proj_double K v in
      let '(f, v) :=
        if mpz_tstbit r (Z.of_nat m) then
          let '(Vx, Vy, z, z2) := v in
          (fmul f (eval1 (compute_abc_line_proj Vx Vy z z2 Px Py) Q), proj_add Px Py v)
        else (f, v) in
      proj_bits m' Px Py Q (fmul f f) v
  end.
Definition a1_pairing_proj (in1 in2 : point K) : res T :=
  Q <- coords K in2 ;;
  ' (Px, Py) <- coords K in1 ;;
  a1_tateexp (proj_bits (start_bit r) Px Py Q f1 (Px, Py, f1, f1)).

(** ** Preprocessing, :1594-1816: an array of pointers to blocks of three or of
    six coefficients, ended by NULL.  A slot is [None] until written; reading a
    block of the wrong size is [UB]. *)
Inductive a1_block := B3 (abc : coeffs K) | B6 (cx2 cy2 cxy cx cy c : K) | Null.
Definition a1_table : Type := list (option a1_block).
(** :1675-1698 *)
Definition merge (abc abc2 : coeffs K) : a1_block :=
  let '(a, b, c) := abc in
  let '(a2, b2, c2) := abc2 in
  let e0 := a * c2 in
  let e1 := a2 * c in
  let e0 := e0 + e1 in
  let e1 := b2 * c in
  let e2 := b * c2 in
  let e1 := e1 + e2 in
  let c := c * c2 in
  let c2 := a * b2 in
  let e2 := a2 * b in
  let c2 := c2 + e2 in
  let a := a * a2 in
  let b := b * b2 in
  B6 a b c2 e0 e1 c.
(** :1667-1712; [i] is the index pp - p->data *)
Fixpoint a1_pp_loop (m : nat) (in1 : point K) (i : nat) (tab : a1_table) (V : point K) : res a1_table :=
  ' (Vx, Vy) <- coords K V ;;
  let abc := compute_abc_tangent K Vx Vy in
  match m with
  | O => tab <- put tab i (Some (B3 abc)) ;; put tab (S i) (Some Null)
  | S m' =>
      V <- double_value K f1 V ;;
      ' (b, V) <- (if mpz_tstbit r (Z.of_nat m) then
                     ' (Vx, Vy) <- coords K V ;;
                     ' (Px, Py) <- coords K in1 ;;
                     V' <- mul_value K f1 V in1 ;;
                     Ok (merge abc (compute_abc_line K Vx Vy Px Py), V')
                   else Ok (B3 abc, V)) ;;
      tab <- put tab i (Some b) ;;
      a1_pp_loop m' in1 (S i) tab V
  end.
Definition a1_pairing_pp_init (in1 : point K) : res a1_table :=
  a1_pp_loop (start_bit r) in1 0 (repeat None (Z.to_nat (sizeinbase2 r))) in1.
(** *pp as a pointer to a block *)
Definition block (tab : a1_table) (i : nat) : res a1_block := o <- get tab i ;; match o with None => UB | Some b => Ok b end.
(** :1738-1740 *)
Definition eval3 (b : a1_block) (Q : K * K) : res T := match b with B3 abc => Ok (eval1 abc Q) | _ => UB end.
(** :1742-1758, :1773-1775 *)
Definition eval6 (b : a1_block) (Q : K * K) : res T :=
  match b with
  | B6 cx2 cy2 cxy cx cy c =>
      let '(Qx, Qy) := Q in
      let Qx2 := Qx * Qx in let Qy2 := Qy * Qy in let Qxy := Qx * Qy in
      let e0 := cx2 * Qx2 in
      let e1 := cy2 * Qy2 in
      let e0 := e0 - e1 in
      let e1 := cx * Qx in
      let e0 := e0 - e1 in
      let re := e0 + c in
      let e0 := cy * Qy in
      let e1 := cxy * Qxy in
      Ok (re, e0 - e1)
  | _ => UB
  end.
(** :1780-1792 *)
Fixpoint a1_pp_eval (m : nat) (i : nat) (tab : a1_table) (Q : K * K) (f : T) : res T :=
  b <- block tab i ;;
  match m with
  | O => f0 <- eval3 b Q ;; Ok (fmul f f0)
  | S m' =>
      f0 <- (if mpz_tstbit r (Z.of_nat m) then eval6 b Q else eval3 b Q) ;;
      let f := fmul f f0 in
      a1_pp_eval m' (S i) tab Q (fmul f f)
  end.
Definition a1_pairing_pp_apply (tab : a1_table) (in2 : point K) : res T :=
  Q <- coords K in2 ;;
  f <- a1_pp_eval (start_bit r) 0 tab Q f1 ;;
  a1_tateexp f.
(** a1_pairing_pp_clear, :1623-1630: frees the blocks up to NULL; the result is
    the number of blocks freed *)
Fixpoint a1_pp_clear (fuel : nat) (tab : a1_table) (i : nat) : res nat :=
  match fuel with
  | O => OutOfFuel
  | S fuel' => b <- block tab i ;; match b with Null => Ok i | _ => a1_pp_clear fuel' tab (S i) end
  end.

(** ** Products, a1_pairings_affine, :2100-2193 *)
Fixpoint coords_all (in2 : list (point K)) : res (list (K * K)) :=
  match in2 with [] => Ok [] | Q :: in2' => c <- coords K Q ;; l <- coords_all in2' ;; Ok (c :: l) end.
Definition a1_pairings_affine (in1 in2 : list (point K)) (n_prod : nat) : res T :=
  Ps <- slice in1 0 n_prod ;;
  Qs <- slice in2 0 n_prod ;;
  Qs <- coords_all Qs ;;
  f <- millers_affine K T (K * K) f1 (compute_abc_tangent K) (compute_abc_line K) eval1 r Ps Qs ;;
  a1_tateexp f.

(** ** Installation, :2209-2272.  The shipsey-stange method is
    in EllNet.v.
    Default: proj. *)
Definition a1_pairing (m : a_method) : pairing :=
  {| g1 := point K; g2 := point K; gt := T; ppt := a1_table;
     is0_1 := is_inf K; is0_2 := is_inf K;
     map_ := match m with PairingA.Miller => a1_pairing_proj | MillerAffine => a1_pairing_affine end;
     pp_init_ := a1_pairing_pp_init;
     pp_apply_ := a1_pairing_pp_apply;
     prod_ := a1_pairings_affine |}.
(** pairing->finalpow = a_finalpow (:2259), used by random and from_hash of GT:
    the Lucas ladder of type A with cofactor l *)
Definition a1_finalpow (inv0 : res K) (e : T) : res T := a_tateexp K (- f1) inv0 e phikonr.
End A1.
