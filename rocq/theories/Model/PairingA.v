(** Type A pairings: ecc/a_param.c, the Miller methods.  The C code works on
    private temporaries initialised at the start of each function, so their
    values are threaded as let-bound variables.  F_{q^2} = F_q(i) is
    [Quad K (-1)], whose operations field_init_fi computes (property C18).
    Simplification: reading the coordinates of the identity is [UB]; in C the
    coordinates of an earlier value are read. *)
From Coq Require Import ZArith List Bool String.
From Verif.Base Require Import Outcome Array Algebra Slots Gmp.
From Verif.Spec Require Import Quadratic Curve.
From Verif.Model Require Import Curve Lucas Pairing.
Import ListNotations.
Local Open Scope Z_scope.

Section A.
Variable K : fld.
Variable inv0 : res K.          (* see Model/Lucas.v *)
Definition Fq2 : fld := Quad K (fopp f1).
Local Notation "x + y" := (fadd x y). Local Notation "x - y" := (fsub x y). Local Notation "x * y" := (fmul x y). Local Notation "- x" := (fopp x).

(** curve_x_coord, curve_y_coord *)
Definition coords (P : point K) : res (K * K) := match P with None => UB | Some c => Ok c end.
Definition coeffs : Type := K * K * K.

(** ecc/a_param.c:61-84 *)
Definition compute_abc_tangent (Vx Vy : K) : coeffs :=
  let a := Vx * Vx in
  let e0 := a + a in
  let a := e0 + a in
  let b := f1 in
  let a := a + b in
  let a := - a in
  let b := Vy + Vy in
  let e0 := b * Vy in
  let c := a * Vx in
  let c := c + e0 in
  let c := - c in
  (a, b, c).
(** :86-112 *)
Definition compute_abc_tangent_proj (Vx Vy z z2 : K) : coeffs :=
  let a := z2 * z2 in
  let b := Vx * Vx in
  let e0 := b + b in
  let b := e0 + b in
  let a := a + b in
  let a := - a in
  let e0 := Vy + Vy in
  let b := e0 * z2 in
  let b := b * z in
  let c := Vx * a in
  let a := a * z2 in
  let e0 := e0 * Vy in
  let c := c + e0 in
  let c := - c in
  (a, b, c).
(** :114-130 *)
Definition compute_abc_line (Vx Vy V1x V1y : K) : coeffs :=
  let a := Vy - V1y in
  let b := V1x - Vx in
  let c := Vx * V1y in
  let e0 := Vy * V1x in
  let c := c - e0 in
  (a, b, c).
(** :306-315 *)
Definition a_miller_evalfn (abc : coeffs) (Qx Qy : K) : Fq2 :=
  let '(a, b, c) := abc in
  let im := a * Qx in
  let re := c - im in
  let im := b * Qy in
  (re, im).

(** struct a_pairing_data_s :25-30 with pairing->phikonr (= h, :1462) *)
Record a_info := { exp2 : Z; exp1 : Z; sign1 : Z; phikonr : Z }.
Variable info : a_info.
(** iterations of "for (i=0; i<exp1; i++)" and of the following
    "for (; i<exp2; i++)" *)
Definition n1 : nat := Z.to_nat (exp1 info).
Definition n2 : nat := Z.to_nat (exp2 info - Z.max 0 (exp1 info)).
Definition tateexp (f : Fq2) : res Fq2 := a_tateexp K (- f1) inv0 f (phikonr info).
(** :1251-1257 and the same lines in the other methods *)
Definition minus_or_same (V : point K) : point K := if sign1 info <? 0 then pneg V else V.
Definition invert_or_same (f : Fq2) : res Fq2 := if sign1 info <? 0 then finvert f else Ok f.

(** ** a_pairing_affine, :1201-1279 *)
Fixpoint affine_loop (n : nat) (Qx Qy : K) (f : Fq2) (V : point K) : res (Fq2 * point K) :=
  match n with
  | O => Ok (f, V)
  | S n' =>
      let f := fmul f f in
      ' (Vx, Vy) <- coords V ;;
      let f := fmul f (a_miller_evalfn (compute_abc_tangent Vx Vy) Qx Qy) in
      V <- double_value K f1 V ;;
      affine_loop n' Qx Qy f V
  end.
Definition do_line (V V1 : point K) (Qx Qy : K) (f : Fq2) : res Fq2 :=
  ' (Vx, Vy) <- coords V ;;
  ' (V1x, V1y) <- coords V1 ;;
  Ok (fmul f (a_miller_evalfn (compute_abc_line Vx Vy V1x V1y) Qx Qy)).
Definition a_pairing_affine (in1 in2 : point K) : res Fq2 :=
  ' (Qx, Qy) <- coords in2 ;;
  ' (f, V) <- affine_loop n1 Qx Qy f1 in1 ;;
  let V1 := minus_or_same V in
  f1' <- invert_or_same f ;;
  ' (f, V) <- affine_loop n2 Qx Qy f V ;;
  let f := fmul f f1' in
  f <- do_line V V1 Qx Qy f ;;
  tateexp f.

(** ** a_pairing_proj, :1053-1198.  V is kept as (x, y, z, z^2). *)
Definition jac : Type := K * K * K * K.
(** :1081-1118 *)
Definition proj_double (v : jac) : jac :=
  let '(Vx, Vy, z, z2) := v in
  let e0 := Vx * Vx in
  let e1 := e0 + e0 in
  let e0 := e1 + e0 in
  let e1 := z2 * z2 in
  let e0 := e0 + e1 in
  let z := Vy * z in
  let z := z + z in
  let z2 := z * z in
  let e2 := Vy * Vy in
  let e1 := Vx * e2 in
  let e1 := e1 + e1 in
  let e1 := e1 + e1 in
  let e3 := e1 + e1 in
  let Vx := e0 * e0 in
  let Vx := Vx - e3 in
  let e2 := e2 * e2 in
  let e2 := e2 + e2 in
  let e2 := e2 + e2 in
  let e2 := e2 + e2 in
  let e1 := e1 - Vx in
  let e0 := e0 * e1 in
  let Vy := e0 - e2 in
  (Vx, Vy, z, z2).
(** :1072-1079 *)
Definition point_to_affine (v : jac) : res jac :=
  let '(Vx, Vy, z, z2) := v in
  z <- finvert z ;;
  let e0 := z * z in
  let Vx := Vx * e0 in
  let e0 := e0 * z in
  let Vy := Vy * e0 in
  Ok (Vx, Vy, f1, f1).
Fixpoint proj_loop (n : nat) (Qx Qy : K) (f : Fq2) (v : jac) : Fq2 * jac :=
  match n with
  | O => (f, v)
  | S n' =>
      let f := fmul f f in
      let '(Vx, Vy, z, z2) := v in
      let f := fmul f (a_miller_evalfn (compute_abc_tangent_proj Vx Vy z z2) Qx Qy) in
      proj_loop n' Qx Qy f (proj_double v)
  end.
Definition jac_point (v : jac) : point K := let '(Vx, Vy, _, _) := v in Some (Vx, Vy).
Definition a_pairing_proj (in1 in2 : point K) : res Fq2 :=
  ' (Qx, Qy) <- coords in2 ;;
  ' (Vx, Vy) <- coords in1 ;;
  let '(f, v) := proj_loop n1 Qx Qy f1 (Vx, Vy, f1, f1) in
  v <- point_to_affine v ;;
  let V1 := minus_or_same (jac_point v) in
  f1' <- invert_or_same f ;;
  let '(f, v) := proj_loop n2 Qx Qy f v in
  let f := fmul f f1' in
  v <- point_to_affine v ;;
  f <- do_line (jac_point v) V1 Qx Qy f ;;
  tateexp f.

(** ** Preprocessing: the table of exp2 + 1 coefficient triples, [None] while
    not yet written. *)
Definition table : Type := list (option coeffs).
(** :163-169 *)
Fixpoint pp_loop (n : nat) (i : nat) (coeff : table) (V : point K) : res (table * point K) :=
  match n with
  | O => Ok (coeff, V)
  | S n' =>
      ' (Vx, Vy) <- coords V ;;
      coeff <- put coeff i (Some (compute_abc_tangent Vx Vy)) ;;
      V <- double_value K f1 V ;;
      pp_loop n' (S i) coeff V
  end.
(** :149-207 *)
Definition a_pairing_pp_init (in1 : point K) : res table :=
  let coeff : table := repeat None (Z.to_nat (exp2 info + 1)) in
  ' (coeff, V) <- pp_loop n1 0 coeff in1 ;;
  let V1 := minus_or_same V in
  ' (coeff, V) <- pp_loop n2 n1 coeff V ;;
  ' (Vx, Vy) <- coords V ;;
  ' (V1x, V1y) <- coords V1 ;;
  put coeff (n1 + n2) (Some (compute_abc_line Vx Vy V1x V1y)).
Definition get_coeff (coeff : table) (i : nat) : res coeffs :=
  o <- get coeff i ;; match o with None => UB | Some abc => Ok abc end.
(** :329-335 *)
Fixpoint pp_eval (n : nat) (i : nat) (coeff : table) (Qx Qy : K) (f : Fq2) : res Fq2 :=
  match n with
  | O => Ok f
  | S n' =>
      abc <- get_coeff coeff i ;;
      let f := fmul f f in
      let f := fmul f (a_miller_evalfn abc Qx Qy) in
      pp_eval n' (S i) coeff Qx Qy f
  end.
(** :317-360 *)
Definition a_pairing_pp_apply (coeff : table) (in2 : point K) : res Fq2 :=
  ' (Qx, Qy) <- coords in2 ;;
  f <- pp_eval n1 0 coeff Qx Qy f1 ;;
  out <- invert_or_same f ;;
  f <- pp_eval n2 n1 coeff Qx Qy f ;;
  let f := fmul f out in
  abc <- get_coeff coeff (n1 + n2) ;;
  let f := fmul f (a_miller_evalfn abc Qx Qy) in
  tateexp f.

(** ** Products, :1283-1383.  element_multi_double(V, V, n) is the batch
    doubling of Model/Curve.v run on the n points, in place. *)
Definition load_all (Vs : list (point K)) : cst K :=
  {| sl := fun l => match fst l with
                    | Reg i => match nth i Vs None with
                               | None => f0 | Some (u, v) => if Nat.eqb (snd l) 0 then u else v end
                    | _ => f0 end;
     inf := fun o => match o with
                     | Reg i => match nth i Vs None with None => true | Some _ => false end
                     | _ => true end |}.
Definition multi_double_values (Vs : list (point K)) : res (list (point K)) :=
  st <- multi_double K f1 (map (fun i => (Reg i, Reg i)) (seq 0 (List.length Vs))) (load_all Vs) ;;
  Ok (map (fun i => cval st (Reg i)) (seq 0 (List.length Vs))).
(** :1297-1307; [in2] is indexed up to the number of points *)
Fixpoint do_tangents (Vs : list (point K)) (in2 : list (point K)) (f : Fq2) : res Fq2 :=
  match Vs, in2 with
  | [], _ => Ok f
  | V :: Vs', Q :: in2' =>
      ' (Vx, Vy) <- coords V ;;
      ' (Qx, Qy) <- coords Q ;;
      do_tangents Vs' in2' (fmul f (a_miller_evalfn (compute_abc_tangent Vx Vy) Qx Qy))
  | _ :: _, [] => UB
  end.
Fixpoint do_lines (Vs V1s : list (point K)) (in2 : list (point K)) (f : Fq2) : res Fq2 :=
  match Vs, V1s, in2 with
  | [], _, _ => Ok f
  | V :: Vs', V1 :: V1s', Q :: in2' =>
      ' (Qx, Qy) <- coords Q ;;
      f <- do_line V V1 Qx Qy f ;;
      do_lines Vs' V1s' in2' f
  | _, _, _ => UB
  end.
Fixpoint prod_loop (n : nat) (in2 : list (point K)) (f : Fq2) (Vs : list (point K)) : res (Fq2 * list (point K)) :=
  match n with
  | O => Ok (f, Vs)
  | S n' =>
      let f := fmul f f in
      f <- do_tangents Vs in2 f ;;
      Vs <- multi_double_values Vs ;;
      prod_loop n' in2 f Vs
  end.
Definition a_pairings_affine (in1 in2 : list (point K)) (n_prod : nat) : res Fq2 :=
  Vs <- slice in1 0 n_prod ;;
  ' (f, Vs) <- prod_loop n1 in2 f1 Vs ;;
  let V1s := map minus_or_same Vs in
  f1' <- invert_or_same f ;;
  ' (f, Vs) <- prod_loop n2 in2 f Vs ;;
  let f := fmul f f1' in
  f <- do_lines Vs V1s in2 f ;;
  tateexp f.

(** ** Installation, :1399-1472.  The shipsey-stange method is
    in EllNet.v. *)
Inductive a_method := Miller | MillerAffine.
Definition a_option_set (key value : string) (m : a_method) : a_method :=
  if String.eqb key "method" then
    if String.eqb value "miller" then Miller
    else if String.eqb value "miller-affine" then MillerAffine
    else m
  else m.
Definition is_inf (P : point K) : bool := match P with None => true | Some _ => false end.
Definition a_pairing (m : a_method) : pairing :=
  {| g1 := point K; g2 := point K; gt := Fq2; ppt := table;
     is0_1 := is_inf; is0_2 := is_inf;
     map_ := match m with Miller => a_pairing_proj | MillerAffine => a_pairing_affine end;
     pp_init_ := a_pairing_pp_init;
     pp_apply_ := a_pairing_pp_apply;
     prod_ := a_pairings_affine |}.
End A.

(** The structure filled in by a_init_pairing (ecc/a_param.c:1431-1470). *)
Definition a_info_of (h e2 e1 s1 : Z) : a_info := {| exp2 := e2; exp1 := e1; sign1 := s1; phikonr := h |}.
