(** Type D pairings, ecc/d_param.c, and type G, ecc/g_param.c (a copy of the
    same functions for embedding degree 10).  F_{q^d} is [Ext K d irred], with
    d = k/2; F_{q^k} is its quadratic extension by v = nqr, an element of F_q.
    The operations of these fields are those of arith/poly.c and
    arith/fieldquadratic.c (properties C18, C22, C23).  Simplification as in
    Model/PairingA.v: reading the coordinates of the identity is [UB]. *)
From Coq Require Import ZArith List Bool String.
From Verif.Base Require Import Outcome Array Algebra Slots Gmp.
From Verif.Spec Require Import Quadratic Curve Extension.
From Verif.Model Require Import GenericPow Curve Lucas Pairing PairingA Miller.
Import ListNotations.
Local Open Scope string_scope.
Local Open Scope Z_scope.

Section D.
Variables (K : fld) (d : nat) (irred : list K).
Definition Fqd : fld := Ext K d irred.
Variable nqr : Fqd.
Definition Fqk : fld := Quad Fqd nqr.
Local Notation "x + y" := (fadd x y). Local Notation "x - y" := (fsub x y). Local Notation "x * y" := (fmul x y). Local Notation "- x" := (fopp x).
Variables a4 : K.                 (* curve_a_coeff *)
Variable r : Z.

(** ecc/d_param.c:99-111, g_param.c:86-102 *)
Definition d_miller_evalfn (abc : coeffs K) (Q : Fqd * Fqd) : Fqk :=
  let '(a, b, c) := abc in
  let '(Qx, Qy) := Q in
  (mkvec d (fun i => let e := vcoef Qx i * a in if Nat.eqb i 0 then e + c else e), mkvec d (fun i => vcoef Qy i * b)).
(** d_param.c:342-360 (and 612-632); g_param.c:327-346.  In the preprocessing,
    d_param.c:823-846, 3 a is computed by doubling and adding. *)
Definition d_tangent (Zx Zy : K) : coeffs K :=
  let a := Zx * Zx in
  let a := fofz 3 * a in
  let a := a + a4 in
  let a := - a in
  let b := Zy + Zy in
  let t0 := b * Zy in
  let c := a * Zx in
  let c := c + t0 in
  let c := - c in
  (a, b, c).
Definition d_tangent_pp (Zx Zy : K) : coeffs K :=
  let a := Zx * Zx in
  let t0 := a + a in
  let a := a + t0 in
  let a := a + a4 in
  let a := - a in
  let b := Zy + Zy in
  let t0 := b * Zy in
  let c := a * Zx in
  let c := c + t0 in
  let c := - c in
  (a, b, c).
(** d_param.c:362-377, 634-656, 848-862; g_param.c:348-363 *)
Definition d_line (Zx Zy Px Py : K) : coeffs K :=
  let b := Px - Zx in
  let a := Zy - Py in
  let t0 := b * Zy in
  let c := a * Zx in
  let c := c + t0 in
  let c := - c in
  (a, b, c).
(** cc_miller_no_denom_affine, d_param.c:321-422; g_param.c:308-407 *)
Definition cc_miller_affine (P : point K) (Q : Fqd * Fqd) : res Fqk :=
  miller_affine K Fqk (Fqd * Fqd) a4 d_tangent d_line d_miller_evalfn r P Q.

(** ** cc_miller_no_denom_proj, d_param.c:116-318; g_param.c:104-305.
    Lines 283-284 (g_param.c:271-272) are
      Zx = curve_x_coord(Z);
      Zy = curve_x_coord(Z);
    so that Zx and Zy are the same variable, [W] here. *)
Definition projW : Type := K * K * K.    (* W, z, z2 *)
(** d_param.c:130-167 *)
Definition d_proj_double (s : projW) : projW :=
  let '(W, z, z2) := s in
  let t0 := W * W in
  let t1 := t0 + t0 in
  let t0 := t0 + t1 in
  let t1 := z2 * z2 in
  let t1 := t1 * a4 in
  let t0 := t0 + t1 in
  let z := W * z in
  let z := z + z in
  let z2 := z * z in
  let t2 := W * W in
  let t1 := W * t2 in
  let t1 := t1 + t1 in
  let t1 := t1 + t1 in
  let t3 := t1 + t1 in
  let W := t0 * t0 in
  let W := W - t3 in
  let t2 := t2 * t2 in
  let t2 := t2 + t2 in
  let t2 := t2 + t2 in
  let t2 := t2 + t2 in
  let t1 := t1 - W in
  let t0 := t0 * t1 in
  let W := t0 - t2 in
  (W, z, z2).
(** :169-211 *)
Definition d_proj_mixin (Px Py : K) (s : projW) : projW :=
  let '(W, z, z2) := s in
  let t2 := z2 * Px in
  let t3 := W - t2 in
  let t0 := z2 * Py in
  let t0 := t0 * z in
  let t1 := W - t0 in
  let t2 := W + t2 in
  let t0 := W + t0 in
  let z := z * t3 in
  let z2 := z * z in
  let t4 := t3 * t3 in
  let t3 := t4 * t3 in
  let W := t1 * t1 in
  let t4 := t2 * t4 in
  let W := W - t4 in
  let t4 := t4 - W in
  let t4 := t4 - W in
  let t4 := t4 * t1 in
  let t0 := t0 * t3 in
  let t4 := t4 - t0 in
  (lhalve K t4, z, z2).
(** :213-238 *)
Definition d_tangent_proj (s : projW) : coeffs K :=
  let '(W, z, z2) := s in
  let a := z2 * z2 in
  let a := a * a4 in
  let b := W * W in
  let t0 := b + b in
  let b := b + t0 in
  let a := a + b in
  let a := - a in
  let b := z * z2 in
  let b := b * W in
  let b := fofz 2 * b in
  let c := W * a in
  let a := a * z2 in
  let t0 := W * W in
  let t0 := fofz 2 * t0 in
  let c := c + t0 in
  let c := - c in
  (a, b, c).
(** :240-262 *)
Definition d_line_proj (Px Py : K) (s : projW) : coeffs K :=
  let '(W, z, z2) := s in
  let t0 := W * z in
  let t1 := z2 * z in
  let a := Py * t1 in
  let a := W - a in
  let b := Px * t1 in
  let b := b - t0 in
  let t0 := t0 * Py in
  let c := W * Px in
  let c := t0 - c in
  (a, b, c).
(** :290-300 *)
Fixpoint d_proj_bits (m : nat) (Px Py : K) (Q : Fqd * Fqd) (v : Fqk) (s : projW) : Fqk :=
  let v := fmul v (d_miller_evalfn (d_tangent_proj s) Q) in
  match m with
  | O => v
  | S m' =>
      let s := d_proj_double s in
      let '(v, s) :=
        if mpz_tstbit r (Z.of_nat m)
        then (fmul v (d_miller_evalfn (d_line_proj Px Py s) Q), d_proj_mixin Px Py s)
        else (v, s) in
      d_proj_bits m' Px Py Q (fmul v v) s
  end.
Definition cc_miller_proj (P : point K) (Q : Fqd * Fqd) : res Fqk :=
  ' (Px, Py) <- coords K P ;; Ok (d_proj_bits (start_bit r) Px Py Q f1 (Px, f1, f1)).
(** the global function pointer, d_param.c:424-438; g_param.c:538-539,
    1149-1160 (shipsey-stange is in EllNet.v) *)
Definition cc_miller (m : a_method) : point K -> Fqd * Fqd -> res Fqk :=
  match m with PairingA.Miller => cc_miller_proj | MillerAffine => cc_miller_affine end.

(** ** The final powering. *)
(** polymod_const_mul, arith/poly.c: every coefficient times c *)
Definition const_mul (c : K) (e : Fqd) : Fqd := mkvec d (fun i => vcoef e i * c).
(** e += c at the coefficient of x^0; e -= c there *)
Definition add_at0 (e : Fqd) (c : K) : Fqd := mkvec d (fun i => if Nat.eqb i 0 then vcoef e i + c else vcoef e i).
Definition sub_at0 (e : Fqd) (c : K) : Fqd := mkvec d (fun i => if Nat.eqb i 0 then vcoef e i - c else vcoef e i).
(** One half of qpower, d_param.c:507-528, g_param.c:485-517: [xs] are
    x^q, x^(2q), ... ; the loop is unrolled in C, for 2 and for 4 powers. *)
Fixpoint add_powers (e c : Fqd) (i : nat) (xs : list Fqd) : Fqd :=
  match xs with [] => e | x :: xs' => add_powers (fadd e (const_mul (vcoef c i) x)) c (S i) xs' end.
Fixpoint sub_powers (e c : Fqd) (i : nat) (xs : list Fqd) : Fqd :=
  match xs with [] => e | x :: xs' => sub_powers (fsub e (const_mul (vcoef c i) x)) c (S i) xs' end.
Definition qpos (c : Fqd) (xs : list Fqd) : Fqd :=
  match xs with
  | [] => c
  | x :: xs' => add_at0 (add_powers (const_mul (vcoef c 1) x) c 2 xs') (vcoef c 0)
  end.
Definition qneg (c : Fqd) (xs : list Fqd) : Fqd :=
  match xs with
  | [] => c
  | x :: xs' => sub_at0 (sub_powers (fopp (const_mul (vcoef c 1) x)) c 2 xs') (vcoef c 0)
  end.
Definition qpower_plus (inp : Fqk) (xs : list Fqd) : Fqk := (qpos (fst inp) xs, qpos (snd inp) xs).
Definition qpower_minus (inp : Fqk) (xs : list Fqd) : Fqk := (qpos (fst inp) xs, qneg (snd inp) xs).
(** The first step, d_param.c:543-553, g_param.c:519-529. *)
Definition easy_part (inp : Fqk) (xs : list Fqd) : res Fqk :=
  let e3 := qpower_plus inp xs in
  let e0 : Fqk := (fst inp, fopp (snd inp)) in
  let e3 := fmul e3 e0 in
  let e0 := qpower_minus inp xs in
  let e0 := fmul e0 inp in
  e0 <- finvert e0 ;;
  Ok (fmul e3 e0).
(** the element x, and x^q: d_param.c:1053-1056, g_param.c:1315-1316 *)
Definition xelem : Fqd := mkvec d (fun i => if Nat.eqb i 1 then f1 else f0).
Definition xpowq (q : Z) : res Fqd := generic_pow_mpz (mul_monoid Fqd) xelem q.
(** Inverting zero: poly_invert divides by it and poly_div calls pbc_die
    (arith/poly.c:416). *)
Definition polymod_inv0 : res Fqd := Die.

(** cc_tatepower, d_param.c:505-564, with the constants of d_init_pairing,
    :1041-1064 *)
Definition d_tatepower (k q : Z) (inp : Fqk) : res Fqk :=
  if k =? 6 then
    let phikonr := (q * q - q + 1) / r in
    xpowq <- xpowq q ;;
    let xpowq2 := fmul xpowq xpowq in
    e0 <- easy_part inp [xpowq; xpowq2] ;;
    lucas_even Fqd nqr polymod_inv0 e0 phikonr
  else generic_pow_mpz (mul_monoid Fqk) inp ((q ^ k - 1) / r).
(** tatepower10, g_param.c:471-536, with the constants of :1292-1321 *)
Definition g_tatepower (q : Z) (inp : Fqk) : res Fqk :=
  let phikonr := (1 - q + q * q - q * q * q + q * q * q * q) / r in
  xpowq <- xpowq q ;;
  let xpowq2 := fmul xpowq xpowq in
  let xpowq4 := fmul xpowq2 xpowq2 in
  let xpowq3 := fmul xpowq2 xpowq in
  e0 <- easy_part inp [xpowq; xpowq2; xpowq3; xpowq4] ;;
  lucas_even_core Fqd nqr polymod_inv0 e0 phikonr.

(** ** The pairing functions; [tatepower] is one of the two above. *)
Section T.
Variable tatepower : Fqk -> res Fqk.
(** nqrinv, nqrinv2: d_param.c:1083-1086; g_param.c:1326-1329 *)
Definition nqrinv : res Fqd := finvert nqr.
(** d_param.c:578-583 and wherever points of the twist are mapped *)
Definition untwist (Q : point Fqd) : res (Fqd * Fqd) :=
  ' (x, y) <- coords Fqd Q ;;
  nqrinv <- nqrinv ;;
  let nqrinv2 := fmul nqrinv nqrinv in
  Ok (fmul x nqrinv, fmul y nqrinv2).
(** cc_pairing, d_param.c:570-587; g_param.c:541-558 *)
Definition cc_pairing (m : a_method) (in1 : point K) (in2 : point Fqd) : res Fqk :=
  Q <- untwist in2 ;;
  v <- cc_miller m in1 Q ;;
  tatepower v.
(** cc_pairings_affine, d_param.c:710-736 *)
Fixpoint untwist_all (in2 : list (point Fqd)) : res (list (Fqd * Fqd)) :=
  match in2 with [] => Ok [] | Q :: in2' => c <- untwist Q ;; l <- untwist_all in2' ;; Ok (c :: l) end.
Definition cc_pairings_affine (in1 : list (point K)) (in2 : list (point Fqd)) (n_prod : nat) : res Fqk :=
  Ps <- slice in1 0 n_prod ;;
  Qs <- slice in2 0 n_prod ;;
  Qs <- untwist_all Qs ;;
  v <- millers_affine K Fqk (Fqd * Fqd) a4 d_tangent d_line d_miller_evalfn r Ps Qs ;;
  tatepower v.
(** cc_is_almost_coddh, d_param.c:739-784; g_param.c:560-607.  The identity is
    not tested for. *)
Definition cc_is_almost_coddh (m : a_method) (a b : point K) (c d' : point Fqd) : res bool :=
  t0 <- cc_pairing m a d' ;;
  t1 <- cc_pairing m b c ;;
  if feqb (fmul t0 t1) f1 then Ok true
  else t1 <- finvert t1 ;; Ok (feqb (fmul t0 t1) f1).

(** ** Preprocessing, d_param.c:794-966; g_param.c:619-787: an array of 2 m
    coefficient triples, m the number of the first bit. *)
Definition store_abc (tab : table K) (i : nat) (abc : coeffs K) : res (table K) := put tab i (Some abc).
Fixpoint d_pp_loop (m : nat) (P : point K) (i : nat) (tab : table K) (Z : point K) : res (table K) :=
  ' (Zx, Zy) <- coords K Z ;;
  tab <- store_abc tab i (d_tangent_pp Zx Zy) ;;
  match m with
  | O => Ok tab
  | S m' =>
      Z <- double_value K a4 Z ;;
      ' (tab, i, Z) <- (if mpz_tstbit r (Z.of_nat m) then
                          ' (Zx, Zy) <- coords K Z ;;
                          ' (Px, Py) <- coords K P ;;
                          tab <- store_abc tab (S i) (d_line Zx Zy Px Py) ;;
                          Z <- mul_value K a4 Z P ;;
                          Ok (tab, S i, Z)
                        else Ok (tab, i, Z)) ;;
      d_pp_loop m' P (S i) tab Z
  end.
Definition d_pairing_pp_init (in1 : point K) : res (table K) :=
  let m := start_bit r in
  d_pp_loop m in1 0 (repeat None (2 * m)) in1.
(** d_param.c:944-961 *)
Fixpoint d_pp_eval (m : nat) (i : nat) (tab : table K) (Q : Fqd * Fqd) (out : Fqk) : res Fqk :=
  abc <- get_coeff K tab i ;;
  let out := fmul out (d_miller_evalfn abc Q) in
  match m with
  | O => Ok out
  | S m' =>
      ' (out, i) <- (if mpz_tstbit r (Z.of_nat m) then
                       abc <- get_coeff K tab (S i) ;;
                       Ok (fmul out (d_miller_evalfn abc Q), S i)
                     else Ok (out, i)) ;;
      d_pp_eval m' (S i) tab Q (fmul out out)
  end.
Definition d_pairing_pp_apply (tab : table K) (in2 : point Fqd) : res Fqk :=
  Q <- untwist in2 ;;
  out <- d_pp_eval (start_bit r) 0 tab Q f1 ;;
  tatepower out.
(** d_pairing_pp_clear, :904-919; g_param.c:724-739: clears this many triples *)
Fixpoint popcount_pos (p : positive) : Z := match p with xH => 1 | xO p => popcount_pos p | xI p => 1 + popcount_pos p end.
Definition mpz_popcount (z : Z) : Z := match z with Zpos p => popcount_pos p | _ => 0 end.
Definition d_pp_clear_count : nat := let m := (sizeinbase2 r + mpz_popcount r)%Z in Z.to_nat (if (m >? 3)%Z then (m - 3)%Z else 0%Z).
Fixpoint d_pp_clear (n i : nat) (tab : table K) : res unit :=
  match n with O => Ok tt | S n' => _ <- get_coeff K tab i ;; d_pp_clear n' (S i) tab end.
Definition d_pairing_pp_clear (tab : table K) : res unit := d_pp_clear d_pp_clear_count 0 tab.
End T.

(** ** Installation: d_param.c:993-1110, g_param.c:1248-1354.  [m] is the value
    of the global function pointer.  Type G keeps generic_prod_pairings. *)
Definition is_inf2 (P : point Fqd) : bool := match P with None => true | Some _ => false end.
Definition d_pairing (k q : Z) (m : a_method) : pairing :=
  {| g1 := point K; g2 := point Fqd; gt := Fqk; ppt := table K;
     is0_1 := is_inf K; is0_2 := is_inf2;
     map_ := cc_pairing (d_tatepower k q) m;
     pp_init_ := d_pairing_pp_init;
     pp_apply_ := d_pairing_pp_apply (d_tatepower k q);
     prod_ := cc_pairings_affine (d_tatepower k q) |}.
Definition g_pairing (q : Z) (m : a_method) : pairing :=
  {| g1 := point K; g2 := point Fqd; gt := Fqk; ppt := table K;
     is0_1 := is_inf K; is0_2 := is_inf2;
     map_ := cc_pairing (g_tatepower q) m;
     pp_init_ := d_pairing_pp_init;
     pp_apply_ := d_pairing_pp_apply (g_tatepower q);
     prod_ := generic_prod_pairings (cc_pairing (g_tatepower q) m) |}.
End D.
