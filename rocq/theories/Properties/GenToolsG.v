(** C81: the program gengparam. *)
From Coq Require Import ZArith Znumtheory List Bool String Lia.
From Verif.Base Require Import Outcome Algebra Slots.
From Verif.Spec Require Import ParamText FiniteField Polynomials Roots Extension Quadratic Twist Curve HashToCurve CurveChoice CMCurves PairingValue PairingValueD GenTools.
From Verif.Model Require Import CurveCodec Pairing PairingA PairingD Mnt CurveGen Param GenTools GenToolsD GenToolsG.
From Verif.Proofs Require Import MntMain GenToolsG GenToolsOne.
Import ListNotations.
Open Scope Z_scope.

(** Every text printed by gengparam D is read back with primes q and r, n = h r,
    q and n in Freeman's family, and nk, hk as announced; if the curve and the
    extension were chosen over F_q as in [d_rest], from a monic class polynomial
    of degree at least 2 with a root in F_q, other than 0, the pairing set up
    from the numbers read is bilinear wherever its value is not 1 (as for
    type G in C36).  Missing: the value 1, the discriminant (refuted, C43), linear
    class polynomials (refuted), j = 0, a nonresidue 0, and non-degeneracy. *)
Theorem gengparam_gives_pairing_partial : forall isprime nextprime rest fuel dd ts, exact_primes isprime nextprime ->
  (forall n, isprime n = true -> prime n) ->
  gengparam isprime nextprime rest fuel dd = Ok ts ->
  forall text, In text ts -> forall bl junk t, (forall n, List.length (junk n) = n) ->
  exists v, param_init_set_str bl junk (text ++ 0 :: t) = Ok {| ret := 0; ptyp := Some TG; vals := v |} /\
  let q := v (chars "q") in let r := v (chars "r") in let n := v (chars "n") in
  prime q /\ prime r /\ order_splits n (v (chars "h")) r /\ (r | Phi10 q) /\ (exists x, q = freeman_q x /\ n = freeman_q x + 1 - freeman_t x) /\
  v (chars "nk") = curve_order_extn q (q + 1 - n) 10 /\ v (chars "hk") * (r * r) = v (chars "nk") /\
  forall (K : fld) to_mpz is_sqr sqrt nqr0 hilbert d x src src2 fuel2, 3 < q -> 0 <= n -> fld_laws K -> has_order K q -> (forall c : K, fofz (to_mpz c) = c) ->
  good_roots K is_sqr sqrt -> nqr0 <> f0 -> 0 <= x ->
  monic (map fofz hilbert : list K) d -> (2 <= d)%nat -> (exists j : K, is_root (map fofz hilbert) j) -> ~ is_root (map fofz hilbert) (f0 : K) ->
  (forall c, cm_q c = q -> rest c = d_rest K to_mpz is_sqr sqrt isprime nextprime nqr0 hilbert x src src2 fuel2 c) ->
  let a : K := fofz (v (chars "a")) in let b : K := fofz (v (chars "b")) in let c : K := fofz (v (chars "nqr")) in
  let m : list K := [fofz (v (chars "coeff0")); fofz (v (chars "coeff1")); fofz (v (chars "coeff2")); fofz (v (chars "coeff3")); fofz (v (chars "coeff4")); f1] in
  let w := const K 5 m c in c <> f0 -> forall P Q, torsion K a b r P -> on_twist K 5 m c a b Q ->
  exists z : Quad (Ext K 5 m) w, fpow z r = f1 /\ forall i k, let P' := pzmul K a i P in let Q' := pzmul (Ext K 5 m) (fmul (fmul (const K 5 m a) w) w) k Q in
    P' = None \/ Q' = None \/ fpow z ((i * k) mod r) <> f1 -> pairing_apply (g_pairing K 5 m w a r q MillerAffine) P' Q' = Ok (fpow z ((i * k) mod r)).
Proof. exact gengparam_ok. Qed.
Print Assumptions gengparam_gives_pairing_partial.
Example gengparam_runs : gengparam isprime nextprime (fun _ => Ok (1, 2, [3; 4; 5; 6; 7], 8)) 100 283 = Ok [flat_map (fun s => chars s ++ [10])
    ["type g"; "q 8443"; "n 8261"; "h 11"; "r 751"; "a 1"; "b 2"; "nk 1840635918747630433569010157734276062607"; "hk 3263533076621549312091663237714607"; "coeff0 3"; "coeff1 4"; "coeff2 5"; "coeff3 6"; "coeff4 7"; "nqr 8"]%string].
Proof. exact run283. Qed.
Theorem gengparam_class_one_refuted : forall (K : fld) isprime nextprime fuel dd c hist found to_mpz is_sqr sqrt nqr0 j x src src2 fuel2, fld_laws K ->
  0 < dd -> dd mod 120 = 43 \/ dd mod 120 = 67 -> cm_search_g isprime nextprime (fun _ _ => 1) fuel dd 500 = Ok (c :: hist, found) ->
  gengparam isprime nextprime (d_rest K to_mpz is_sqr sqrt isprime nextprime nqr0 [j; 1] x src src2 fuel2) fuel dd = UB.
Proof. exact g_class_one. Qed.
Print Assumptions gengparam_class_one_refuted.

(** A run that does not fail prints exactly one set of parameters. *)
Theorem gengparam_prints_one : forall isprime nextprime rest fuel D ts, gengparam isprime nextprime rest fuel D = Ok ts -> List.length ts = 1%nat.
Proof. exact gengparam_one. Qed.
Print Assumptions gengparam_prints_one.
