(** C81: the program gendparam. *)
From Coq Require Import ZArith Znumtheory List Bool String Lia.
From Verif.Base Require Import Outcome Algebra Slots.
From Verif.Spec Require Import ParamText FiniteField Polynomials Roots Extension Quadratic Twist Curve HashToCurve CurveChoice CMCurves PairingValue PairingValueD GenTools.
From Verif.Model Require Import CurveCodec Pairing PairingA PairingD Mnt CurveGen Param GenTools GenToolsD.
From Verif.Proofs Require Import CurveGenOrders ZpField MntMain GenToolsF GenToolsD GenToolsOne.
Import ListNotations.
Open Scope Z_scope.

(** Every text printed by gendparam D is read back with primes q and r, n = h r,
    4q - t^2 = D V^2, embedding degree 6, and nk, hk as announced; if the curve
    and the extension were chosen over F_q as in [d_rest], from a monic class
    polynomial of degree at least 2 with a root in F_q, other than 0, the
    pairing set up from the numbers read is bilinear.  Missing: 3 D >= 2^32
    (refuted, C43), linear class polynomials (refuted, C72), j = 0, a
    nonresidue 0, and non-degeneracy. *)
Theorem gendparam_gives_pairing_partial : forall isprime nextprime rest fuel dd ts, exact_primes isprime nextprime ->
  (forall n, isprime n = true -> prime n) -> 3 * dd < 2 ^ 32 ->
  gendparam isprime nextprime rest fuel dd = Ok ts ->
  forall text, In text ts -> forall bl junk t, (forall n, List.length (junk n) = n) ->
  exists v, param_init_set_str bl junk (text ++ 0 :: t) = Ok {| ret := 0; ptyp := Some TD; vals := v |} /\
  let q := v (chars "q") in let r := v (chars "r") in let n := v (chars "n") in
  prime q /\ prime r /\ order_splits n (v (chars "h")) r /\ cm_equation q n dd /\ v (chars "k") = 6 /\ (r | Phi6 q) /\
  v (chars "nk") = curve_order_extn q (q + 1 - n) 6 /\ v (chars "hk") * (r * r) = v (chars "nk") /\
  forall (K : fld) to_mpz is_sqr sqrt nqr0 hilbert d x src src2 fuel2, 3 < q -> 0 <= n -> fld_laws K -> has_order K q -> (forall c : K, fofz (to_mpz c) = c) ->
  good_roots K is_sqr sqrt -> nqr0 <> f0 -> 0 <= x ->
  monic (map fofz hilbert : list K) d -> (2 <= d)%nat -> (exists j : K, is_root (map fofz hilbert) j) -> ~ is_root (map fofz hilbert) (f0 : K) ->
  (forall c, cm_q c = q -> rest c = d_rest K to_mpz is_sqr sqrt isprime nextprime nqr0 hilbert x src src2 fuel2 c) ->
  let a : K := fofz (v (chars "a")) in let b : K := fofz (v (chars "b")) in let c : K := fofz (v (chars "nqr")) in
  let m : list K := [fofz (v (chars "coeff0")); fofz (v (chars "coeff1")); fofz (v (chars "coeff2")); f1] in let w := const K 3 m c in
  c <> f0 -> bilinear_two K (Ext K 3 m) (Quad (Ext K 3 m) w) a (fmul (fmul (const K 3 m a) w) w) r (torsion K a b r) (on_twist K 3 m c a b)
    (pairing_apply (d_pairing K 3 m w a r (v (chars "k")) q MillerAffine)).
Proof. exact gendparam_ok. Qed.
Print Assumptions gendparam_gives_pairing_partial.
(** a run with D = 59 and the choices made over F_17 *)
Example gendparam_runs : gendparam isprime nextprime rest17 100 59 = Ok [flat_map (fun s => chars s ++ [10])
    ["type d"; "q 17"; "n 21"; "h 3"; "r 7"; "a 6"; "b 12"; "k 6"; "nk 24131520"; "hk 492480"; "coeff0 3"; "coeff1 1"; "coeff2 0"; "nqr 3"]%string] /\
  fld_laws F17 /\ has_order F17 17 /\ (forall c : F17, fofz (zval 17 c) = c) /\ good_roots F17 (is_sqr_in F17 e17) (sqrt_in F17 e17) /\ c17 3 <> f0 /\
  monic (map fofz h59 : list F17) 3 /\ (exists j : F17, is_root (map fofz h59) j) /\ ~ is_root (map fofz h59) (f0 : F17).
Proof. exact (conj run17 F17_ok). Qed.

(** D = 11 is accepted, but its class polynomial x + 32768 is linear. *)
Theorem gendparam_class_one_refuted : forall (K : fld) to_mpz is_sqr sqrt nqr0 x src src2 fuel2, fld_laws K ->
  gendparam isprime nextprime (d_rest K to_mpz is_sqr sqrt isprime nextprime nqr0 [32768; 1] x src src2 fuel2) 100 11 = UB.
Proof. exact class_one. Qed.
Print Assumptions gendparam_class_one_refuted.
(** For D = 1431655963, 3 D does not fit an unsigned int and the program prints
    parameters that do not belong to D, whatever the choice of the curve. *)
Theorem gendparam_large_discriminant_refuted : forall rest a b co nq, rest bad_d = Ok (a, b, co, nq) -> exists text, gendparam isprime nextprime rest 100 1431655963 = Ok [text] /\
  forall bl junk, (forall n, List.length (junk n) = n) -> exists v, param_init_set_str bl junk (text ++ [0]) = Ok {| ret := 0; ptyp := Some TD; vals := v |} /\
  ~ cm_equation (v (chars "q")) (v (chars "n")) 1431655963.
Proof. exact large_D. Qed.
Print Assumptions gendparam_large_discriminant_refuted.

(** A run that does not fail prints exactly one set of parameters. *)
Theorem gendparam_prints_one : forall isprime nextprime rest fuel D ts, gendparam isprime nextprime rest fuel D = Ok ts -> List.length ts = 1%nat.
Proof. exact gendparam_one. Qed.
Print Assumptions gendparam_prints_one.
