(** C81: the programs genaparam, gena1param, geneparam and genfparam print parameters that the
    library reads back as a working pairing.  Primality tests are assumed to
    accept only primes; the random numbers are arbitrary; [bl], [junk] are the
    build and the initial contents of memory, as in C40. *)
From Coq Require Import ZArith Znumtheory List Bool String Lia.
From Verif.Base Require Import Outcome Algebra Slots.
From Verif.Spec Require Import CurveCalls ParamText ParamEqs FiniteField Quadratic Twist Curve HashToCurve CurveChoice PairingValue PairingValueE PairingValueF GenTools.
From Verif.Model Require Import Pairing PairingA PairingA1 PairingE PairingF CurveGen Param ParamGen GenTools.
From Verif.Proofs Require Import ZpField MntMain GenToolsFacts GenToolsE GenToolsF.
Import ListNotations.
Open Scope Z_scope.

(** Whatever follows the text in memory, it is read back with prime q and r, r
    of the wanted size up to 1, and the pairing set up from the numbers read is
    bilinear and non-degenerate, with both Miller methods. *)
Theorem genaparam_gives_pairing_partial : forall isprime fuel rbits rands hs text,
  (forall n, isprime n = true -> prime n) -> rand_ok rands -> 4 <= rbits < 2 ^ 31 ->
  genaparam isprime fuel rbits rands hs = Ok text ->
  forall bl junk t, (forall n, List.length (junk n) = n) ->
  exists v, param_init_set_str bl junk (text ++ 0 :: t) = Ok {| ret := 0; ptyp := Some TA; vals := v |} /\
  let q := v (chars "q") in let r := v (chars "r") in
  prime q /\ prime r /\ 2 ^ (rbits - 1) - 1 <= r < 2 ^ rbits /\ r * v (chars "h") = q + 1 /\
  forall K : fld, fld_laws K -> has_order K q -> curve_size K (q + 1) /\
  forall j m, let e := pairing_apply (a_pairing K (Ok j) (a_info_of (v (chars "h")) (v (chars "exp2")) (v (chars "exp1")) (v (chars "sign1"))) m) in
  bilinear K (Quad K (fopp f1)) r (torsion K f1 f0 r) e /\ nondegenerate K (Quad K (fopp f1)) (torsion K f1 f0 r) e.
Proof. exact genaparam_ok. Qed.
Print Assumptions genaparam_gives_pairing_partial.
(** Likewise for an odd order N, when the search stops before l leaves the C
    type int (see [a1_gen_large_l_refuted]). *)
Theorem gena1param_gives_pairing_partial : forall isprime fuel N text,
  (forall n, isprime n = true -> prime n) -> 2 < N -> Z.odd N = true -> Z.of_nat fuel < 2 ^ 29 ->
  gena1param isprime fuel N = Ok text ->
  forall bl junk t, (forall n, List.length (junk n) = n) ->
  exists v, param_init_set_str bl junk (text ++ 0 :: t) = Ok {| ret := 0; ptyp := Some TA1; vals := v |} /\
  let p := v (chars "p") in
  prime p /\ v (chars "n") = N /\ N * v (chars "l") = p + 1 /\
  forall K : fld, fld_laws K -> has_order K p -> curve_size K (p + 1) /\
  forall m, let e := pairing_apply (a1_pairing K (v (chars "n")) (v (chars "l")) m) in
  bilinear K (Quad K (fopp f1)) N (a1_input K N) e /\ nondegenerate K (Quad K (fopp f1)) (a1_input K N) e.
Proof. exact gena1param_ok. Qed.
Print Assumptions gena1param_gives_pairing_partial.
(** The field asked for exists. *)
Theorem generated_field_exists : forall q, prime q -> exists K : fld, fld_laws K /\ has_order K q.
Proof. exact field_exists. Qed.
Print Assumptions generated_field_exists.
(** Two runs, with an exact primality test. *)
Example genaparam_runs : (forall n, isprime n = true -> prime n) /\ rand_ok [0; 2; 0] /\ genaparam isprime 1 4 [0; 2; 0] [1] =
  Ok (flat_map (fun s => chars s ++ [10]) ["type a"; "q 83"; "h 12"; "r 7"; "exp2 4"; "exp1 3"; "sign1 -1"; "sign0 -1"]%string).
Proof. split; [intros n; apply isprime_spec|]. split; [repeat constructor; lia|vm_compute; reflexivity]. Qed.
Example gena1param_runs : gena1param isprime 1 15 = Ok (flat_map (fun s => chars s ++ [10]) ["type a1"; "p 59"; "n 15"; "l 4"]%string).
Proof. vm_compute. reflexivity. Qed.

(** RBITS is documented as the number of bits of r; r can be one bit shorter. *)
Theorem genaparam_bits_refuted : exists fuel rands hs text, rand_ok rands /\ genaparam isprime fuel 4 rands hs = Ok text /\
  forall bl junk, (forall n, List.length (junk n) = n) -> exists v, param_init_set_str bl junk (text ++ [0]) = Ok {| ret := 0; ptyp := Some TA; vals := v |} /\
  v (chars "r") < 2 ^ (4 - 1).
Proof. exact short_r. Qed.
Print Assumptions genaparam_bits_refuted.
(** With RBITS = 2 the program divides by zero when the first random number is
    odd. *)
Theorem genaparam_two_bits_refuted : forall isprime fuel c rands hs, Z.odd c = true -> 0 <= c -> rands <> [] ->
  genaparam isprime (S fuel) 2 (c :: rands) hs = UB.
Proof. exact two_bits. Qed.
Print Assumptions genaparam_two_bits_refuted.

(** QBITS is documented as the number of bits of q; q has at most one bit more,
    and can have one bit more or several bits less. *)
Theorem genaparam_q_size_partial : forall isprime fuel rbits qbits rands hs p, rand_ok rands -> cofactors_ok rbits qbits hs -> 4 <= rbits -> rbits + 6 <= qbits ->
  a_gen isprime fuel rbits rands hs = Ok p -> a_q p < 2 ^ (qbits + 1).
Proof. exact a_gen_q. Qed.
Print Assumptions genaparam_q_size_partial.
Theorem genaparam_q_long_refuted : exists rands hs p, rand_ok rands /\ cofactors_ok 4 10 hs /\ a_gen isprime 1 4 rands hs = Ok p /\ 2 ^ 10 <= a_q p.
Proof. exact q_long. Qed.
Print Assumptions genaparam_q_long_refuted.
Theorem genaparam_q_short_refuted : exists rands hs p, rand_ok rands /\ cofactors_ok 4 10 hs /\ a_gen isprime 1 4 rands hs = Ok p /\ a_q p < 2 ^ (10 - 3).
Proof. exact q_short. Qed.
Print Assumptions genaparam_q_short_refuted.

(** ** Type E *)
(** The text of geneparam is read back with primes q and r, q = h r^2 + 1; if
    the curve was chosen over F_q as in [e_rest] its equation is that of an
    elliptic curve, and the pairing is bilinear for every auxiliary point R such
    that r R has order at least 5.  Missing: non-degeneracy, and other R. *)
Theorem geneparam_gives_pairing_partial : forall isprime rest fuel rbits rands hs text,
  (forall n, isprime n = true -> prime n) -> rand_ok rands -> 4 <= rbits < 2 ^ 31 ->
  geneparam isprime rest fuel rbits rands hs = Ok text ->
  forall bl junk t, (forall n, List.length (junk n) = n) ->
  exists v, param_init_set_str bl junk (text ++ 0 :: t) = Ok {| ret := 0; ptyp := Some TE; vals := v |} /\
  let q := v (chars "q") in let r := v (chars "r") in
  prime q /\ prime r /\ 2 ^ (rbits - 1) - 1 <= r < 2 ^ rbits /\ q = v (chars "h") * r ^ 2 + 1 /\
  forall (K : fld) to_mpz is_sqr sqrt nqr x src, fld_laws K -> has_order K q -> (forall c : K, fofz (to_mpz c) = c) ->
  good_roots K is_sqr sqrt -> nqr <> f0 -> 0 <= x -> rest q (q - 1) = e_rest K to_mpz is_sqr sqrt nqr (q - 1) x src ->
  let a : K := fofz (v (chars "a")) in let b : K := fofz (v (chars "b")) in
  elliptic K a b /\ forall R, e_shift K a b r R -> (forall k, 0 < k < 5 -> pzmul K a (k * r) R <> None) -> forall m,
  bilinear_on K a b r (pairing_apply (e_pairing_rec K a
    {| ee2 := v (chars "exp2"); ee1 := v (chars "exp1"); es1 := v (chars "sign1"); es0 := v (chars "sign0") |} q r R m)).
Proof. exact geneparam_ok. Qed.
Print Assumptions geneparam_gives_pairing_partial.
Example geneparam_runs : rand_ok [0; 0; 0] /\ geneparam isprime (fun _ _ => Ok (0, 1)) 1 4 [0; 0; 0] [2] =
  Ok (flat_map (fun s => chars s ++ [10]) ["type e"; "q 2029"; "r 13"; "h 12"; "a 0"; "b 1"; "exp2 4"; "exp1 1"; "sign1 -1"; "sign0 -1"]%string).
Proof. split; [repeat constructor; lia|vm_compute; reflexivity]. Qed.
(** The multiples of a point killed by r are killed by r: the arguments above
    stay in the group. *)
Theorem torsion_multiples : forall K : fld, fld_laws K -> forall a b : K, elliptic K a b -> forall r, 0 <= r ->
  forall i P, torsion K a b r P -> torsion K a b r (pzmul K a i P).
Proof. exact torsion_mul. Qed.
Print Assumptions torsion_multiples.

(** ** Type F *)
(** The text of genfparam is read back with primes q and r of the family of
    Barreto and Naehrig; if b, beta and alpha were chosen over F_q as in
    [f_rest], then unless b = 0 the point that passed the test is O or has order r,
    and the pairing set up from the numbers read is bilinear.
    Missing: b = 0 (drawn with probability 1/q and not excluded by the code), and
    non-degeneracy. *)
Theorem genfparam_gives_pairing_partial : forall isprime nextprime rest fuel bits text, exact_primes isprime nextprime ->
  (forall n, isprime n = true -> prime n) ->
  genfparam isprime rest fuel bits = Ok text ->
  forall bl junk t, (forall n, List.length (junk n) = n) ->
  exists v, param_init_set_str bl junk (text ++ 0 :: t) = Ok {| ret := 0; ptyp := Some TF; vals := v |} /\
  let q := v (chars "q") in let r := v (chars "r") in
  prime q /\ prime r /\ (exists x, 2 ^ ((bits - 6) / 4) <= Z.abs x /\ q = bn_q x /\ r = bn_r x) /\
  forall (K : fld) beta to_mpz is_sqr sqrt is_sqr2 sqrt2 xs src x src2, fld_laws K -> has_order K q -> (forall c : K, fofz (to_mpz c) = c) ->
  ~ is_square beta -> good_roots K is_sqr sqrt -> good_roots (F2 K beta) is_sqr2 sqrt2 -> Forall (Z.le 0) xs -> 0 <= x ->
  rest q r = f_rest K beta to_mpz is_sqr sqrt is_sqr2 sqrt2 isprime nextprime q r xs src x src2 ->
  let b : K := fofz (v (chars "b")) in let alpha : F2 K beta := (fofz (v (chars "alpha0")), fofz (v (chars "alpha1"))) in
  fofz (v (chars "beta")) = beta /\ (b <> f0 ->
  (exists G y, In y xs /\ on_curve K f0 b G /\ G <> None /\ (pzmul K f0 y G = None \/ order_r K f0 b r (pzmul K f0 y G))) /\
  exists d, f_init K beta alpha q r = Ok d /\
  bilinear_two K (F2 K beta) (F12 K beta alpha) f0 f0 r (torsion K f0 b r) (on_f_twist K beta alpha b) (pairing_apply (f_pairing_rec K beta alpha d r))).
Proof. exact genfparam_ok. Qed.
Print Assumptions genfparam_gives_pairing_partial.
(** a run with the choices made over F_19 *)
Example genfparam_runs : genfparam isprime rest19 1 9 = Ok text19 /\ fld_laws F19 /\ has_order F19 19 /\ (forall c : F19, fofz (zval 19 c) = c) /\
  ~ is_square (c19 2) /\ good_roots F19 (is_sqr_in F19 e19) (sqrt_in F19 e19) /\ good_roots G19 (is_sqr_in G19 e361) (sqrt_in G19 e361).
Proof. exact (conj run19 F19_ok). Qed.
(** BITS is documented as the number of bits of r: asked for 9 bits the program
    can print an r of 4, and with BITS = 1 or 2 it stops. *)
Theorem genfparam_bits_refuted : genfparam isprime rest19 1 9 = Ok text19 /\
  forall bl junk, (forall n, List.length (junk n) = n) ->
  exists v, param_init_set_str bl junk (text19 ++ [0]) = Ok {| ret := 0; ptyp := Some TF; vals := v |} /\ v (chars "r") < 2 ^ 4.
Proof. exact (conj run19 f_bits). Qed.
Print Assumptions genfparam_bits_refuted.
Theorem genfparam_few_bits_refuted : forall isprime rest fuel bits, 1 <= bits <= 2 -> genfparam isprime rest fuel bits = Die.
Proof. exact f_tiny. Qed.
Print Assumptions genfparam_few_bits_refuted.
