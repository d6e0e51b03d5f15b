(** C72: the curves, extension polynomials and nonresidues chosen by the
    generators of types D, G, E and F.  element_random takes the next value of a
    source and OutOfFuel means that it ran out; a random point is a multiple, by
    the random integer x, of a generator drawn before; is_sqr and sqrt are those
    of the field ([good_roots]); mpz_probab_prime_p and mpz_nextprime are assumed
    exact.  [killed K a b n]: n times every point of Y^2 = X^3 + aX + b is the
    identity; [order_r K a b r P]: P is a point of that curve, of order r when r
    is prime; [has_j]: j-invariant; [twist_of]: quadratic twist. *)
From Coq Require Import ZArith Znumtheory List Bool Lia Arith.
From Verif.Base Require Import Outcome Algebra Slots.
From Verif.Spec Require Import FiniteField Polynomials Extension Quadratic Roots Curve CurveCalls HashToCurve CurveChoice Twist PairingValueD PairingValueF.
From Verif.Model Require Import PolyTests Curve CurveCodec CurveGen.
From Verif.Proofs Require Import ZpField FpWitness QuadWitness CurveWitness PolyTestsFacts PolySearchWitness PairingDWitness PairingFMain CurveGenOrders CurveGenFacts CurveGenF CurveGenMain CurveGenWitness CurveGenCases.
From Verif.Model Require Import CurveGen.
Import ListNotations.
Open Scope Z_scope.

(** ** Extension polynomial and nonresidue of types D and G *)
Theorem generated_extension_partial : forall K, fld_laws K -> forall p e, prime (Z.of_nat p) -> has_order K (Z.of_nat (p ^ e)) -> Z.odd (Z.of_nat (p ^ e)) = true ->
  forall isprime nextprime, exact_primes isprime nextprime -> forall d, (0 < d)%nat -> forall fuel src,
  (exists f c src', extension_gen K (Z.of_nat (p ^ e)) isprime nextprime fuel d src = Ok (f, c, src') /\
    monic f d /\ irreducible f /\ (c = f0 \/ ~ is_square (const K d f c))) \/
  extension_gen K (Z.of_nat (p ^ e)) isprime nextprime fuel d src = OutOfFuel.
Proof. exact (fun K HK p e Pp HO Od ip np H d Hd => gen_sound K HK p e Pp HO Od ip np (proj1 H) (proj2 H) d Hd). Qed.
Print Assumptions generated_extension_partial.

(** Which polynomial and which element: the first irreducible block of d
    coefficients, then the first value that is no nonzero square of the extension. *)
Theorem generated_extension_draw : forall K, fld_laws K -> forall p e, prime (Z.of_nat p) -> has_order K (Z.of_nat (p ^ e)) -> Z.odd (Z.of_nat (p ^ e)) = true ->
  forall isprime nextprime, exact_primes isprime nextprime -> forall d, (0 < d)%nat -> forall fuel (cs : list K), length cs = d ->
  let gen := fun f => extension_gen K (Z.of_nat (p ^ e)) isprime nextprime f d in
  (forall src, ~ irreducible (cs ++ [f1]) -> gen (S fuel) (cs ++ src) = gen fuel src) /\
  (forall c src, irreducible (cs ++ [f1]) -> c <> f0 -> is_square (const K d (cs ++ [f1]) c) -> gen (S fuel) (cs ++ c :: src) = gen (S fuel) (cs ++ src)) /\
  (forall c src, irreducible (cs ++ [f1]) -> (c = f0 \/ ~ is_square (const K d (cs ++ [f1]) c)) -> gen (S fuel) (cs ++ c :: src) = Ok (cs ++ [f1], c, src)).
Proof.
  exact (fun K HK p e Pp HO Od ip np H d Hd fuel cs L => conj (fun src => gen_skip K HK p e Pp HO ip np (proj1 H) (proj2 H) d Hd fuel cs src L)
    (conj (fun c src => gen_skip_square K HK p e Pp HO Od ip np (proj1 H) (proj2 H) d Hd fuel cs c src L)
          (fun c src => gen_draw K HK p e Pp HO Od ip np (proj1 H) (proj2 H) d Hd fuel cs c src L))).
Qed.
Print Assumptions generated_extension_draw.

(** So a zero drawn right after an irreducible polynomial becomes nqr. *)
Theorem generated_extension_refuted : forall isprime nextprime, exact_primes isprime nextprime ->
  extension_gen F 13 isprime nextprime 1 3 (cube13 ++ [f0]) = Ok (cube13 ++ [f1], f0, []) /\ is_square (const F 3 (cube13 ++ [f1]) f0).
Proof. exact (fun ip np H => nqr_zero ip np (proj1 H) (proj2 H)). Qed.
Print Assumptions generated_extension_refuted.

(** ** Cofactors stored by the generators divide exactly *)
Theorem generated_cofactor : forall q n r k, 1 <= k -> r <> 0 -> (r | n) -> (r | geo q (Z.to_nat k)) ->
  extension_cofactor q n r k * (r * r) = extension_order q n k /\ extension_order q n k = curve_order_extn q (q + 1 - n) k.
Proof. exact (fun q n r k H1 H2 H3 H4 => conj (cofactor_ok q n r k H1 H2 H3 H4) (extension_order_is q n k)). Qed.
Print Assumptions generated_cofactor.

Theorem generated_cofactor_d : forall q n r, r <> 0 -> (r | n) -> (r | q * q - q + 1) -> extension_cofactor q n r 6 * (r * r) = extension_order q n 6.
Proof. exact mnt_cofactor. Qed.
Print Assumptions generated_cofactor_d.
Theorem generated_cofactor_g : forall q n r, r <> 0 -> (r | n) -> (r | q ^ 4 - q ^ 3 + q ^ 2 - q + 1) -> extension_cofactor q n r 10 * (r * r) = extension_order q n 10.
Proof. exact freeman_cofactor. Qed.
Print Assumptions generated_cofactor_g.
Theorem generated_cofactor_f : forall q r, r <> 0 -> (r | q ^ 4 - q ^ 2 + 1) ->
  let n12 := q ^ 12 + 1 - trace_n q (q + 1 - r) 12 in n12 / (r * r) * (r * r) = n12.
Proof. exact bn_cofactor. Qed.
Print Assumptions generated_cofactor_f.

(** ** The curve or its twist (types D, G and E) *)
(** A curve whose points are all killed by n is kept; what is done in general
    is decided by one multiple of one point. *)
Theorem twist_choice : forall K, fld_laws K -> forall is_sqr sqrt, good_roots K is_sqr sqrt -> forall a b : K, elliptic K a b ->
  forall nqr n x src r, 0 <= n -> 0 <= x -> twist_if_wrong K is_sqr sqrt nqr a b n x src = Ok r ->
  exists G src', draw_point K is_sqr sqrt a b src = Ok (G, src') /\ on_curve K a b G /\ G <> None /\
  ((pzmul K a n (pzmul K a x G) = None /\ r = (a, b, src')) \/
   (pzmul K a n (pzmul K a x G) <> None /\ twist_of K nqr (a, b) (fst r))).
Proof. exact choice_ok. Qed.
Print Assumptions twist_choice.

Theorem right_curve_kept : forall K, fld_laws K -> forall is_sqr sqrt, good_roots K is_sqr sqrt -> forall a b : K, elliptic K a b ->
  forall nqr n x src a' b' s, 0 <= n -> 0 <= x -> killed K a b n -> twist_if_wrong K is_sqr sqrt nqr a b n x src = Ok (a', b', s) -> (a', b') = (a, b).
Proof. exact choice_right. Qed.
Print Assumptions right_curve_kept.

(** The random integer can be 0, and then the curve is kept whatever its order:
    here n = 11, the twist is killed by 11 and the curve kept is not. *)
Theorem twist_choice_refuted :
  (forall K, fld_laws K -> forall is_sqr sqrt, good_roots K is_sqr sqrt -> forall a b : K, elliptic K a b ->
   forall nqr n src G src', 0 <= n -> draw_point K is_sqr sqrt a b src = Ok (G, src') -> twist_if_wrong K is_sqr sqrt nqr a b n 0 src = Ok (a, b, src')) /\
  (cm_curve F 13 is_sqr13 sqrt13 (c13 2) [8; -9; 1] 11 0 [c13 5; c13 0; c13 2] = Ok (c13 6, c13 4, [c13 2]) /\ ~ killed F (c13 6) (c13 4) 11) /\
  (cm_curve F 13 is_sqr13 sqrt13 (c13 2) [8; -9; 1] 11 1 [c13 5; c13 0; c13 2] = Ok (c13 11, c13 6, []) /\ killed F (c13 11) (c13 6) 11).
Proof. exact (conj choice_zero runs13). Qed.
Print Assumptions twist_choice_refuted.

(** ** Curves from class polynomials *)
Theorem cm_curve_sound : forall K, fld_laws K -> forall p e, prime (Z.of_nat p) -> has_order K (Z.of_nat (p ^ e)) -> f2 K <> f0 -> f3 K <> f0 ->
  forall is_sqr sqrt, good_roots K is_sqr sqrt -> forall coeffs d, monic (map fofz coeffs : list K) d -> (2 <= d)%nat ->
  forall nqr n x src a b src', nqr <> f0 -> 0 <= n -> 0 <= x -> cm_curve K (Z.of_nat (p ^ e)) is_sqr sqrt nqr coeffs n x src = Ok (a, b, src') ->
  (exists j, is_root (map fofz coeffs) j /\ j <> fofz 1728 /\ has_j K a b j /\ (j <> f0 -> elliptic K a b)) \/
  ((~ exists j : K, is_root (map fofz coeffs) j) /\ a = f0 /\ b = f0).
Proof. exact cm_sound. Qed.
Print Assumptions cm_curve_sound.

(** Without a root, the singular curve Y^2 = X^3 is the answer; with a class
    polynomial of degree one, memory outside an array is written. *)
Theorem cm_curve_refuted :
  ((~ exists j : F, is_root (map fofz [-2; 0; 1]) j) /\
   cm_curve F 13 is_sqr13 sqrt13 (c13 2) [-2; 0; 1] 11 1 [c13 1; c13 4] = Ok (c13 0, c13 0, []) /\ ~ elliptic F (c13 0) (c13 0)) /\
  (forall K, fld_laws K -> forall order is_sqr sqrt nqr c n x src,
   cm_curve K order is_sqr sqrt nqr [c; 1] n x src = UB).
Proof. exact (conj none13 cm_linear). Qed.
Print Assumptions cm_curve_refuted.

(** ** Type E: Y^2 = X^3 + 1 or its twist *)
Theorem e_curve_choice : forall K, fld_laws K -> f2 K <> f0 -> f3 K <> f0 -> forall is_sqr sqrt, good_roots K is_sqr sqrt ->
  forall nqr n x src a b s, nqr <> f0 -> 0 <= n -> 0 <= x -> e_curve K is_sqr sqrt nqr n x src = Ok (a, b, s) ->
  elliptic K a b /\ (a, b) = (f0, f1) \/ elliptic K a b /\ a = f0 /\ b = fmul (fmul nqr nqr) nqr /\ ~ killed K f0 f1 n.
Proof. exact e_choice. Qed.
Print Assumptions e_curve_choice.

(** ** Type F *)
(** The b found is 0, or the point looked at was the identity or has order r. *)
Theorem f_curve_partial : forall K, fld_laws K -> f2 K <> f0 -> f3 K <> f0 -> forall is_sqr sqrt, good_roots K is_sqr sqrt ->
  forall r xs src b xs' src', 0 <= r -> Forall (Z.le 0) xs -> f_curve_loop K is_sqr sqrt r xs src = Ok (b, xs', src') ->
  b = f0 \/ exists G x, In x xs /\ on_curve K f0 b G /\ G <> None /\ (pzmul K f0 x G = None \/ order_r K f0 b r (pzmul K f0 x G)).
Proof. exact f_curve_sound. Qed.
Print Assumptions f_curve_partial.

Theorem f_curve_good_b : forall K, fld_laws K -> f2 K <> f0 -> f3 K <> f0 -> forall is_sqr sqrt, good_roots K is_sqr sqrt ->
  forall r x xs b src G src', 0 <= r -> 0 <= x -> b <> f0 -> killed K f0 b r -> draw_point K is_sqr sqrt f0 b src = Ok (G, src') ->
  f_curve_loop K is_sqr sqrt r (x :: xs) (b :: src) = Ok (b, xs, src').
Proof. exact f_curve_accepts. Qed.
Print Assumptions f_curve_good_b.

Theorem f_curve_refuted : f_curve_loop F is_sqr13 sqrt13 7 [0] [c13 3; c13 0] = Ok (c13 3, [], []) /\
  (forall P, ~ order_r F f0 (c13 3) 7 P) /\ killed F f0 (c13 6) 7.
Proof. exact f13_zero. Qed.
Print Assumptions f_curve_refuted.

(** x^6 + alpha, before and after the fifth power, is irreducible. *)
Theorem f_sextic : forall L, fld_laws L -> forall p e, prime (Z.of_nat p) -> has_order L (Z.of_nat (p ^ e)) ->
  forall isprime nextprime, exact_primes isprime nextprime -> f2 L <> f0 -> f3 L <> f0 ->
  forall is_sqr sqrt, good_roots L is_sqr sqrt ->
  forall b q t r x src alpha' src', b <> f0 -> 0 <= x -> 0 <= (q ^ 12 + 1 - trace_n q t 12) / (r * r) ->
  sextic_gen L (Z.of_nat (p ^ e)) isprime nextprime is_sqr sqrt b q t r x src = Ok (alpha', src') ->
  irreducible (CurveGen.sextic L alpha') /\
  exists alpha G, irreducible (CurveGen.sextic L alpha) /\ on_curve L f0 (fopp (fmul b alpha)) G /\ G <> None /\
  let P := pzmul L f0 ((q ^ 12 + 1 - trace_n q t 12) / (r * r)) (pzmul L f0 x G) in
  (P <> None /\ alpha' = alpha) \/ (P = None /\ alpha' = fifth L alpha).
Proof. exact (fun L HL p e Pp HO ip np H => sextic_ok L HL p e Pp HO ip np (proj1 H) (proj2 H)). Qed.
Print Assumptions f_sextic.

(** When alpha is kept and the twist is killed by the number the code takes for
    its order, the twist has a point of order r. *)
Theorem f_twist_order_partial : forall L, fld_laws L -> forall b q t r (alpha : L) G x, let E' := fopp (fmul b alpha) in let n12 := q ^ 12 + 1 - trace_n q t 12 in
  elliptic L f0 E' -> 0 < r -> 0 <= n12 -> 0 <= x -> n12 / (r * r) * (r * r) = n12 -> killed L f0 E' n12 -> on_curve L f0 E' G ->
  pzmul L f0 (n12 / (r * r)) (pzmul L f0 x G) <> None -> exists Q, order_r L f0 E' r Q.
Proof. exact kept_order. Qed.
Print Assumptions f_twist_order_partial.

(** With x = 0 the wrong twist is taken: over F_49, q = 7, r = 13. *)
Theorem f_twist_refuted : forall isprime nextprime, exact_primes isprime nextprime ->
  (exists s, gen49 isprime nextprime 1 = Ok (a49, s)) /\ (exists Q, order_r M49 f0 (b49 a49) 13 Q) /\
  (exists s, gen49 isprime nextprime 0 = Ok (fifth M49 a49, s)) /\ (forall Q, ~ order_r M49 f0 (b49 (fifth M49 a49)) 13 Q).
Proof. exact (fun ip np H => twists49 ip np (proj1 H) (proj2 H)). Qed.
Print Assumptions f_twist_refuted.

(** ** What is chosen meets the requirements of the pairings (C36, C38, C39) *)
Theorem d_parameters_usable : forall K, fld_laws K -> forall q, prime q -> 3 < q -> has_order K q ->
  forall isprime nextprime, exact_primes isprime nextprime -> forall is_sqr sqrt, good_roots K is_sqr sqrt ->
  forall r fuel src m c src', prime r -> 2 < r -> (r | q * q - q + 1) ->
  extension_gen K q isprime nextprime fuel 3 src = Ok (m, c, src') -> c <> f0 ->
  forall nqr coeffs d N x src2 a b src3, nqr <> f0 -> 0 <= N -> 0 <= x -> monic (map fofz coeffs : list K) d -> (2 <= d)%nat ->
  (exists j : K, is_root (map fofz coeffs) j) -> ~ is_root (map fofz coeffs) (f0 : K) ->
  cm_curve K q is_sqr sqrt nqr coeffs N x src2 = Ok (a, b, src3) ->
  type_d K 3 m c a b q r.
Proof. exact (fun K HK q Pq Q3 HO ip np H => d_generated K HK q Pq Q3 HO ip np (proj1 H) (proj2 H)). Qed.
Print Assumptions d_parameters_usable.

Theorem g_parameters_usable : forall K, fld_laws K -> forall q, prime q -> 3 < q -> has_order K q ->
  forall isprime nextprime, exact_primes isprime nextprime -> forall is_sqr sqrt, good_roots K is_sqr sqrt ->
  forall r fuel src m c src', prime r -> 2 < r -> (r | 1 - q + q * q - q * q * q + q * q * q * q) ->
  extension_gen K q isprime nextprime fuel 5 src = Ok (m, c, src') -> c <> f0 ->
  forall nqr coeffs d N x src2 a b src3, nqr <> f0 -> 0 <= N -> 0 <= x -> monic (map fofz coeffs : list K) d -> (2 <= d)%nat ->
  (exists j : K, is_root (map fofz coeffs) j) -> ~ is_root (map fofz coeffs) (f0 : K) ->
  cm_curve K q is_sqr sqrt nqr coeffs N x src2 = Ok (a, b, src3) ->
  type_g K m c a b q r.
Proof. exact (fun K HK q Pq Q3 HO ip np H => g_generated K HK q Pq Q3 HO ip np (proj1 H) (proj2 H)). Qed.
Print Assumptions g_parameters_usable.

Theorem f_parameters_usable : forall K, fld_laws K -> forall q, prime q -> 3 < q -> has_order K q ->
  forall isprime nextprime, exact_primes isprime nextprime -> forall beta : K, ~ is_square beta ->
  forall is_sqr sqrt, good_roots (F2 K beta) is_sqr sqrt ->
  forall r b t x src alpha src', prime r -> 2 < r -> (r | q ^ 4 - q ^ 2 + 1) -> b <> f0 -> 0 <= x ->
  0 <= q ^ 12 + 1 - trace_n q t 12 ->
  sextic_gen (F2 K beta) (q * q) isprime nextprime is_sqr sqrt (low K beta b) q t r x src = Ok (alpha, src') ->
  type_f K beta alpha b q r.
Proof. exact (fun K HK q Pq Q3 HO ip np H => f_generated K HK q Pq Q3 HO ip np (proj1 H) (proj2 H)). Qed.
Print Assumptions f_parameters_usable.

(** Whole runs: type D over F_13 with r = 157, type F over F_7 with r = 13. *)
Example generated_case : forall isprime nextprime, exact_primes isprime nextprime ->
  extension_gen F 13 isprime nextprime 1 3 (cube13 ++ [c13 2]) = Ok (cube13 ++ [f1], c13 2, []) /\
  type_d F 3 (cube13 ++ [f1]) (c13 2) (c13 11) (c13 6) 13 157 /\
  (exists s, gen49 isprime nextprime 1 = Ok (a49, s)) /\ type_f F7 (e7 3) a49 (e7 3) 7 13.
Proof. exact (fun ip np H => whole_cases ip np (proj1 H) (proj2 H)). Qed.
