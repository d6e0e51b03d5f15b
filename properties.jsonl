{"id": "C01", "title": "Prime-field arithmetic (default Montgomery back-end) is exact", "statement": "For an F_p field created with field_init_fp on an odd modulus wider than one machine word (the default back-end), element_set_mpz/set_si/add/sub/neg/double/halve/mul/square followed by element_to_mpz give exactly the residue modulo p that integer arithmetic gives, whatever the number of limbs, carries and final-subtraction branches taken.", "quantifier": "every odd modulus of every limb length, every pair of elements, every stale content of the output element", "why_tests_cant": "The wrong-carry and equal-to-modulus branches of limb arithmetic are hit with probability about 2^-64 per operation; the input space is unbounded.", "anchors": ["arith/montfp.c: fp_add, fp_sub, fp_neg, fp_double, fp_halve, fp_mul, mont_mul, mont_reduce, fp_set_mpz, fp_to_mpz, fp_set_si", "arith/fp.c: field_init_fp"]}
{"id": "C02", "title": "Choice of F_p back-end is unobservable", "statement": "For any finite sequence of element API calls (set0/set1/set_si/set_mpz/set/add/sub/neg/double/halve/mul/square/mul_mpz/pow_mpz/invert) on any number of elements, element_to_mpz, element_to_bytes, element_is0, element_is1 and element_sign observe the same values whether the field is implemented by naivefp, fastfp, fasterfp or montfp (pbc_tweak_use_fp, or dispatch on the size of the modulus).", "quantifier": "every modulus accepted by the back-ends concerned, every history of API calls on every number of elements", "why_tests_cant": "Needs a simulation over unbounded call histories and all moduli; a test only samples histories.", "anchors": ["arith/naivefp.c", "arith/fastfp.c", "arith/fasterfp.c", "arith/montfp.c", "arith/fp.c: field_init_fp, pbc_tweak_use_fp"]}
{"id": "C03", "title": "Inversion and division in prime fields", "statement": "element_invert of a non-zero element of F_p (p prime) returns the unique element whose product with the argument is 1, and element_div(c,a,b) returns the unique c with c*b = a, in every back-end.", "quantifier": "every prime modulus, every non-zero element", "why_tests_cant": "Quantifies over all primes and all residues; Montgomery inversion depends on the R^3 correction being right for every limb count.", "anchors": ["arith/montfp.c: fp_invert", "arith/naivefp.c: zp_invert", "arith/fastfp.c: fp_invert", "arith/fasterfp.c: fp_invert", "arith/field.c: generic_div"]}
{"id": "C04", "title": "element_cmp, element_is0 and element_is1 decide equality of field values", "statement": "element_cmp(a,b) returns 0 exactly when a and b denote the same field value; element_is0 / element_is1 hold exactly for the values 0 and 1, independently of how the elements were computed.", "quantifier": "every pair of elements reachable by any history of calls, in every F_p back-end", "why_tests_cant": "The result may depend on stale limbs left by earlier operations, so every history matters.", "anchors": ["arith/montfp.c: fp_cmp, fp_is0, fp_is1", "arith/fasterfp.c: fp_cmp", "arith/fastfp.c: fp_cmp", "arith/naivefp.c: zp_cmp"]}
{"id": "C05", "title": "Serialisation of prime-field elements round-trips", "statement": "element_to_bytes writes exactly element_length_in_bytes bytes, the fixed-width big-endian encoding of the residue; element_from_bytes applied to it restores the same element and reports the same length; distinct elements have distinct encodings.", "quantifier": "every modulus, every element, every back-end", "why_tests_cant": "Leading-zero padding and multi-limb export only go wrong for particular magnitudes of particular moduli.", "anchors": ["arith/montfp.c: fp_to_bytes, fp_from_bytes", "arith/naivefp.c: zp_to_bytes, zp_from_bytes", "arith/fastfp.c: fp_to_bytes, fp_from_bytes", "arith/fasterfp.c: fp_to_bytes, fp_from_bytes", "arith/field.c: pbc_mpz_out_raw_n"]}
{"id": "C06", "title": "Decoding arbitrary bytes yields a reduced field element", "statement": "element_from_bytes on any byte string of the right length yields an element that behaves as the residue of the encoded integer: it compares equal to the reduced element and subsequent arithmetic is exact.", "quantifier": "every byte string of length element_length_in_bytes, every modulus and back-end", "why_tests_cant": "Adversarial encodings (values >= p, multiples of p) are a vanishing fraction of random inputs.", "anchors": ["arith/naivefp.c: zp_from_bytes", "arith/montfp.c: fp_from_bytes", "arith/fasterfp.c: fp_from_bytes", "arith/fastfp.c: fp_from_bytes"]}
{"id": "C07", "title": "element_pow_mpz computes the n-th power", "statement": "For every non-negative integer n and every element a of any group/ring using the generic exponentiation, element_pow_mpz(x,a,n) sets x to a multiplied by itself n times (1 when n = 0), whatever sliding-window width is selected by the size of n.", "quantifier": "every monoid, every element, every n >= 0 (all window widths 1..8)", "why_tests_cant": "Window widths above 5 only occur for exponents of hundreds to thousands of bits; zero-runs at word boundaries depend on the bit pattern.", "anchors": ["arith/field.c: generic_pow_mpz, element_pow_wind, build_pow_window, optimal_pow_window_size"]}
{"id": "C08", "title": "element_pow2_zn / element_pow3_zn compute products of powers", "statement": "element_pow2_mpz(x,a1,n1,a2,n2) = a1^n1 * a2^n2 and element_pow3_mpz(x,a1,n1,a2,n2,a3,n3) = a1^n1 a2^n2 a3^n3 in every commutative structure, for exponents of different lengths including zero.", "quantifier": "every commutative monoid, all elements, all non-negative exponents", "why_tests_cant": "All combinations of exponent lengths and bit patterns.", "anchors": ["arith/field.c: element_pow2_mpz, element_pow3_mpz"]}
{"id": "C09", "title": "Preprocessed exponentiation agrees with plain exponentiation", "statement": "In a group whose exponent divides the declared field order, element_pp_pow(out,n,pp) for pp initialised from a equals element_pow_mpz(a,n) for every n >= 0, including n larger than the group order.", "quantifier": "every group, declared order, element and n >= 0", "why_tests_cant": "The table walk handles every bit pattern; reduction modulo the order only matters for huge n.", "anchors": ["arith/field.c: element_build_base_table, element_pow_base_table, default_element_pp_init, default_element_pp_pow"]}
{"id": "C10", "title": "Square roots in finite fields", "statement": "For odd q, if a is a square then the generic element_sqrt returns s with s*s = a whatever random non-residue was drawn, and element_is_sqr returns true exactly for the squares.", "quantifier": "every finite field of odd order, every square a, every quadratic non-residue supplied by the random source", "why_tests_cant": "The Tonelli-Shanks loop depends on the 2-adic valuation of q-1 and the residue drawn at random.", "anchors": ["arith/field.c: element_tonelli, field_gen_nqr, generic_is_sqr", "arith/naivefp.c: zp_is_sqr", "arith/montfp.c: fp_is_sqr"]}
{"id": "C11", "title": "Sign of a field element", "statement": "In F_p with p odd, element_sign(a) is 0 exactly when a = 0, and element_sign(-a) = -element_sign(a) otherwise, so compressed points select one of the two roots unambiguously.", "quantifier": "every odd modulus and every element in every back-end", "why_tests_cant": "Parity after negation must flip for all residues of all odd moduli.", "anchors": ["arith/naivefp.c: zp_sgn_odd", "arith/montfp.c: fp_sgn_odd", "arith/fasterfp.c: fp_sgn_odd", "arith/fastfp.c: fp_sgn_even"]}
{"id": "C12", "title": "Text form of numbers round-trips", "statement": "Parsing the decimal (or any base 2..36) text of a non-negative integer with element_set_str recovers the integer and returns the number of characters of the numeral; preceding white space is skipped and the parser stops at the first character that is not a digit of the base.", "quantifier": "every base, every number, every surrounding text", "why_tests_cant": "Unbounded strings.", "anchors": ["arith/field.c: pbc_mpz_set_str"]}
{"id": "C13", "title": "Hashing to a field element is deterministic and in range", "statement": "pbc_mpz_from_hash produces a value determined only by the hash bytes and the limit, not exceeding the limit, and element_from_hash gives a field element (a residue below the modulus) for every hash string and length, in every back-end.", "quantifier": "every byte string of positive length, every modulus", "why_tests_cant": "Boundary value equal to the modulus occurs with negligible probability for real moduli.", "anchors": ["arith/field.c: pbc_mpz_from_hash", "arith/naivefp.c: zp_from_hash", "arith/montfp.c: fp_from_hash"]}
{"id": "C14", "title": "Random scalars are exactly uniform below the limit", "statement": "The file-based random source returns a value r with 0 <= r < limit, and every value below the limit is produced by exactly the same number of raw byte blocks, so the output is uniform if the source bytes are.", "quantifier": "every positive limit, every byte stream", "why_tests_cant": "Uniformity is a statement about the whole input space; no finite sample shows it.", "anchors": ["arith/random.c: file_mpz_random, pbc_mpz_random, pbc_mpz_randomb"]}
{"id": "C15", "title": "The integer ring Z", "statement": "element operations on a field_init_z structure (add, sub, mul, neg, square, double, halve, mul_si, mul_mpz, pow, invert, is_sqr, cmp, sign) are the exact integer operations.", "quantifier": "all integers", "why_tests_cant": "Unbounded integers; division by two must be exact for all even values.", "anchors": ["arith/z.c"]}
{"id": "C16", "title": "Serialisation of integers in Z", "statement": "element_to_bytes on Z writes exactly element_length_in_bytes bytes and element_from_bytes restores the integer and consumes the same number of bytes.", "quantifier": "all integers", "why_tests_cant": "Off-by-one only for bit lengths that are multiples of 8, zero and negatives.", "anchors": ["arith/z.c: z_to_bytes, z_from_bytes, z_length_in_bytes"]}
{"id": "C17", "title": "Multi-dimensional integers (multiz) behave as nested polynomials", "statement": "multiz add, sub, neg and mul compute the coefficient-wise sum, difference, negation and convolution for every nesting of the operands; different values have different byte encodings.", "quantifier": "all (finite, arbitrarily nested) multiz values", "why_tests_cant": "Unbounded nesting and mixed shapes.", "anchors": ["arith/multiz.c: multiz_new_add, multiz_new_bin, multiz_new_mul, mulz, f_sub", "arith/multiz.c: z_to_bytes, z_length_in_bytes, field_init_multiz"]}
{"id": "C18", "title": "Quadratic extension arithmetic", "statement": "In field_init_quadratic(Fq) and field_init_fi(Fq), add/sub/neg/double/mul/square/mul_mpz/mul_si/halve/invert/div compute exactly the operations of Fq[sqrt(d)] (d = nqr, resp. -1), also when output and input elements are the same object; invert returns the inverse of every non-zero element when d is a non-square.", "quantifier": "every base field, every non-square d, all elements, every aliasing of arguments", "why_tests_cant": "Karatsuba/complex formulas with in-place temporaries: all elements and all alias patterns.", "anchors": ["arith/fieldquadratic.c: fq_mul, fq_square, fq_invert, fi_mul, fi_square, fi_invert"]}
{"id": "C19", "title": "Square roots in quadratic extensions", "statement": "element_is_sqr on a quadratic extension tells whether a square root exists, and element_sqrt of a square returns an element whose square is the input.", "quantifier": "every quadratic extension, every element", "why_tests_cant": "Elements of the base field that are non-residues there are a set of measure about 1/q.", "anchors": ["arith/fieldquadratic.c: fq_is_sqr, fq_sqrt, fi_is_sqr, fi_sqrt"]}
{"id": "C20", "title": "Polynomials stay normalised", "statement": "After every polynomial API call the leading coefficient is non-zero, so that poly_degree, element_cmp, element_is0 and element_is1 on polynomials are meaningful.", "quantifier": "every coefficient field and every history of polynomial operations", "why_tests_cant": "Cancellation of leading terms depends on values and characteristic.", "anchors": ["arith/poly.c: poly_add, poly_sub, poly_mul, poly_neg, poly_double, poly_mul_mpz, poly_mul_si, poly_from_bytes, poly_remove_leading_zeroes, poly_div"]}
{"id": "C21", "title": "Polynomial ring arithmetic and division", "statement": "poly add/sub/mul compute the coefficient sums and convolutions; poly_div returns quotient and remainder with a = q*b + r and deg r < deg b; poly_gcd divides both arguments; poly_invert returns an inverse modulo the given polynomial whenever the gcd is constant.", "quantifier": "every coefficient field and all polynomials (any degree)", "why_tests_cant": "Unbounded degrees and arbitrary cancellations.", "anchors": ["arith/poly.c: poly_add, poly_sub, poly_mul, poly_div, poly_gcd, poly_invert"]}
{"id": "C22", "title": "Arithmetic in polynomial extension fields", "statement": "In field_init_polymod(f) with f monic, multiplication and squaring (the specialised degree 3 and 6 code as well as the generic code) compute the product of polynomials reduced modulo f, for any aliasing of arguments.", "quantifier": "every base field, every monic modulus of degree >= 1, all elements", "why_tests_cant": "The specialised Toom/Karatsuba formulas must agree with schoolbook multiplication for every coefficient vector.", "anchors": ["arith/poly.c: polymod_mul, polymod_mul_degree3, polymod_mul_degree6, polymod_square, polymod_square_degree3, kar_poly_2, compute_x_powers"]}
{"id": "C23", "title": "Inversion in polynomial extension fields", "statement": "element_invert of a non-zero element of field_init_polymod(f), f irreducible, returns its inverse.", "quantifier": "every irreducible modulus and every non-zero element", "why_tests_cant": "Extended Euclid over all degree patterns.", "anchors": ["arith/poly.c: polymod_invert, poly_invert"]}
{"id": "C24", "title": "Elliptic-curve operations stay on the curve", "statement": "add, double, neg, sub, scalar multiplication of points satisfying y^2 = x^3 + ax + b give points satisfying the equation or the point at infinity, and never divide by zero.", "quantifier": "every elliptic curve over a field of characteristic not 2, every history of calls on points of the curve, registers coinciding or not", "why_tests_cant": "All exceptional-case combinations (equal, opposite, 2-torsion, infinity) over all fields.", "anchors": ["ecc/curve.c: curve_mul, curve_double, double_no_check, curve_invert, curve_is_valid_point"]}
{"id": "C25", "title": "Curve points form a commutative group", "statement": "Point addition is associative and commutative, O is neutral and element_neg gives inverses.", "quantifier": "every elliptic curve over a field of characteristic not 2, all triples of points", "why_tests_cant": "Associativity is a universally quantified rational identity with many degenerate cases.", "anchors": ["ecc/curve.c: curve_mul, curve_double, curve_invert"]}
{"id": "C26", "title": "Scalar multiplication is a homomorphism", "statement": "element_mul_mpz/element_pow_mpz on curve points gives n-fold addition; hence [m+n]P = [m]P+[n]P, [mn]P = [m]([n]P), [n](P+Q) = [n]P+[n]Q, and exponents may be reduced modulo the order of P.", "quantifier": "every curve, all points, all non-negative scalars", "why_tests_cant": "Universal over scalars and points.", "anchors": ["ecc/curve.c: field_init_curve_ab", "arith/field.c: generic_pow_mpz"]}
{"id": "C27", "title": "Point serialisation round-trips", "statement": "Uncompressed, compressed and x-only encodings of a finite point decode to that point (x-only: to the point or its negative), with the documented lengths; the point at infinity also round-trips.", "quantifier": "every field, curve and point", "why_tests_cant": "All points including 2-torsion and O; sign disambiguation must be right for every y.", "anchors": ["ecc/curve.c: curve_to_bytes, curve_from_bytes, element_to_bytes_compressed, element_from_bytes_compressed, element_to_bytes_x_only, element_from_bytes_x_only, point_from_x"]}
{"id": "C28", "title": "Hashing to a curve point is well defined", "statement": "When element_from_hash on a curve terminates, the result is on the curve, lies in the cofactor-cleared subgroup, and depends only on the hash bytes and the curve, not on the random non-residue or square-root choice.", "quantifier": "every curve and hash string, every behaviour of the random source", "why_tests_cant": "Depends on an internal random choice: no test can range over all choices.", "anchors": ["ecc/curve.c: curve_from_hash, curve_set_gen_no_cofac"]}
{"id": "C29", "title": "Batch point operations equal individual operations", "statement": "element_multi_double and element_multi_add give, at each index, exactly the result of element_double / element_add on that index.", "quantifier": "every n and every vector of points, including O, 2-torsion, equal and opposite points", "why_tests_cant": "The batch shares one inversion, so one exceptional entry can corrupt the others; all vectors must be considered.", "anchors": ["ecc/curve.c: multi_double, multi_add"]}
{"id": "C30", "title": "Curve order over extension fields", "statement": "pbc_mpz_trace_n and pbc_mpz_curve_order_extn compute q^k + 1 - (alpha^k + beta^k) where alpha, beta are the roots of X^2 - tX + q.", "quantifier": "all q, t, k >= 1", "why_tests_cant": "All k.", "anchors": ["ecc/curve.c: pbc_mpz_trace_n, pbc_mpz_curve_order_extn"]}
{"id": "C31", "title": "Type A: all pairing methods give the same value", "statement": "For type A parameters, pairing_apply with method miller (projective), with method miller-affine, and pairing_pp_apply after pairing_pp_init return the same GT element.", "quantifier": "every prime q = 3 mod 4, every prime r = 2^a +- 2^b +- 1 above 5 dividing q+1, all points P of order r and all points Q", "why_tests_cant": "Universal over parameters and points; equality holds only after the final exponentiation removes scale factors.", "anchors": ["ecc/a_param.c: a_pairing_proj, a_pairing_affine, a_pairing_pp_init, a_pairing_pp_apply, a_tateexp"]}
{"id": "C32", "title": "Pairing values lie in the order-r subgroup", "statement": "For type A, the pairing output raised to the power r is 1 for all inputs.", "quantifier": "all type A parameters and points", "why_tests_cant": "Universal.", "anchors": ["ecc/a_param.c: a_tateexp, lucas_odd, a_pairing_proj"]}
{"id": "C33", "title": "Lucas-sequence final exponentiation is a power", "statement": "The final exponentiation used by type A (even cofactor) and types D and G (odd cofactor) raises every norm-1 element to the required power.", "quantifier": "every base field, every norm-1 element, every cofactor of the required parity", "why_tests_cant": "The Lucas chain must be right for every bit pattern of the cofactor.", "anchors": ["ecc/a_param.c: lucas_odd, a_tateexp", "ecc/d_param.c: lucas_even, cc_tatepower", "ecc/g_param.c: lucas_even, tatepower10"]}
{"id": "C34", "title": "Pairings with the identity and products of pairings", "statement": "e(O,Q) = e(P,O) = 1, and element_prod_pairing(out,in1,in2,n) equals the product of the individual pairings, for every n, including when some inputs are the identity.", "quantifier": "every n, all vectors of inputs", "why_tests_cant": "Universal over vectors, including identity entries.", "anchors": ["include/pbc_pairing.h: pairing_apply, element_pairing, element_prod_pairing, pairing_pp_apply", "ecc/a_param.c: a_pairings_affine", "ecc/pairing.c: default_pairings"]}
{"id": "C35", "title": "Type A1: all pairing methods give the same value", "statement": "For type A1 (composite order), the projective, affine and preprocessed Miller loops give the same GT element.", "quantifier": "all type A1 parameters and points of order n", "why_tests_cant": "Universal.", "anchors": ["ecc/a_param.c: a1_pairing, a1_pairing_proj, a1_pairing_pp_init, a1_pairing_pp_apply"]}
{"id": "C36", "title": "Types D and G: all pairing methods give the same value", "statement": "For type D and G parameters, methods miller and miller-affine and the preprocessed pairing return the same value.", "quantifier": "all parameters and points", "why_tests_cant": "Universal over parameters and points.", "anchors": ["ecc/d_param.c: cc_miller_no_denom_proj, cc_miller_no_denom_affine, d_pairing_pp_init, d_pairing_pp_apply", "ecc/g_param.c: cc_miller_no_denom_proj"]}
{"id": "C37", "title": "Type E: methods agree", "statement": "For type E (k = 1) the projective and affine Miller loops give the same value.", "quantifier": "all parameters and points", "why_tests_cant": "Universal.", "anchors": ["ecc/e_param.c: e_miller_proj, e_miller_affine"]}
{"id": "C38", "title": "Type F: sparse multiplication and final exponentiation", "statement": "The type F Miller loop multiplies by the line value in F_q12 exactly, and the final exponentiation raises to (q^12-1)/r.", "quantifier": "all BN parameters and points", "why_tests_cant": "Universal.", "anchors": ["ecc/f_param.c: cc_miller_no_denom, f_tateexp"]}
{"id": "C39", "title": "Bilinearity", "statement": "e([a]P,[b]Q) = e(P,Q)^(ab) for all integers a, b; in particular e(-P,Q) = e(P,-Q) = e(P,Q)^-1.", "quantifier": "all points and scalars", "why_tests_cant": "Universal over points and scalars; schemes' correctness depends on it.", "anchors": ["ecc/a_param.c: a_pairing_proj", "include/pbc_pairing.h: pairing_apply"]}
{"id": "C40", "title": "Pairing parameters round-trip through text", "statement": "pbc_param_init_set_str applied to the output of pbc_param_out_str recovers the same type and the same numeric parameters, for every parameter set of types A, A1, D, E, F, G, I (type D: embedding degree from 0 to 201; beyond that printing overruns an internal buffer).", "quantifier": "every parameter value of every type", "why_tests_cant": "All integers (sign, size) and all types.", "anchors": ["ecc/param.c: param_out_type, param_out_mpz, param_out_int, token_get, read_symtab, lookup_mpz, lookup_int, param_set_tab", "ecc/a_param.c: a_out_str, pbc_param_init_a"]}
{"id": "C41", "title": "The parameter parser is insensitive to layout and order", "statement": "White space, comments and order of distinct keys do not change the parsed parameters; a missing key or unknown type is reported by a non-zero return (a negative type D embedding degree may instead end the program through pbc_die); of duplicated keys the last wins; given a non-zero length, the parser never reads past it, and a string is never read past its terminator.", "quantifier": "every input text", "why_tests_cant": "Unbounded strings.", "anchors": ["ecc/param.c: token_get, read_symtab, param_set_tab, pbc_param_init_set_buf", "misc/symtab.c"]}
{"id": "C42", "title": "Generated type A, A1, E and F parameters satisfy their equations", "statement": "Whatever the random source returns, if generation terminates then type A: r = 2^exp2 + sign1 2^exp1 + sign0, q + 1 = h r, 12 | h, q = 3 mod 4; A1: p + 1 = l n, 4 | l, when the l found is below 2^31 (the field that stores it is an int, and larger ones are truncated); E: q = h r^2 + 1 with 3 | h; F: q and r are the BN polynomials at a common x and r = q + 1 - t.", "quantifier": "every random stream and every answer of the primality oracle", "why_tests_cant": "Depends on the random stream; runs cannot be enumerated.", "anchors": ["ecc/a_param.c: pbc_param_init_a_gen, pbc_param_init_a1_gen", "ecc/e_param.c: pbc_param_init_e_gen", "ecc/f_param.c: pbc_param_init_f_gen, tryminusx, tryplusx"]}
{"id": "C43", "title": "CM curve search reports only valid MNT/Freeman curves", "statement": "Every (q, n, h, r, k, D) passed to the pbc_cm_search_d / pbc_cm_search_g callback satisfies n = h r, the CM equation 4q - t^2 = D V^2 for an integer V with t = q + 1 - n, and r | Phi_k(q).", "quantifier": "every discriminant D, bit limit and every answer of the primality oracle", "why_tests_cant": "Unbounded search.", "anchors": ["ecc/mnt.c: mnt_step2, freeman_step2, pbc_cm_search_d, pbc_cm_search_g"]}
{"id": "C44", "title": "Generalised Pell solver returns solutions", "statement": "Every pair (x,y) reported by the general Pell solver satisfies x^2 - D y^2 = N and the reported minimal unit satisfies t^2 - D u^2 = 1 so that multiplying by it yields further solutions.", "quantifier": "every non-square D > 0 and every N", "why_tests_cant": "Unbounded continued-fraction expansions.", "anchors": ["ecc/mnt.c: general_pell, pbc_cm_search_d"]}
{"id": "C45", "title": "Discrete logarithm solvers return correct logarithms", "statement": "If element_dlog_brute_force(x,g,h) or element_dlog_pollard_rho(x,g,h) returns, then g^x = h.", "quantifier": "every group, generator and random walk", "why_tests_cant": "Random walk.", "anchors": ["arith/dlog.c"]}
{"id": "C46", "title": "Characteristic-three field arithmetic", "statement": "In GF(3^m), the bit-sliced add, sub, neg, double, mul, cubing and reduction compute polynomial arithmetic over GF(3) modulo x^m + x^t + 2, whatever the word count.", "quantifier": "every m, t and all elements", "why_tests_cant": "Bit-sliced code: all bit patterns across word boundaries.", "anchors": ["arith/ternary_extension_field.c: gf3m_add, gf3m_sub, gf3m_neg, gf3m_shift_up, gf3m_mult, gf3m_f1, gf3m_f2, gf3m_cubic"]}
{"id": "C47", "title": "Extension towers over GF(3^m) and the type I final exponentiation", "statement": "On type I parameters, the pairs, triples and triples of pairs over GF(3^m) form the fields K[i]/(i^2+1), K[z]/(z^3-z-1) and K[i]/(i^2+1)[z]/(z^3-z-1) of 3^2m, 3^3m and 3^6m elements; zero, one, addition, subtraction, multiplication, cubing and comparison are those of the fields, and so is inversion in GF(3^3m). The specialised final-exponentiation steps return x^(3^3m - 1), x^(3^m + 1) and their product with the last factor, the two Miller loops give the same value, and the pairing value to the number of points is 1. (Inversion and division in GF(3^6m), which holds GT, should also work; they call a method that is never set, so this part is refuted.)", "quantifier": "all m and all elements", "why_tests_cant": "Universal algebraic identities.", "anchors": ["arith/ternary_extension_field.c: gf32m_mult, gf33m_mult, gf33m_cubic, gf33m_invert", "ecc/eta_T_3.c: algorithm4, algorithm6, algorithm7, algorithm8"]}
{"id": "C48", "title": "Built-in type I parameters are consistent", "statement": "Each built-in type I parameter set satisfies n * n2 = 3^m + s 3^((m+1)/2) + 1 for its sign s, its trinomial x^m + x^t + 2 is irreducible over GF(3) so that GF(3^m) is a field, m is prime to 6, and the pairing built from it is bilinear with values killed by n.", "quantifier": "every row of the table, every point", "why_tests_cant": "(Finite: provable by computation in the kernel.)", "anchors": ["ecc/eta_T_3.c: pbc_param_init_i_gen, i_init_pairing"]}
{"id": "C49", "title": "Dynamic arrays behave as sequences", "statement": "After any history of append, remove_index, remove, swap and copy, the array holds exactly the sequence a list would hold, and no operation accesses memory outside the allocated buffer.", "quantifier": "every history of operations", "why_tests_cant": "Histories are unbounded (growth boundaries at every power of two).", "anchors": ["misc/darray.c"]}
{"id": "C50", "title": "Symbol tables behave as finite maps", "statement": "After any history of symtab_put, symtab_at returns the most recently stored value for a key and symtab_has tells whether it was stored.", "quantifier": "every history of puts", "why_tests_cant": "Unbounded histories.", "anchors": ["misc/symtab.c"]}
{"id": "C51", "title": "element_snprintf respects the buffer and prints the format", "statement": "element_snprintf never writes more than size bytes, returns the full length, and copies format text outside directives, including %%, as printf does.", "quantifier": "every format string, every size", "why_tests_cant": "Unbounded format strings.", "anchors": ["misc/extend_printf.c"]}
{"id": "C52", "title": "Secure memory mode never overruns a buffer", "statement": "In SAFE_CLEAN builds, reallocation preserves min(old,new) bytes and never writes outside the new block.", "quantifier": "every old and new size", "why_tests_cant": "Only shrinking reallocations misbehave; heap overflow may be silent.", "anchors": ["misc/memory.c: default_pbc_realloc, gmp_guarded_realloc"]}
{"id": "C53", "title": "Preprocessed pairings never overrun their tables", "statement": "pairing_pp_init stores at most as many coefficient triples as it allocated, for every group order r.", "quantifier": "every r for types A, A1, D, F, G", "why_tests_cant": "Depends on the bit pattern of r; heap overflow by one entry may be silent.", "anchors": ["ecc/a_param.c: a_pairing_pp_init, a1_pairing_pp_init", "ecc/d_param.c: d_pairing_pp_init, d_pairing_pp_clear", "ecc/g_param.c: g_pairing_pp_init"]}
{"id": "C54", "title": "Integer helpers", "statement": "pbc_trial_divide reports primes with multiplicity whose product times the unfactored rest is n; pbc_mpz_trickle, pbc_mpz_out_raw_n and pbc_mpz_get_... satisfy their arithmetic meaning.", "quantifier": "all integers", "why_tests_cant": "Universal.", "anchors": ["arith/field.c: pbc_trial_divide, pbc_mpz_out_raw_n", "include/pbc_field.h"]}
{"id": "C55", "title": "Complex arithmetic and class polynomials", "statement": "Over exact arithmetic, the complex-number helpers leave the sum, difference, product, square, conjugate, inverse, quotient and power of the old values of their arguments, whichever of the variables coincide. Powers are defined for exponents below 2^31; for larger ones the call does not return. Adding an integer is right only in place. For a discriminant -D the class polynomial routine visits each reduced form (up to sign of b) exactly once, reports their number, accumulates the product of X - j over all reduced forms of discriminant -D, and returns the integer polynomial to which that product is coefficientwise within 1/2. Imprimitive forms are not left out, so for a discriminant that is not fundamental the polynomial is not the class polynomial of the order.", "quantifier": "all values, all aliasing of variables, all discriminants below 2^30, all values of j that respect conjugation", "why_tests_cant": "The numbers of forms and coefficients grow without bound, and every pattern of equal variables matters.", "anchors": ["ecc/mpc.c", "ecc/mpc.h", "ecc/hilbert.c: pbc_hilbert"]}
{"id": "C56", "title": "Pairing options are per-pairing", "statement": "pairing_option_set on one pairing object does not change the results computed with another pairing object.", "quantifier": "every interleaving of initialisations, option settings and pairings", "why_tests_cant": "Interleavings.", "anchors": ["ecc/d_param.c: d_pairing_option_set, cc_miller_no_denom_fn", "ecc/e_param.c: e_miller_fn", "ecc/g_param.c"]}
{"id": "C57", "title": "Singular cubic with node", "statement": "Point operations on the singular curve y^2 = x^3 + x^2 form the group, and random points are non-singular points of the curve.", "quantifier": "every field, all points, every random stream", "why_tests_cant": "The failure needs a random x equal to 0.", "anchors": ["ecc/singular.c: sn_add, sn_double, sn_random"]}
{"id": "C58", "title": "GT behaves as a multiplicative group", "statement": "For GT elements, add and mul, sub and div, neg and invert, and mul_zn and pow_zn coincide with the multiplicative operations of the underlying field; mul_si and double are consistent with them.", "quantifier": "all elements and scalars", "why_tests_cant": "Universal.", "anchors": ["ecc/pairing.c: mulg_*, pairing_GT_init"]}
{"id": "C59", "title": "Composite moduli in Z_n", "statement": "With a composite odd modulus (type A1's Zr), ring operations remain exact, including products of zero divisors.", "quantifier": "every odd composite modulus, all residues", "why_tests_cant": "Zero divisors are a negligible fraction of residues.", "anchors": ["arith/montfp.c: fp_mul, fp_square, fp_is0, fp_to_mpz"]}
{"id": "C60", "title": "Integer scalars on curve and GT elements", "statement": "element_mul_si(R,P,n) on a curve point or GT element gives the n-fold sum, and element_halve inverts element_double.", "quantifier": "all points and integers", "why_tests_cant": "Universal.", "anchors": ["arith/field.c: generic_mul_si, generic_halve, zero_set_mpz", "ecc/curve.c: field_init_curve_ab"]}
{"id": "C61", "title": "Random points and generators are valid", "statement": "element_random on a curve, and the generator made when the curve is initialised, give a point of the curve that is the cofactor times a point of the curve; a point that satisfies no square test is never returned.", "quantifier": "every curve, cofactor and random stream", "why_tests_cant": "Ranges over every outcome of the random source.", "anchors": ["ecc/curve.c: curve_random_no_cofac_solvefory, curve_random_solvefory, curve_random_pointmul, field_init_curve_ab"]}
{"id": "C62", "title": "Twists and curves of given j-invariant", "statement": "field_reinit_curve_twist turns y^2 = x^3+ax+b into a curve on which vx is an abscissa exactly when x is not one on the old curve; field_init_curve_j builds a non-singular curve with the requested j-invariant.", "quantifier": "every field, coefficient and j-invariant", "why_tests_cant": "Algebraic identity over all fields.", "anchors": ["ecc/curve.c: twist_curve, field_reinit_curve_twist, field_init_curve_j"]}
{"id": "C63", "title": "Square test on curve points", "statement": "element_is_sqr on a point says whether it is the double of a point.", "quantifier": "every curve group of odd or even order, every point", "why_tests_cant": "Universal over groups and points.", "anchors": ["ecc/curve.c: odd_curve_is_sqr, even_curve_is_sqr"]}
{"id": "C64", "title": "The CoDDH test accepts related pairs", "statement": "is_almost_coddh(P, xP, Q, xQ) and is_almost_coddh(P, xP, Q, -xQ) return true; it returns false when e(P,D) is neither e(B,Q) nor its inverse.", "quantifier": "all points of order r and all integers x", "why_tests_cant": "Universal over points and scalars.", "anchors": ["ecc/pairing.c: generic_is_almost_coddh", "include/pbc_pairing.h: is_almost_coddh"]}
{"id": "C65", "title": "Preprocessing a pairing argument takes a snapshot", "statement": "After pairing_pp_init(pp, in1), pairing_pp_apply(out, in2, pp) gives e(P, in2) for the value P that in1 had at initialisation, whatever is assigned to in1 or to any other element afterwards, and even if in1 is cleared.", "quantifier": "all pairing types, all points, all sequences of assignments between the two calls", "why_tests_cant": "Quantifies over everything a program may do between the two calls; the existing tests never touch in1.", "anchors": ["ecc/pairing.c: default_pp_init, default_pp_apply", "include/pbc_pairing.h: pairing_pp_init, pairing_pp_apply", "ecc/a_param.c: a_pairing_pp_init"]}
{"id": "C66", "title": "The type I group and its random elements", "statement": "On G1 of a type I pairing, element_add, element_double, element_sub, element_invert, element_cmp and element_pow_mpz follow the group law of the curve y^2 = x^3 - x + 1 over GF(3^m) for every pair of points, whatever the coincidences of coordinates; element_random gives a point of the curve of order dividing r, and element_random on GT an element whose r-th power is 1, for every outcome of the random source.", "quantifier": "every extension degree and irreducible trinomial, all points, all exponents, every random stream", "why_tests_cant": "Ranges over all points and all outcomes of the random source, including the unlikely ones (a zero abscissa first).", "anchors": ["ecc/eta_T_3.c: point_add, point_invert, point_cmp, point_random, GT_random, field_init_eta_T_3"]}
{"id": "C67", "title": "Fields of one machine word", "statement": "In a field made by field_init_tiny_fp for an odd modulus p that fits an unsigned long, every history of API calls gives the answers of integer arithmetic modulo p, and the same element encodings as the other implementations: assignments, addition, subtraction, negation, doubling, multiplication, division, halving, inversion, powers, comparisons, sign, square test, bytes.  (This fails for products when p > 2^32, for set_si of a negative multiple of p, for mul_si with a negative factor, for doubling in place when p > 2^63, and hashing gives another element than field_init_fp's fields.)", "quantifier": "every modulus of one word, every number of elements, every finite history of calls with any operands and aliasing", "why_tests_cant": "Word overflow only shows for particular operands of large moduli, and histories are unbounded; the source file itself warns of outstanding bugs.", "anchors": ["arith/tinyfp.c: field_init_tiny_fp, fp_add, fp_double, fp_sub, fp_mul, fp_set_si, fp_mul_si, fp_from_hash, fp_to_bytes, fp_from_bytes", "include/pbc_fp.h"]}
{"id": "C68", "title": "Elements as text", "statement": "element_snprint of an element of F_p (naive and Montgomery implementations), of any tower of quadratic and polynomial extensions over it, of a curve over such a field, or of GT behaves as snprintf of the element's text \"[.., ..]\" (\"O\" at infinity) for every buffer size: it stores at most n-1 characters and a terminator, touches nothing else and returns the full length; element_set_str, in any base from 2 to 36, reads that text back as the same element and returns its length.  element_out_str writes the text and returns the number of characters written.  (element_out_str of a quadratic extension returns four less; fields keeping the default functions print \"?\" and do not terminate a one-byte buffer.)", "quantifier": "every modulus, every tower height and degree, all elements and points, all buffer sizes, bases, surrounding text", "why_tests_cant": "Ranges over all buffer sizes in relation to all nested texts (truncation inside any piece), all elements and all towers.", "anchors": ["arith/fieldquadratic.c: fq_snprint, fq_out_str, fq_set_str", "arith/poly.c: poly_snprint, poly_out_str, polymod_snprint, polymod_set_str", "ecc/curve.c: curve_snprint, curve_out_str, curve_set_str", "ecc/pairing.c: mulg_snprint, mulg_set_str", "arith/field.c: default_element_snprint, default_element_set_str"]}
{"id": "C69", "title": "Reading elements from arbitrary text", "statement": "element_set_str on any terminated string, in any base, reads nothing beyond the terminator and returns a count of characters before it; for a point, text whose coordinates are not on the curve is refused with result 0 and the point at infinity, and whatever the text the element is afterwards a valid element.  (The last part fails: when the text does not start with O or [, or stops in the middle, the element keeps arbitrary coordinates and is marked finite.)", "quantifier": "every terminated string, every base, every field tower and curve, every previous content of the element", "why_tests_cant": "Ranges over all strings, including malformed ones, and over all earlier contents of the element.", "anchors": ["ecc/curve.c: curve_set_str", "arith/fieldquadratic.c: fq_set_str", "arith/poly.c: polymod_set_str", "arith/field.c: pbc_mpz_set_str"]}
{"id": "C70", "title": "Bytes, sign, hashing and random elements of extension fields", "statement": "In every extension field built from F_p by quadratic and polynomial extensions: element_to_bytes writes exactly element_length_in_bytes bytes, the same number for all elements; element_from_bytes consumes that many, never reads further, and returns the element; different elements have different bytes; negation negates each coordinate; element_sign is 0 only at zero and opposite for an element and its negative (p odd); element_random maps uniform residues to uniform elements; element_from_hash spreads the data over all coordinates.  (The last part fails for polynomial extensions, where all coefficients receive the same value; and the byte form of a polynomial, whose length is stored in two bytes, is lost at 65536 coefficients.)", "quantifier": "every modulus, every tower of extensions, every element, every byte string and random source", "why_tests_cant": "Ranges over towers of any height and all their elements; injectivity and uniformity are statements about whole fields.", "anchors": ["arith/fieldquadratic.c: fq_to_bytes, fq_from_bytes, fq_sign, fq_from_hash, fq_random", "arith/poly.c: polymod_to_bytes, polymod_from_bytes, polymod_sgn, polymod_from_hash, polymod_random, poly_to_bytes, poly_from_bytes"]}
{"id": "C71", "title": "Irreducibility test, root finding and square roots over finite fields", "statement": "Over a finite field: poly_is_irred answers true exactly for the irreducible polynomials; poly_findroot stores a root, and reports failure exactly when there is none; in a polynomial extension of a field of odd order element_is_sqr is true exactly on squares, element_sqrt of a square stores a square root whatever is drawn from the random source, and at each draw more than half of all values end the search.  (False in three ways: poly_is_irred is wrong in both directions on polynomials whose leading coefficient is not one; poly_findroot writes out of bounds on polynomials of degree one; element_is_sqr of zero is false although zero has a root.)", "quantifier": "every finite field, every polynomial of every degree, every sequence of random values", "why_tests_cant": "Correctness rests on Rabin's criterion and on the distribution of squares in the whole field; a test sees a few polynomials and random draws only.", "anchors": ["arith/poly.c: poly_is_irred, checkgcd, poly_findroot, polymod_is_sqr, polymod_sqrt"]}
{"id": "C72", "title": "Curves and extension polynomials chosen by the parameter generators", "statement": "Once q and r are fixed, whatever is drawn: pbc_param_init_d_gen and g_gen choose a monic irreducible polynomial of degree 3 or 5 and an nqr that is not a square in the extension; the cofactor stored for the extension field is exactly the order of the curve there divided by r^2; the curve built from the class polynomial has a root of it as j-invariant, is an elliptic curve, and has the wanted order n (the twist is taken exactly when the first curve has not); type E takes Y^2 = X^3 + 1 or its twist likewise; type F finds b with r points on Y^2 = X^3 + b, alpha with x^6 + alpha irreducible, and the twist that has points of order r.  The values found meet the requirements of the pairings.  (False where one random value decides: nqr is 0 when 0 is drawn; with the random multiple 0 the wrong curve, the wrong b or the wrong sextic twist is kept; the failure of the root search is ignored and gives the singular curve Y^2 = X^3; class polynomials of degree one make the root search write out of bounds.)", "quantifier": "every field, every q, r and n, every class polynomial, every sequence of random values", "why_tests_cant": "The choices depend on random values and the bad ones have probability about 1/r; irreducibility of x^6 + alpha^5 and the divisibility of curve orders by r^2 are statements about all parameters.", "anchors": ["ecc/d_param.c: compute_cm_curve, pbc_param_init_d_gen", "ecc/g_param.c: pbc_param_init_g_gen", "ecc/e_param.c: pbc_param_init_e_gen", "ecc/f_param.c: pbc_param_init_f_gen", "ecc/curve.c: curve_random_no_cofac_solvefory, field_init_curve_j, field_reinit_curve_twist"]}
{"id": "C73", "title": "The Shipsey-Stange method gives the same pairing values", "statement": "For types A, A1 and G (and E for second arguments outside the multiples of the first), selecting \"shipsey-stange\" with pairing_option_set changes no result: element_pairing, pairing_pp_apply and element_prod_pairing return the same reduced Tate pairing as with the Miller methods, preprocessing fills exactly the table it allocates, and no inverse of zero is taken.  The method may be changed at any time; tables built before remain usable.", "quantifier": "all parameters of the type, all points of the two groups (identities included), all lists of points, all sequences of option changes between building and using a table", "why_tests_cant": "The net recurrence is a division-free loop over the bits of r whose correctness rests on identities between eleven consecutive terms; a wrong term for one bit pattern of r, or a vanishing initial term for special pairs of points, shows only for particular orders and pairs.", "anchors": ["ecc/a_param.c: a_pairing_ellnet, a_pairing_ellnet_pp_init, a_pairing_ellnet_pp_apply, a_pairing_option_set, a1_pairing_option_set", "ecc/g_param.c: g_pairing_ellnet, g_pairing_option_set", "ecc/e_param.c: e_pairing_ellnet, e_pairing_option_set"]}
{"id": "C74", "title": "Nested integer lists convert exactly to elements", "statement": "element_set_multiz stores in an element of a field, extension or polynomial ring the value of the nested list, where a list at depth k is a polynomial in the generator of the k-th level and an integer n is n times 1; hence converting a sum, product or opposite of lists gives the sum, product or opposite of the elements.  A list of two coordinates converts to the point with these coordinates if it lies on the curve and is refused otherwise.  The list of coordinates of an element converts back to it, prints as the same text, and can be read back from that text.", "quantifier": "all nested lists of integers, all prime fields, all towers of quadratic and polynomial extensions over them, all polynomial rings and curves", "why_tests_cant": "Lists may be nested to any depth, be shorter or longer than the degree of the level they meet, and mix integers and lists; each combination takes another path, and a wrong one silently stores another element.", "anchors": ["arith/multiz.c: multiz_to_mpz, multiz_at, multiz_count, f_out_str, f_set_str", "arith/field.c: generic_set_multiz", "arith/fieldquadratic.c: fq_set_multiz", "arith/poly.c: poly_set_multiz, polymod_set_multiz", "ecc/curve.c: curve_set_multiz", "ecc/pairing.c: mulg_set_multiz"]}
{"id": "C76", "title": "Pairing groups have the announced order and the pairing is non-degenerate", "statement": "For parameters of types A and A1 the curve has exactly (group order) x (cofactor) points, every random or hashed element of G1 is killed by the group order, and no element of G1 other than the identity pairs to 1 with every point. Two elements of the type A group pair to 1 only if one of them is the identity; the pairing is symmetric on the group; the pairing with a fixed non-identity element determines the other argument. Hence the Diffie-Hellman test accepts exactly the tuples (P, xP, Q, +-xQ) and the BLS check accepts an element only if it is the signature.", "quantifier": "all parameters satisfying the equations of the type, all field elements, random sources and hashes, all points", "why_tests_cant": "non-degeneracy and the group order speak of every point of a curve with about 2^512 points; a test samples a few and cannot see a parameter set whose subgroup pairs to 1", "anchors": ["ecc/a_param.c: a_init_pairing, a1_init_pairing, phi_identity", "ecc/curve.c: curve_random_solvefory, curve_from_hash, field_init_curve_ab", "ecc/pairing.c: pairing_apply, generic_is_almost_coddh", "example/bls.c"]}
{"id": "C77", "title": "The pairing-based calculator computes with values: expressions change no variable, names keep their bindings, errors are reported", "statement": "In the interactive calculator every expression shows the value of its mathematical meaning in terms of the variables' values, evaluating an expression changes no variable, an assignment changes exactly the name it mentions, arguments of functions are passed by value, reserved names cannot be rebound, and ill-typed or malformed uses are reported as errors.", "quantifier": "all programs (lists of statements of any size and nesting), all libraries of algebraic operations the calculator may drive, all recursion depths", "why_tests_cant": "The interpreter passes mutable objects around and overwrites its first operand; whether a later read sees a changed variable depends on the nesting of the program, and there are infinitely many programs.", "anchors": ["pbc/pbc.c:tree_eval", "pbc/pbc.c:eval_assign", "pbc/pbc.c:eval_id", "pbc/pbc.c:v_builtin", "pbc/pbc.c:v_def_call", "pbc/pbc.c:v_field_cast", "pbc/pbc.c:fun_bin", "pbc/pbc.c:fun_cmp", "pbc/pbc.c:run_extend", "pbc/pbc.c:tree_eval_stmt"]}
{"id": "C78", "title": "The calculator reads programs as they are written", "statement": "The text of a calculator program, with any blanks, line breaks and comments between its tokens, is read as the program it spells: constants have their decimal value, operators group by their usual precedence and associativity so that only the parentheses that precedence calls for are needed, an assignment assigns the value of everything to its right, a comment is skipped wherever it stands, parsing ends on every input, and a text that is no program is rejected.", "quantifier": "all programs (any nesting of expressions and definitions), all layouts of each, both input modes, all token sequences", "why_tests_cant": "There are infinitely many programs and layouts, and the grammar is ambiguous: how a nesting is grouped is decided by the interplay of precedence declarations with every combination of operators around it.", "anchors": ["pbc/parser.y:expr", "pbc/parser.y:molecule", "pbc/parser.y:stmt", "pbc/parser.lex", "pbc/pbc.c:tree_new_z", "pbc/pbc.c:tree_new_binary"]}
{"id": "C79", "title": "Nested integer lists own their storage", "statement": "For elements of the ring of nested integer lists, every sequence of initialisations, assignments, additions, subtractions, multiplications, negations, scalings, divisions, list constructions and clears in which each element is cleared once never touches released storage, never releases a block twice, keeps the values of different elements independent, and leaves nothing allocated once every element is cleared.", "quantifier": "every finite sequence of calls on any number of elements, with any values, any nesting and any aliasing of operands and result", "why_tests_cant": "Aliasing, temporaries and depth of nesting combine without bound; a double release or a leak in one combination goes unnoticed by tests of values.", "anchors": ["arith/multiz.c: multiz_free, multiz_new_unary, multiz_new_bin, multiz_new_mul, multiz_new_list, multiz_append, f_set, f_add, f_mul, f_div, f_item", "misc/darray.c: darray_append, darray_forall"]}
{"id": "C80", "title": "Everything allocated is released exactly once", "statement": "A program that initialises each parameter set, pairing, element and precomputed table once before using it, clears each once, and clears a pairing after everything made from it, never makes the library use a released block or release a block twice; the storage in use depends only on the objects alive, not on the history; and after the last clear nothing is allocated. Generated parameters occupy what the same parameters read from a text would, and the generators leave nothing else behind.", "quantifier": "every finite sequence of initialisations, clears, option changes, square-root-like operations that generate a nonresidue, and table constructions, on any number of objects and pairings of all seven types, with every field back-end and every extension degree; for the generators, every course of the search: number of curves tried, size of the class polynomial, nonresidues generated on the way", "why_tests_cant": "A leak or a double release shows only in particular combinations of pairing type, back-end, method, lazily generated values and order of clears; there are unboundedly many histories, and value tests do not see storage.", "anchors": ["ecc/pairing.c: pairing_init_set_buf, pairing_init_pbc_param, pairing_clear", "ecc/a_param.c: a_init_pairing, a_pairing_clear, a_pairing_pp_init, a_pairing_pp_clear, a1_pairing_pp_init, a1_pairing_pp_clear", "ecc/d_param.c: d_init_pairing, d_pairing_clear, d_pairing_pp_init, d_pairing_pp_clear", "ecc/e_param.c: e_init_pairing, e_pairing_clear", "ecc/f_param.c: f_init_pairing, f_pairing_clear", "ecc/g_param.c: g_init_pairing, g_pairing_clear", "ecc/eta_T_3.c: eta_T_3_init_pairing, eta_T_3_pairing_clear", "ecc/curve.c: field_init_curve_ab, curve_field_clear", "arith/poly.c: field_init_polymod, field_clear_polymod", "arith/field.c: field_clear, element_pp_init, element_pp_clear", "ecc/d_param.c: pbc_param_init_d_gen, compute_cm_curve", "ecc/e_param.c: pbc_param_init_e_gen", "ecc/f_param.c: pbc_param_init_f_gen", "ecc/g_param.c: pbc_param_init_g_gen"]}
{"id": "C75", "title": "The example cryptosystems accept every honest run", "statement": "Each program of example/ (BLS signatures; Hess, Paterson and Zhang-Kim identity-based signatures; ZSS signatures; Joux and Yuan-Li key agreement), run honestly, ends with the verdict it is meant to show, whatever the random choices: signatures verify, the BLS signature still verifies after being compressed to bytes and read back and after being cut down to its x-coordinate, and all parties of a key agreement compute the same key. A random BLS signature is accepted only when its pairing equals that of the real one.", "quantifier": "all type A, A1, D, E, F and G parameters (symmetric ones for the programs that require it), all keys, nonces, hashes and points, all memory contents before the run", "why_tests_cant": "the programs draw random values; failures happen on a negligible fraction of them (a zero nonce or key), and a program that runs once says nothing about other keys, curves and pairing methods", "anchors": ["example/bls.c", "example/hess.c", "example/joux.c", "example/paterson.c", "example/yuanli.c", "example/zhangkim.c", "example/zss.c"]}
{"id": "C82", "title": "The tables of curves printed by listmnt and listfreeman are exact", "statement": "From every start allowed, listmnt and listfreeman end; each line printed states the sizes in bits of the field and of the subgroup of an existing curve of complex multiplication by the D printed (embedding degree 6 and 10 respectively), D is below 1000000000 and of the allowed residues, and every curve found by the library's search for such a D has its line.", "quantifier": "all starting discriminants, all primality tests that accept only primes, all lines of the table", "why_tests_cant": "The full tables range over half a billion discriminants and take days to print; no test runs them, and a skipped residue or a wrong last value would not be noticed.", "anchors": ["gen/listmnt.c: main, try, consider", "gen/listfreeman.c: main, try, show", "ecc/mnt.c: pbc_cm_search_d, pbc_cm_search_g"]}
{"id": "C81", "title": "The generator programs print usable parameters", "statement": "Whatever the random numbers drawn, the text printed by genaparam RBITS QBITS, gena1param, gendparam D, geneparam, genfparam BITS and gengparam D is accepted by the library as parameters of type A, A1, D, E, F or G. The field size is prime. Except for type A1 the group order is prime; for types A, E and F it has the number of bits asked for, and for type A the field size has QBITS bits; for types D and G the curve has discriminant D. The pairing set up from the numbers read back is bilinear and non-degenerate, for types A and A1 on a curve of the announced number of points.", "quantifier": "all sizes and discriminants asked for, all streams of random numbers, all lengths of the search, all group orders N for type A1, all points and exponents, both Miller methods for types A, A1 and E", "why_tests_cant": "Each run draws fresh primes; a test sees finitely many of them and samples the pairing at a few points, while the claim joins generation, printing, parsing and the pairing for every draw.", "anchors": ["gen/genaparam.c: main", "gen/gena1param.c: main", "gen/gendparam.c: main, generate", "gen/geneparam.c: main", "gen/genfparam.c: main", "gen/gengparam.c: main, generate", "ecc/a_param.c: pbc_param_init_a_gen, pbc_param_init_a1_gen, a_out_str, a1_out_str, pbc_param_init_a, pbc_param_init_a1", "ecc/param.c: pbc_param_init_set_str, pbc_param_out_str", "ecc/e_param.c: pbc_param_init_e_gen, e_out_str, pbc_param_init_e", "ecc/f_param.c: pbc_param_init_f_gen, f_out_str, pbc_param_init_f", "ecc/d_param.c: pbc_param_init_d_gen, d_out_str, pbc_param_init_d", "ecc/g_param.c: pbc_param_init_g_gen, g_out_str, pbc_param_init_g"]}
