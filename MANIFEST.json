{
 "claims": [
  {
   "property": "C01",
   "status": "partial",
   "theorems": [
    "montgomery_field_exact",
    "montgomery_ring_exact",
    "montgomery_multiplication_refuted",
    "halving_into_fresh_element_refuted"
   ],
   "note": "Exact for every history when the top 64-bit word of p is not all ones; refuted without that hypothesis (lost carry) and for halving into an element that holds zero."
  },
  {
   "property": "C02",
   "status": "partial",
   "theorems": [
    "backends_indistinguishable",
    "field_init_dispatch_indistinguishable",
    "specified_answers_unique",
    "specified_answers_exist",
    "backends_disagree_on_zero_to_the_zero_refuted",
    "backends_disagree_on_modulus_refuted",
    "backends_disagree_on_long_min_refuted",
    "backends_disagree_on_modulus_two_refuted"
   ],
   "note": "Simulation of all four back-ends for every allowed history, odd modulus; each excluded call is shown to distinguish back-ends, and so is the modulus 2, which montfp.c does not support."
  },
  {
   "property": "C03",
   "status": "proved",
   "theorems": [
    "inversion_correct",
    "division_correct",
    "inversion_of_zero_undefined"
   ],
   "note": "All four back-ends, all odd primes (for mont: top word not all ones)."
  },
  {
   "property": "C04",
   "status": "partial",
   "theorems": [
    "backends_indistinguishable",
    "comparison_with_zero_refuted"
   ],
   "note": "is0/is1/cmp are exact for every history except element_cmp(nonzero, zero), refuted."
  },
  {
   "property": "C05",
   "status": "proved",
   "theorems": [
    "serialisation_round_trip",
    "backends_indistinguishable"
   ],
   "note": ""
  },
  {
   "property": "C06",
   "status": "partial",
   "theorems": [
    "backends_indistinguishable",
    "decoding_unreduced_refuted",
    "decoding_modulus_refuted"
   ],
   "note": "True for encodings of residues; refuted for naive/faster on unreduced and mont on multiples of p."
  },
  {
   "property": "C07",
   "status": "proved",
   "theorems": [
    "pow_mpz_correct",
    "pow_any_window_correct",
    "zpow_meaning"
   ],
   "note": ""
  },
  {
   "property": "C08",
   "status": "proved",
   "theorems": [
    "pow2_correct",
    "pow3_correct"
   ],
   "note": ""
  },
  {
   "property": "C09",
   "status": "partial",
   "theorems": [
    "pp_pow_correct",
    "pp_pow_large_exponent_refuted"
   ],
   "note": "True when the declared order annihilates the element; refuted for the multiplicative group of F_p, whose declared order is p."
  },
  {
   "property": "C10",
   "status": "proved",
   "theorems": [
    "sqrt_correct",
    "prime_field_instance",
    "is_sqr_correct"
   ],
   "note": ""
  },
  {
   "property": "C11",
   "status": "proved",
   "theorems": [
    "sign_correct"
   ],
   "note": ""
  },
  {
   "property": "C12",
   "status": "partial",
   "theorems": [
    "set_str_reads_numeral",
    "fp_set_str_reads_numeral",
    "every_number_has_numeral",
    "set_str_exact",
    "set_str_total",
    "set_str_stops_at_first_non_digit_refuted",
    "default_set_str_ignores_text_refuted"
   ],
   "note": "Round trip proved for Z and for fields that implement set_str; interior white space is skipped and fastfp/fasterfp ignore the text (refuted)."
  },
  {
   "property": "C13",
   "status": "partial",
   "theorems": [
    "backends_indistinguishable",
    "integer_hash_correct",
    "hash_to_modulus_refuted"
   ],
   "note": "hashing is part of the history theorem (hashes_to); the case of a hash equal to p is refuted for the word-size back-end."
  },
  {
   "property": "C14",
   "status": "proved",
   "theorems": [
    "random_blocks_uniform",
    "random_is_first_accepted_block",
    "random_in_range"
   ],
   "note": "Every limit; complete reads from the file (short reads not modelled)."
  },
  {
   "property": "C15",
   "status": "partial",
   "theorems": [
    "integer_ring_exact_partial",
    "integer_halving_refuted",
    "integer_square_test_refuted",
    "integer_large_power_refuted"
   ],
   "note": "Exact for every other history; halve, is_sqr on non-square perfect powers and exponents over 64 bits are refuted."
  },
  {
   "property": "C16",
   "status": "partial",
   "theorems": [
    "integer_bytes_round_trip_partial",
    "integer_length_partial",
    "integer_length_refuted",
    "integer_zero_bytes_refuted"
   ],
   "note": "Round trip for non-zero integers; length and zero refuted."
  },
  {
   "property": "C17",
   "status": "partial",
   "theorems": [
    "multiz_add_exact",
    "multiz_mul_exact",
    "multiz_neg_exact",
    "multiz_scale_exact",
    "multiz_to_integer",
    "multiz_sub_partial",
    "multiz_sub_refuted",
    "multiz_sub_integer_refuted",
    "multiz_cmp_same_shape",
    "multiz_cmp_antisymmetric",
    "multiz_cmp_refuted",
    "multiz_bytes_same_refuted",
    "multiz_length_same_refuted",
    "multiz_no_decoder_refuted",
    "multiz_bytes_wild_refuted"
   ],
   "note": "Addition, multiplication, negation, scaling and conversion are exact on every nested list. Subtraction of an integer and a list is wrong in the code: refuted with a witness. Byte encodings read the tagged union as an mpz: all values encode alike, or a wild address is read (refuted for all values). Storage and sharing: C79."
  },
  {
   "property": "C18",
   "status": "proved",
   "theorems": [
    "quadratic_is_field",
    "quadratic_order",
    "quadratic_histories_exact"
   ],
   "note": "All arithmetic calls of field_init_quadratic and field_init_fi, any aliasing, over any base field; division by zero is undefined on both sides."
  },
  {
   "property": "C19",
   "status": "partial",
   "theorems": [
    "quadratic_is_sqr_correct",
    "quadratic_sqrt_correct_partial",
    "quadratic_sqrt_on_base_field",
    "quadratic_sqrt_refuted"
   ],
   "note": "Squareness is exact; the root is right outside the base field. On base-field elements the code divides by zero in the cases characterised, so the full property is refuted. Base-field is_sqr/sqrt are parameters with their specifications (proved for the generic algorithm in sqrt_correct)."
  },
  {
   "property": "C20",
   "status": "partial",
   "theorems": [
    "polynomial_histories_exact_partial",
    "polynomial_bytes_round_trip",
    "polynomial_mul_si_normal_refuted",
    "polynomial_double_normal_refuted",
    "polynomial_from_bytes_normal_refuted"
   ],
   "note": "Every history of set, set0, set1, set_si/mpz, setx, add, sub, mul, neg, square, double, mul_si/mpz, const_mul, make_monic, div, gcd and coefficient updates keeps every polynomial normalised, except for three calls for which the property is false in the code and refuted: mul_si/mul_mpz by an integer that is zero in the field, double in characteristic two, and from_bytes on data that poly_to_bytes did not write."
  },
  {
   "property": "C21",
   "status": "proved",
   "theorems": [
    "polynomial_histories_exact_partial",
    "polynomial_inversion_exact",
    "polynomial_product_coefficients"
   ],
   "note": "All polynomial arithmetic, division, gcd (a common divisor that is a combination of the arguments) and inversion, over every field, for any aliasing. poly_div requires distinct quotient and remainder variables. The suffix _partial concerns C20."
  },
  {
   "property": "C22",
   "status": "proved",
   "theorems": [
    "polymod_mul_exact",
    "polymod_square_exact",
    "polymod_histories_exact",
    "extension_is_field",
    "extension_order"
   ],
   "note": "Generic, degree 3 and degree 6 multiplication and both squarings, for every monic modulus and every coincidence of arguments."
  },
  {
   "property": "C23",
   "status": "proved",
   "theorems": [
    "polymod_histories_exact",
    "polynomial_inversion_exact",
    "extension_is_field"
   ],
   "note": "Histories of all arithmetic calls including inversion, division and halving; inverting zero stops in pbc_die."
  },
  {
   "property": "C24",
   "status": "proved",
   "theorems": [
    "curve_law_closed",
    "curve_histories_exact"
   ],
   "note": "Every history of calls, coinciding registers included, is UB-free and stays on the curve."
  },
  {
   "property": "C25",
   "status": "proved",
   "theorems": [
    "curve_law_group",
    "curve_histories_exact"
   ],
   "note": "Associativity is proved for the textbook chord-and-tangent law over any field of characteristic not 2 (characteristic 3 included), and the code is proved to compute that law."
  },
  {
   "property": "C26",
   "status": "proved",
   "theorems": [
    "scalar_multiplication_laws",
    "curve_histories_exact",
    "negative_scalar_refuted"
   ],
   "note": "Non-negative scalars, as the property says; negative ones are read as two's complement bits and give a wrong point."
  },
  {
   "property": "C27",
   "status": "partial",
   "theorems": [
    "point_bytes_round_trip",
    "point_compressed_round_trip",
    "point_x_only_round_trip",
    "point_from_bytes_on_curve",
    "infinity_bytes_refuted",
    "compressed_check_refuted",
    "x_only_check_refuted"
   ],
   "note": "Proved for finite points, given a correct encoding, sign and square root of the base field. The round trip of O is refuted: its stale coordinates are written."
  },
  {
   "property": "C28",
   "status": "proved",
   "theorems": [
    "curve_hash_exact",
    "curve_hash_on_curve",
    "curve_hash_choice_free",
    "curve_hash_terminates_refuted"
   ],
   "note": "Proved whenever it terminates; it is also proved that it need not terminate (X -> X^2+1 may have a fixed point)."
  },
  {
   "property": "C29",
   "status": "partial",
   "theorems": [
    "multi_add_partial",
    "multi_add_refuted",
    "multi_double_partial",
    "multi_double_refuted"
   ],
   "note": "Holds without exceptional entries; the exceptional entries corrupt the batch (an inversion of zero), and multi_double leaves O in an output that held O."
  },
  {
   "property": "C30",
   "status": "proved",
   "theorems": [
    "trace_over_extension",
    "order_over_extension",
    "trace_of_integers"
   ],
   "note": "In any field that contains the two roots."
  },
  {
   "property": "C31",
   "status": "proved",
   "theorems": [
    "type_a_pairing_is_tate",
    "type_a_preprocessed_is_tate"
   ],
   "note": "Projective, affine and preprocessed Miller all equal the reduced Tate pairing. r=5 (where the chord of the last step degenerates) is excluded, as in the statement."
  },
  {
   "property": "C32",
   "status": "proved",
   "theorems": [
    "type_a_value_order",
    "type_a_pairing_is_tate"
   ],
   "note": ""
  },
  {
   "property": "C33",
   "status": "proved",
   "theorems": [
    "lucas_odd_is_power",
    "lucas_even_d_is_power",
    "lucas_even_g_is_power",
    "type_a_final_powering"
   ],
   "note": ""
  },
  {
   "property": "C34",
   "status": "partial",
   "theorems": [
    "type_a_identity",
    "type_a_product_partial",
    "type_a_product_identity_gives_1",
    "product_with_identity_refuted",
    "empty_product_refuted",
    "type_a1_product_partial",
    "type_a1_product_identity_gives_1",
    "type_d_product_partial",
    "type_d_product_identity_gives_1",
    "type_g_product_partial",
    "type_e_product",
    "type_e_product_identity_gives_1",
    "type_e_identity",
    "type_f_product",
    "type_f_product_identity_gives_1",
    "type_f_identity",
    "type_i_product_partial",
    "type_i_product_identity_gives_1",
    "eta_T_pairing_identity"
   ],
   "note": "False when some input of a product is the identity (the product is then 1) and for n=0 (undefined). All pairing types."
  },
  {
   "property": "C35",
   "status": "proved",
   "theorems": [
    "type_a1_pairing_is_tate",
    "exact_order_is_input",
    "type_a1_preprocessed_is_tate",
    "type_a1_product_partial",
    "type_a1_small_order_refuted"
   ],
   "note": "For points of order n, and all points whose multiples met by the loop are in general position. Points of small order can make the loop undefined (refuted witness)."
  },
  {
   "property": "C36",
   "status": "partial",
   "theorems": [
    "type_d_pairing_is_tate_partial",
    "type_d_preprocessed_is_tate_partial",
    "type_d_product_partial",
    "type_d_projective_refuted",
    "type_g_pairing_is_tate_partial",
    "type_g_preprocessed_is_tate_partial",
    "type_g_product_partial",
    "type_g_projective_refuted",
    "type_g_value_1_refuted"
   ],
   "note": "Method miller-affine and preprocessing give the Tate pairing (type G: unless its value is 1, where the final powering may divide by zero). False for method miller, which uses one variable for both coordinates. The Shipsey-Stange method is C73."
  },
  {
   "property": "C37",
   "status": "proved",
   "theorems": [
    "type_e_pairing_is_tate",
    "type_e_projective_loop",
    "type_e_affine_loop",
    "type_e_preprocessed_is_tate"
   ],
   "note": "Both methods equal the same value; r > 5 and r R not the identity, where R is the random point fixed at initialisation."
  },
  {
   "property": "C38",
   "status": "proved",
   "theorems": [
    "type_f_init",
    "type_f_sparse_multiplication",
    "type_f_final_exponentiation",
    "type_f_pairing_is_tate",
    "type_f_preprocessed_is_tate",
    "sextic_irreducibility"
   ],
   "note": "The whole pairing is the Tate pairing of P and the untwisted Q."
  },
  {
   "property": "C39",
   "status": "partial",
   "theorems": [
    "type_a_bilinear",
    "type_a_pairing_is_tate",
    "type_a1_bilinear",
    "type_a1_pairing_is_tate",
    "type_dg_bilinear",
    "type_dg_value_order",
    "type_d_pairing_is_tate_partial",
    "type_g_pairing_is_tate_partial",
    "type_e_linear_first",
    "type_e_bilinear",
    "type_e_value_order",
    "type_e_pairing_is_tate",
    "type_f_bilinear",
    "type_f_value_order",
    "type_f_pairing_is_tate",
    "type_a_additive",
    "type_a1_additive",
    "type_dg_additive",
    "type_e_additive",
    "type_f_additive",
    "type_i_pairing_value",
    "type_i_bilinear",
    "type_i_additive",
    "type_i_value_order",
    "i_gen_pairing"
   ],
   "note": "All pairing types. Type I is in full for every odd m not divisible by 3 with an irreducible trinomial, and for every generated parameter set (i_gen_pairing). Restrictions: types D and G exclude the identity, where the map function itself is undefined; type E: additivity in the second argument needs the order of r R to be at least 5."
  },
  {
   "property": "C40",
   "status": "proved",
   "theorems": [
    "param_round_trip",
    "param_print_large_k_refuted"
   ],
   "note": "Every type and every value of its members; type D with 0 <= k < 202 (larger k overruns a buffer while printing: refuted with a witness)."
  },
  {
   "property": "C41",
   "status": "proved",
   "theorems": [
    "param_layout_and_order",
    "param_complete_file",
    "param_missing_key",
    "param_unknown_type",
    "param_buffer_in_bounds",
    "param_string_in_bounds",
    "param_malformed_number_refuted"
   ],
   "note": "Every text. A value that is not a number is silently read as 0 (witness param_malformed_number_refuted)."
  },
  {
   "property": "C42",
   "status": "proved",
   "theorems": [
    "a_gen_equations",
    "e_gen_equations",
    "f_gen_equations",
    "a1_gen_equations",
    "a1_gen_large_l_refuted"
   ],
   "note": "Every random stream and every primality oracle: the stated equations for q, r, h, n and the exponents of types A, A1, E and F. The bound on l for A1 is needed (the int field overflows otherwise, exhibited). The curve coefficients of types E and F are C72."
  },
  {
   "property": "C43",
   "status": "partial",
   "theorems": [
    "cm_search_d_sound",
    "cm_search_d_large_refuted",
    "cm_search_g_partial",
    "cm_search_g_refuted",
    "cm_search_d_total",
    "cm_search_g_total"
   ],
   "note": "pbc_cm_search_d: full statement for 3D < 2^32; beyond that 3*D wraps and a wrong report is exhibited. pbc_cm_search_g: n = hr, r | Phi10(q) always; the CM equation fails when U = 10 mod 15 (sign error in freeman_step2): a refuting run with an exact primality oracle is given (D = 203). Both searches terminate."
  },
  {
   "property": "C44",
   "status": "proved",
   "theorems": [
    "pell_solver_sound",
    "pell_solver_total"
   ],
   "note": "mnt.c general_pell for every non-square D > 0 and every N: all reported pairs and the unit are positive solutions, multiplying by the unit gives further solutions, and the continued-fraction loop terminates. Completeness of the solution list is not claimed."
  },
  {
   "property": "C45",
   "status": "proved",
   "theorems": [
    "brute_force_correct",
    "brute_force_terminates",
    "pollard_rho_correct",
    "pollard_rho_composite_total"
   ],
   "note": ""
  },
  {
   "property": "C46",
   "status": "proved",
   "theorems": [
    "gf3m_init",
    "gf3m_values_determine_elements",
    "gf3m_set0_set1",
    "gf3m_add_correct",
    "gf3m_double_correct",
    "gf3m_sub_correct",
    "gf3m_neg_correct",
    "gf3m_mult_correct",
    "gf3m_cubic_correct",
    "gf3m_reduct_correct",
    "gf3m_is_field",
    "gf3m_invert_correct",
    "gf3m_div_correct",
    "gf3m_cmp_correct",
    "gf3m_is0_correct",
    "gf3m_is1_correct",
    "gf3m_sqrt_correct_odd_m",
    "gf3m_sqrt_even_m_refuted",
    "gf3m_bytes_round_trip",
    "gf3m_from_bytes_total_refuted",
    "gf3m_random_range_partial",
    "gf3m_random_valid_refuted",
    "gf3m_mul_si_gives_0"
   ],
   "note": "For every trinomial x^m+x^t+2 with 0<t<m<2^30; inversion and division need it to be irreducible. Square roots are correct only for odd m. Decoding does not validate its input, and the random generator is not uniform and leaves the field when 64 divides m: stated as refutations."
  },
  {
   "property": "C47",
   "status": "proved",
   "theorems": [
    "towers_are_fields",
    "gf32m_operations",
    "gf33m_operations",
    "gf36m_operations",
    "gf36m_inversion_refuted",
    "algorithm6_correct",
    "algorithm7_correct",
    "algorithm8_correct",
    "eta_T_pairing_correct",
    "eta_T_pairing_identity"
   ],
   "note": "for odd m not divisible by 3 with an irreducible trinomial, over the bit-sliced GF(3^m) of C46; the refuted theorem shows that inversion in GF(3^6m) (GT of type I) has no defined behaviour"
  },
  {
   "property": "C48",
   "status": "proved",
   "theorems": [
    "i_gen_equations",
    "i_gen_supported",
    "i_gen_type_i_field",
    "i_gen_irreducible",
    "i_gen_pairing"
   ],
   "note": "Every row of the table: n n2 is the order of the supersingular curve over GF(3^m) (sign by m mod 12), m prime to 6, n at least 2^group_size; group sizes above 892 end the program. The trinomial x^m + x^t + 2 of every row is irreducible (Rabin's test, proved sound and run by the kernel), so the field, group and bilinearity theorems apply to every generated parameter set."
  },
  {
   "property": "C49",
   "status": "partial",
   "theorems": [
    "dynamic_array_is_sequence_partial",
    "remove_with_test_refuted",
    "remove_with_test_overrun_refuted",
    "copy_of_empty_array_refuted"
   ],
   "note": "Every legal history in the default build; removal by predicate and copying an empty array are refuted."
  },
  {
   "property": "C50",
   "status": "proved",
   "theorems": [
    "symbol_table_is_map"
   ],
   "note": "Every history, both builds."
  },
  {
   "property": "C51",
   "status": "partial",
   "theorems": [
    "snprintf_correct_partial",
    "snprintf_stays_in_buffer",
    "double_percent_refuted",
    "trailing_percent_refuted"
   ],
   "note": "Bounds for every format; contents for every well-formed format without %%, which is refuted."
  },
  {
   "property": "C52",
   "status": "partial",
   "theorems": [
    "realloc_grows_partial",
    "default_realloc_keeps_prefix",
    "secure_realloc_shrink_refuted",
    "secure_array_copy_refuted"
   ],
   "note": "Growing is safe; every shrinking reallocation in SAFE_CLEAN builds overruns (refuted)."
  },
  {
   "property": "C53",
   "status": "partial",
   "theorems": [
    "type_a_preprocessed_is_tate",
    "type_a_table_size",
    "type_a1_preprocessed_is_tate",
    "type_a1_table_size",
    "type_d_preprocessed_is_tate_partial",
    "type_d_table_size_partial",
    "type_d_table_overrun",
    "type_d_table_refuted",
    "type_g_table_size_partial"
   ],
   "note": "Types A and A1; types D and G if r is not 2^s-1, and false otherwise. Type F uses no table."
  },
  {
   "property": "C54",
   "status": "partial",
   "theorems": [
    "trial_divide_correct",
    "trickle_emits_numeral",
    "trickle_leading_zero_refuted"
   ],
   "note": "trickle prints a leading zero when GMP over-estimates the size."
  },
  {
   "property": "C55",
   "status": "proved",
   "theorems": [
    "complex_operations",
    "complex_inversion",
    "complex_division",
    "complex_power",
    "complex_power_refuted",
    "complex_add_integer_partial",
    "complex_add_integer_refuted",
    "forms_visited_once",
    "forms_primitive",
    "forms_primitive_refuted",
    "class_polynomial_exact",
    "class_polynomial_rounded"
   ],
   "note": "Arithmetic is exact (mpf rounding is not modelled) and the values of j are a parameter respecting conjugation: the numerical evaluation of j and the choice of working precision are outside the model. The refuted theorems show a power with exponent >= 2^31 that never returns, the imaginary part lost by mpc_add_ui, and imprimitive forms for D = 12."
  },
  {
   "property": "C56",
   "status": "partial",
   "theorems": [
    "options_are_per_pairing_partial",
    "options_shared_refuted",
    "options_change_other_results_refuted",
    "initialisation_resets_options_refuted",
    "last_choice_counts",
    "last_miller_choice_counts",
    "type_g_choice_refuted",
    "unknown_options_ignored"
   ],
   "note": "True for types A, A1 and F and for a single pairing of its type; false for several pairings of type D, E or G."
  },
  {
   "property": "C57",
   "status": "partial",
   "theorems": [
    "nodal_cubic_group",
    "nodal_cubic_isomorphism",
    "nodal_cubic_histories_exact",
    "nodal_random_partial",
    "nodal_random_refuted"
   ],
   "note": "The group law and every history of operations are exact; the random point can be the node when the first random x is 0 (refuted with a witness)."
  },
  {
   "property": "C58",
   "status": "partial",
   "theorems": [
    "gt_is_multiplicative",
    "gt_roots_closed",
    "gt_random_in_group_partial",
    "type_a1_gt_random_partial",
    "type_d_random_gt_order",
    "type_e_random_gt_order",
    "gt_mul_si_returns_argument",
    "gt_mul_si_refuted",
    "type_f_random_gt_order"
   ],
   "note": "mul_si, halve and add_ui return their argument unchanged, so that part is false."
  },
  {
   "property": "C59",
   "status": "partial",
   "theorems": [
    "montgomery_ring_exact",
    "field_init_dispatch_indistinguishable",
    "zero_divisor_product_refuted"
   ],
   "note": "Exact unless a product of non-zero residues vanishes; that case is refuted."
  },
  {
   "property": "C60",
   "status": "partial",
   "theorems": [
    "mul_si_returns_argument",
    "halve_returns_argument",
    "mul_si_refuted",
    "halve_refuted",
    "gt_mul_si_returns_argument",
    "gt_mul_si_refuted",
    "type_i_mul_si_halve_refuted"
   ],
   "note": "False on curve points (type I included) and in GT: both calls return their argument."
  },
  {
   "property": "C61",
   "status": "proved",
   "theorems": [
    "random_point_on_curve"
   ],
   "note": ""
  },
  {
   "property": "C62",
   "status": "partial",
   "theorems": [
    "twist_right_hand_side",
    "curve_from_j"
   ],
   "note": "For j = 0 the code builds the singular curve y^2 = x^3."
  },
  {
   "property": "C63",
   "status": "partial",
   "theorems": [
    "point_is_sqr_odd",
    "point_is_sqr_even_refuted"
   ],
   "note": "Right for odd order, wrong for even order."
  },
  {
   "property": "C64",
   "status": "partial",
   "theorems": [
    "coddh_accepts",
    "coddh_decides",
    "type_a1_coddh_accepts",
    "type_a1_coddh_decides",
    "type_e_coddh_decides",
    "type_e_coddh_accepts",
    "type_d_coddh_accepts_partial",
    "type_d_coddh_decides_partial",
    "type_d_coddh_identity_refuted",
    "type_g_coddh_decides_partial",
    "type_f_coddh_decides",
    "type_f_coddh_accepts",
    "type_i_almost_coddh",
    "type_i_coddh_accepts",
    "type_a_coddh_exact_partial"
   ],
   "note": "Types A, A1, E, F and I in full; types D and G for points other than the identity, where the test is undefined. That a positive answer means equal discrete logarithms up to sign is type_a_coddh_exact_partial (type A, r not dividing h)."
  },
  {
   "property": "C65",
   "status": "partial",
   "theorems": [
    "table_preprocessing_is_a_snapshot",
    "default_preprocessing_partial",
    "default_preprocessing_refuted",
    "default_preprocessing_dangles"
   ],
   "note": "True for types that build a table (A, A1, D, G); false for types E and F, which keep a pointer to in1."
  },
  {
   "property": "C66",
   "status": "partial",
   "theorems": [
    "type_i_points_canonical",
    "type_i_point_operations",
    "type_i_point_pow",
    "type_i_group_order",
    "type_i_random_partial",
    "type_i_random_zero_first",
    "type_i_random_refuted",
    "type_i_gt_random_partial"
   ],
   "note": "Group operations and scalars in full; random elements are valid if the first field element drawn is not 0, and may be off the curve otherwise."
  },
  {
   "property": "C67",
   "status": "partial",
   "theorems": [
    "tiny_field_exact",
    "tiny_double_in_place_exact",
    "tiny_from_hash_value",
    "tiny_multiplication_refuted",
    "tiny_set_si_multiple_refuted",
    "tiny_negative_multiplier_refuted",
    "tiny_double_in_place_refuted",
    "tiny_hash_unobservable_refuted"
   ],
   "note": "Exact for every supported history (allowed_tiny); the excluded calls are refuted on the code as written."
  },
  {
   "property": "C68",
   "status": "partial",
   "theorems": [
    "tower_snprint",
    "polynomial_snprint",
    "point_snprint",
    "infinity_snprint",
    "tower_set_str",
    "tower_text_round_trip",
    "gt_text_round_trip",
    "point_text_round_trip",
    "infinity_text_round_trip",
    "point_out_str_count",
    "polynomial_out_str_count",
    "quadratic_out_str_count_refuted",
    "default_snprint_refuted",
    "default_snprint_unterminated_refuted"
   ],
   "note": "Printing and reading proved for all towers, points and GT; the value returned by out_str of quadratic extensions and the default functions are refuted on the code."
  },
  {
   "property": "C69",
   "status": "partial",
   "theorems": [
    "tower_set_str_safe",
    "point_set_str_safe",
    "point_set_str_refuses",
    "point_set_str_garbage_refuted"
   ],
   "note": "Memory safety and refusal of points off the curve proved; validity after malformed text is refuted."
  },
  {
   "property": "C70",
   "status": "partial",
   "theorems": [
    "tower_to_bytes_round_trip",
    "tower_to_bytes_injective",
    "tower_from_bytes_safe",
    "tower_negation",
    "tower_element_sign",
    "tower_random_onto",
    "tower_random_valid",
    "quadratic_from_hash",
    "polymod_from_hash_coefficients",
    "polymod_from_hash_refuted",
    "tower_polynomial_bytes_round_trip",
    "polynomial_bytes_refuted"
   ],
   "note": "Everything is proved except the parts the code violates: polymod_from_hash gives all coefficients the same value, and the two-byte coefficient count loses polynomials of 65536 coefficients."
  },
  {
   "property": "C71",
   "status": "partial",
   "theorems": [
    "irreducibility_test",
    "irreducibility_test_constant",
    "irreducibility_test_refuted",
    "find_root_sound",
    "find_root_quadratic",
    "find_root_refuted",
    "extension_is_sqr",
    "extension_is_sqr_refuted",
    "extension_sqrt_sound",
    "extension_sqrt_draw",
    "extension_sqrt_half",
    "extension_sqrt_nonsquare"
   ],
   "note": "Everything is proved for monic polynomials (degree at least two for roots) over every finite field and every random source; the code violates the property on non-monic polynomials, on degree one and at zero, shown by the _refuted theorems."
  },
  {
   "property": "C72",
   "status": "partial",
   "theorems": [
    "generated_extension_partial",
    "generated_extension_draw",
    "generated_extension_refuted",
    "generated_cofactor",
    "generated_cofactor_d",
    "generated_cofactor_g",
    "generated_cofactor_f",
    "twist_choice",
    "right_curve_kept",
    "twist_choice_refuted",
    "cm_curve_sound",
    "cm_curve_refuted",
    "e_curve_choice",
    "f_curve_partial",
    "f_curve_good_b",
    "f_curve_refuted",
    "f_sextic",
    "f_twist_order_partial",
    "f_twist_refuted",
    "d_parameters_usable",
    "g_parameters_usable",
    "f_parameters_usable"
   ],
   "note": "Every field, every sequence of draws. The property is false of the code when 0 is drawn or the class polynomial has degree one or no root (refuted theorems with explicit runs over F_13 and F_49). Not proved: the complex-multiplication fact that the curve or its twist has n points, and that the other sextic twist has points of order r."
  },
  {
   "property": "C73",
   "status": "partial",
   "theorems": [
    "type_a_net_is_tate",
    "type_a_net_preprocessed_is_tate",
    "type_a_net_table_size",
    "type_a_net_product",
    "type_a_method_unobservable",
    "type_a_method_change_partial",
    "type_a_method_change_refuted",
    "type_a1_net_is_tate_partial",
    "type_a1_net_preprocessed_partial",
    "type_a1_net_table_size",
    "type_g_net_is_tate_partial",
    "type_g_net_preprocessed_partial",
    "type_g_net_product_partial",
    "type_e_net_is_tate_partial",
    "type_e_net_preprocessed_partial",
    "type_e_net_product_partial",
    "type_e_net_refuted"
   ],
   "note": "Proved for types A (all inputs), A1 (first argument of exact order n), G (value not 1, as for its other methods) and E (second argument not a multiple of the first). False of the code: a table built under shipsey-stange and used under a Miller method (or the reverse) is read as the wrong type; type E inverts zero for Q = P, -P and 2P. Open: type E for other multiples, A1 for points of smaller order."
  },
  {
   "property": "C74",
   "status": "partial",
   "theorems": [
    "set_multiz_prime_field",
    "set_multiz_quadratic",
    "set_multiz_extension",
    "set_multiz_polynomial",
    "set_multiz_constant_polynomial",
    "set_multiz_sum",
    "set_multiz_opposite",
    "set_multiz_product_partial",
    "set_multiz_product_refuted",
    "set_multiz_long_list_refuted",
    "set_multiz_point_partial",
    "set_multiz_point_other",
    "set_multiz_point_refuted",
    "set_multiz_round_trip",
    "multiz_text",
    "multiz_text_refuted"
   ],
   "note": "Proved for lists no longer than the degree of their level. False beyond: extra entries are ignored instead of reduced, so products are wrong; points are not checked to lie on the curve; lists cannot be read back from their text."
  },
  {
   "property": "C75",
   "status": "partial",
   "theorems": [
    "type_a_bls_accepts_partial",
    "type_e_bls_accepts_partial",
    "type_d_bls_accepts_partial",
    "type_f_bls_accepts_partial",
    "type_g_bls_accepts_partial",
    "type_a1_coprime_multiple_is_input",
    "type_a1_bls_accepts_partial",
    "type_a1_joux_keys_agree_partial",
    "type_a1_hess_accepts_partial",
    "type_a1_paterson_accepts_partial",
    "type_a1_yuanli_keys_agree_partial",
    "type_a1_zhangkim_accepts_partial",
    "type_a1_zss_accepts_partial",
    "type_a1_shared_factor_refuted",
    "bls_zero_key_refuted",
    "type_a_joux_keys_agree",
    "type_e_joux_keys_agree",
    "type_a_hess_accepts",
    "type_e_hess_accepts",
    "type_a_paterson_accepts",
    "type_e_paterson_accepts",
    "type_a_yuanli_keys_agree",
    "type_e_yuanli_keys_agree",
    "type_a_zhangkim_accepts",
    "type_e_zhangkim_accepts",
    "type_a_zss_accepts",
    "type_e_zss_accepts",
    "zero_inversion_refuted"
   ],
   "note": "proved for bls.c over types A, D, E, F, G (G when no value paired is 1, where its map divides by zero), for the six symmetric programs over types A and E for all keys and nonces, and for all seven over A1 when the first argument of each pairing is a point the A1 pairing accepts; the code violates the property when a random element of Zr is 0: BLS with key 0 (signature O is not encodable), Paterson with k = 0 and ZSS with H(m) = -x (inversion of 0), and over A1 when a secret shares a factor with the group order, each shown by a _refuted theorem; type I is not instantiated (bls.c on it is undefined)"
  },
  {
   "property": "C76",
   "status": "partial",
   "theorems": [
    "type_a_curve_order",
    "type_a1_curve_order",
    "type_a_random_in_group",
    "type_a_hash_in_group",
    "type_a1_random_in_group",
    "type_a1_hash_in_group",
    "type_a_pairing_nondegenerate",
    "type_a1_pairing_nondegenerate",
    "type_a_group_cyclic",
    "type_a_pairing_perfect_partial",
    "type_a_pairing_injective_partial",
    "type_a_pairing_perfect_refuted",
    "type_a_coddh_exact_partial",
    "type_a_bls_rejects_forgeries_partial"
   ],
   "note": "Orders, membership and non-degeneracy are proved for all type A and A1 parameters. The statements about pairs of elements of G1 need r not to divide h, which the library does not check; a counterexample with r dividing h is given. Types D to G and I are not covered."
  },
  {
   "property": "C77",
   "status": "partial",
   "theorems": [
    "calculator_value_semantics_partial",
    "calculator_expression_keeps_variables",
    "calculator_integer_expressions",
    "calculator_reserved_names_fixed",
    "calculator_reserved_assignment_refused",
    "calculator_buried_assignment_refuted",
    "calculator_call_by_value_refuted",
    "calculator_errors_reported_refuted",
    "calculator_extend_refuted"
   ],
   "note": "Proved for every program none of whose assignments is an operand, argument or list member, over any library. The code violates the rest: (x := 3) + 1 changes x to 4, parameters overwrite the caller's variables while the arguments are still being evaluated, calling a number, using the result of a user function or converting an undefined variable is undefined behaviour, and extend can never succeed. The scanner and the parser are C78."
  },
  {
   "property": "C78",
   "status": "partial",
   "theorems": [
    "calculator_reads_what_is_written",
    "calculator_parser_reads_what_is_written",
    "calculator_parser_terminates",
    "calculator_parser_accepts_only_readings",
    "calculator_parser_accepts_iff_grammatical",
    "calculator_scanner_recovers_tokens",
    "calculator_typed_integer_expressions",
    "calculator_assigns_condition_refuted",
    "calculator_assigns_comparison_refuted",
    "calculator_last_comment_refuted"
   ],
   "note": "Proved for every program, every use of parentheses and every layout, up to the output of integer expressions; a token sequence is accepted exactly if the grammar reads it in some way, and then with the grouping of the precedences. The code violates two clauses: := binds tighter than ?: and the comparisons, so x := c ? a : b assigns c and x := a == b assigns a; and a # comment on a last line without line break is a syntax error. The line editor and recovery after a syntax error are not modelled."
  },
  {
   "property": "C79",
   "status": "partial",
   "theorems": [
    "C79_nested_lists_memory_safe_partial",
    "C79_every_call_keeps_storage_partial",
    "C79_all_cleared_nothing_leaked",
    "C79_list_and_member_cleared_refuted",
    "C79_member_assigned_refuted",
    "C79_item_cleared_refuted",
    "C79_appended_to_itself_refuted"
   ],
   "note": "Proved for every history in which an element put into a list is not used on its own again. The code violates the full property there: multiz_new_list, multiz_append and element_item share storage, so clearing or assigning both objects frees a block twice or reads a freed one (witnesses). Comparison, printing and conversion only read and are not part of the histories."
  },
  {
   "property": "C80",
   "status": "partial",
   "theorems": [
    "storage_never_misused_partial",
    "storage_all_released_partial",
    "storage_depends_on_live_objects_partial",
    "storage_can_be_released_partial",
    "storage_blocks_distinct_partial",
    "generator_never_misused_partial",
    "generated_like_read_partial",
    "generated_then_cleared_partial",
    "storage_with_generators_partial",
    "storage_with_generators_released_partial",
    "type_ef_generation_leaks_refuted",
    "type_a1_table_leaks_refuted",
    "missing_key_leaks_refuted",
    "method_changed_under_table_refuted",
    "all_ones_table_overrun_refuted"
   ],
   "note": "Proved for all histories of parameter, pairing, element and table calls, all seven types, except: default-method tables of type A1 (leak, refuted), texts with a missing key (leak, refuted), a method change between making and clearing a table (refuted), and tables of types D and G of order 2^k-1 (overrun, refuted), type A tables with exp1 > exp2. The generators of types A, A1, D, G and I leave the storage of the parameters and nothing else, for every course of the search, alone and within all histories; those of E and F leak (refuted). Temporaries inside one arithmetic operation are not part of this model."
  },
  {
   "property": "C81",
   "status": "partial",
   "theorems": [
    "genaparam_gives_pairing_partial",
    "gena1param_gives_pairing_partial",
    "generated_field_exists",
    "genaparam_bits_refuted",
    "genaparam_two_bits_refuted",
    "genaparam_q_size_partial",
    "genaparam_q_long_refuted",
    "genaparam_q_short_refuted",
    "geneparam_gives_pairing_partial",
    "torsion_multiples",
    "genfparam_gives_pairing_partial",
    "genfparam_bits_refuted",
    "genfparam_few_bits_refuted",
    "gendparam_gives_pairing_partial",
    "gendparam_class_one_refuted",
    "gendparam_large_discriminant_refuted",
    "gengparam_gives_pairing_partial",
    "gengparam_class_one_refuted",
    "gendparam_prints_one",
    "gengparam_prints_one"
   ],
   "note": "Proved from generation through the printed text and its parsing to the pairing, for RBITS >= 4 (type A) and odd N with a search shorter than 2^29 steps (type A1). Refuted: r can be one bit short of RBITS; q can be one bit longer than QBITS, or shorter; RBITS = 2 divides by zero; for A1 a longer search overflows the int l (a1_gen_large_l_refuted). The primality test is assumed to accept only primes. For A1 the first argument of the pairing is in general position (a1_input), as in C35. Type E: bilinear for every auxiliary point R such that r R has order at least 5. Type F: q and r in the Barreto-Naehrig family and bilinear unless b = 0 is drawn; r can have fewer bits than BITS, and BITS = 1 or 2 stops the program (refuted). Type D: the equations of the curve, nk and hk, and bilinear when the class polynomial has degree at least 2 and a root other than 0 and the nonresidue is not 0; a linear class polynomial (D = 11) is undefined behaviour and 3 D >= 2^32 gives parameters of another discriminant (refuted). Type G: as type D, in Freeman's family, wherever the value of the pairing is not 1. Missing: non-degeneracy for types D, E, F and G; the value 1 for type G; other auxiliary points for type E; b = 0 for type F."
  },
  {
   "property": "C82",
   "status": "partial",
   "theorems": [
    "listmnt_lines_true",
    "listmnt_lines_exact",
    "listmnt_ends",
    "listfreeman_lines_partial",
    "listfreeman_lines_exact",
    "listfreeman_ends"
   ],
   "note": "Full for listmnt except that D = 10^9 itself is tried although the heading says D < 10^9. For listfreeman the last discriminants tried are 10^9 + 3 and 10^9 + 27, and the CM equation may hold only for the other member of Freeman's family (cm_search_g_refuted)."
  }
 ]
}