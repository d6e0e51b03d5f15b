# Formal model of blynn/pbc in Coq 8.16.1 — design

## 1. Layout

    rocq/theories/Base/*.v        vocabulary: outcomes (value / undefined behaviour / abort), the GMP
                                  interface (documented meaning of the mpz_*/mpn_* calls used), fields
    rocq/theories/Model/*.v       Gallina transcriptions of the C functions, one file per C file (or
                                  coherent part); every definition cites file:lines in /repo
    rocq/theories/Spec/*.v        small independent specifications (arithmetic mod p, power in a monoid,
                                  curve equation, finite maps, sequences, ...) that mention no model helper
    rocq/theories/Proofs/*.v      lemmas
    rocq/theories/Properties/*.v  only property theorems, each closed by an `exact` of a lemma, followed
                                  by `Print Assumptions`, with an `Example` meeting the hypotheses

Names: `Cnn_...` in Properties.  Suffix `_partial`: only part of the English property is proved.  Suffix
`_refuted`: an existential theorem exhibiting an input on which the code violates the English property
(the general property is then false of the code and is proved under the stated extra precondition).

## 2. Modelling conventions

* mpz_t values are `Z`.  GMP is external: each call is given its documented meaning (Base/Gmp.v).
  mpn_* functions act on lists of 64-bit limbs (least significant first) and return carries.
* C scalars: limbs are integers in [0,2^64) with explicit wrap-around; chars of the zero flag are kept.
* Memory: an element that is "zero by flag" keeps its stale limbs; the model functions take the old
  content of the output argument, so theorems quantify over everything previously stored there.
* Field code built on element_* calls (quadratic extension, curve, Miller loops) is transcribed either as
  let-chains or, where in-place temporaries and aliasing matter, as straight-line programs over a store
  of locations, interpreted over an arbitrary field; two pointers that may alias are two location
  variables that may be equal.
* Undefined behaviour (out-of-bounds access, inversion of zero, uninitialised reads) is a distinct
  outcome, never a default value.  Loops whose termination depends on data take fuel; exhaustion is a
  distinct outcome.
* Randomness and primality testing are arguments (streams / oracles), universally quantified.
* Algebraic structures are records of operations plus a law predicate; theorems quantify over them and
  concrete instances (F_p, F_p[i], ...) are exhibited.

## 3. Trusted base

* Coq 8.16.1 kernel (and `vm_compute` conversion for closed computations).
* `Print Assumptions` stands under every property theorem; every one of them answers "Closed under the
  global context": no axiom, neither of the standard library nor of this development, is used.
* The transcription from C to Gallina, done by hand; the cited line ranges allow review.
* The documented behaviour of GMP, libc (malloc, memcpy, printf family) and the C abstract machine for
  the parts used (64-bit limbs and longs, 32-bit ints, two's complement).
* Parameters of theorems (never axioms): streams of random values, primality tests, the hash-to-bytes
  input, what `malloc` returns, the value of the j-function (floating point), and what printing one
  directive or one number outputs.

### What is modelled

| C source | model | not modelled |
|----------|-------|--------------|
| arith/naivefp.c, fastfp.c, fasterfp.c, montfp.c, fp.c | NaiveFp, FastFp, FasterFp, MontFp, FpMachine (all calls, histories over any number of elements), text in ElementText | errors of FILE streams |
| arith/tinyfp.c | TinyFp (all calls, histories) | out_str; random (as naivefp); sqrt is element_tonelli, see Tonelli; in-place doubling is outside the histories and treated separately |
| arith/field.c | GenericPow (window powers, pow2/pow3, tables), FieldInt, Tonelli, IntText | element_fprintf wrappers, double-base output to FILE |
| arith/z.c, random.c | ZRing, Random | deterministic GMP generator, /dev/urandom itself, win32 source |
| arith/multiz.c | Multiz (ring operations, comparison, constructors), SetMultiz (conversion to every field, text), MultizHeap (nodes as blocks of storage: who allocates, shares and frees) | byte encodings (they read the tagged union as an mpz) |
| arith/fieldquadratic.c | Quadratic (both variants, with aliasing), text in ElementText; bytes, sign, hashing, random in TowerCodec | - |
| arith/poly.c | Poly, Polymod (mul/square of every degree, inversion, division, gcd) ; text in ElementText; bytes, sign, hashing, random in TowerCodec; irreducibility, roots, squares in PolyTests; poly_random_monic in CurveGen | trial_divide printing |
| arith/ternary_extension_field.c | GF3m, GF3Tower | text output |
| arith/dlog.c | Dlog | progress output |
| ecc/curve.c | Curve (machine with aliasing), CurveCodec, text in ElementText | ab_map |
| ecc/singular.c | Singular | |
| ecc/pairing.c, include/pbc_pairing.h | Pairing, GT, DefaultPP, PairingOptions | pairing_init_set_buf glue |
| ecc/a_param.c | PairingA, PairingA1, EllNet, Lucas, ParamGen | |
| ecc/d_param.c, g_param.c | PairingD, EllNet, Miller, Lucas, PairingOptions, CurveGen | |
| ecc/e_param.c | PairingE, EllNet, ParamGen, CurveGen | |
| ecc/f_param.c | PairingF, ParamGen, CurveGen | |
| ecc/eta_T_3.c | EtaT3, PairingI, ParamGen (table) | text output of points |
| ecc/mnt.c | Mnt | |
| ecc/hilbert.c, mpc.c | Hilbert, Mpc (exact complex numbers) | mpf rounding, power series of the j-function |
| ecc/param.c and *_out_str / init_* of every type | Param | reading FILE streams |
| misc/darray.c, symtab.c, memory.c, extend_printf.c | Darray, Symtab, Memory, Printf | utils.c messages, get_time.c |
| pbc/pbc.c, parser.y, parser.lex | Calculator (evaluation of syntax trees), CalcParser, CalcScanner | line editing, recovery after syntax errors, sharing inside lists, storage reuse by a second init_pairing_* |
| gen/genaparam.c, gena1param.c, gendparam.c, geneparam.c, genfparam.c, gengparam.c, listmnt.c, listfreeman.c | GenTools, GenToolsD, GenToolsG, GenLists | command line, heading of the tables |

Not modelled at all: hilbertpoly.c in gen/ (a command-line wrapper of pbc_hilbert), guru/, benchmark/, pbcxx.h. Of example/, initialisation, printing and timing are left out.

## 4. Plan per property

| id | what is modelled | how it is proved |
|----|------------------|------------------|
| C01 | montfp.c limb by limb (Model/MontFp.v) | representation relation `rep e v`; Montgomery loop invariant; carry analysis. mont_mul is expected to need "top limb of p not all ones": the lost-carry witness is a refuted theorem |
| C02 | naivefp, fastfp, fasterfp, montfp (Model/NaiveFp.v, FastFp.v, FasterFp.v, MontFp.v) and a machine of API calls | each back-end simulates Z/p by a representation relation; induction over histories |
| C03 | fp_invert of each back-end, generic_div | mpz_invert specified by its defining equation |
| C04 | fp_cmp/is0/is1 of each back-end | representation relation; refuted for the flag back-ends (stale limbs) |
| C05 | to_bytes/from_bytes, pbc_mpz_out_raw_n | big-endian digit lemmas |
| C06 | from_bytes on arbitrary bytes | proved for fastfp; refuted for naivefp, fasterfp, montfp (multiple of p) |
| C07 | generic_pow_mpz with window tables | loop invariant over the bits of n in an arbitrary monoid |
| C08 | element_pow2_mpz/pow3_mpz | loop invariant, commutative monoid |
| C09 | element_build_base_table/pow_base_table | table invariant + walk invariant |
| C10 | element_tonelli, is_sqr | Tonelli-Shanks invariant in an abstract finite field |
| C11 | sgn functions | parity of p - v |
| C12 | pbc_mpz_set_str | digit induction |
| C13 | pbc_mpz_from_hash | bound on shifted value; refutation of `< modulus` for naivefp |
| C14 | file_mpz_random, pbc_mpz_random | counting preimages of the masking map |
| C15,C16 | z.c | direct; refutations for halve and byte lengths |
| C17 | multiz.c trees; the layout of the tagged union in words (Model/MultizBytes) | induction on trees; refutation for sub and for the byte encodings, which read the tagged union as an mpz (decoding is not modelled) |
| C18 | fieldquadratic.c as straight-line programs | symbolic execution + ring, alias case analysis |
| C19 | fq/fi is_sqr, sqrt | norm argument; refutation for non-residues of the base field |
| C20,C21 | poly.c coefficient lists | induction on lists; refutations for mul_si, double, from_bytes |
| C22,C23 | polymod code | evaluation modulo f, ring identities; extended Euclid |
| C24,C25,C26 | curve.c group law | field identities; associativity proved over an arbitrary field |
| C27 | point encodings | composition of field encodings; refutation for O |
| C28 | curve_from_hash | independence of the choice of root by sign normalisation |
| C29 | multi_double, multi_add | batch-inversion invariant; refutation with exceptional entries |
| C30 | trace_n, curve_order_extn | recurrence for Lucas sequences |
| C31,C35 | type A / A1 Miller loops (affine, projective, preprocessed) | step-wise scaling relation by factors of F_q; final exponentiation kills them |
| C32 | a_tateexp | x^(q^2-1)=1 |
| C33 | lucas_odd, lucas_even | Lucas V-sequence invariant |
| C34 | pairing.h wrappers, a_pairings_affine | fold induction; refutation for identity entries |
| C36 | type D/G Miller loops | scaling relation; refutation of method "miller" |
| C37 | type E Miller loops | scaling relation |
| C38 | type F sparse multiplication, exponent arithmetic | ring identities |
| C39 | every pairing type | Tate pairing in Miller's form, identities between lines through points of the curve over an arbitrary field; type I: the eta_T product is reduced to a Miller function of the same curve |
| C40,C41 | tokenizer, symbol table, param printers | induction on texts |
| C42 | *_gen loops with oracles | partial correctness by loop invariants |
| C43,C44 | mnt.c | continued-fraction invariants, ring identities |
| C45 | dlog.c | loop invariants |
| C46,C47 | ternary fields | bit-level truth tables lifted to words, polynomial identities |
| C48 | constant table | vm_compute; irreducibility of the trinomials by Rabin's test, proved sound |
| C49,C50 | darray.c, symtab.c | refinement of lists / finite maps over histories |
| C51 | extend_printf.c | format walk |
| C52 | memory.c | block model |
| C53 | pp_init counters | counting stores against allocation |
| C54 | field.c integer helpers | arithmetic |
| C55 | mpc.c, hilbert.c over exact rings | ring identities, list induction |
| C56 | global method pointers | state machine; refutation |
| C57 | singular.c | field identities; refutation for x = 0 |
| C58,C60 | pairing.c GT wrapper, generic_* defaults | direct; refutation for mul_si/halve |
| C59 | montfp with composite modulus | refutation with zero divisors |
| C61 | curve_random over the square-root code | composition with C10; random stream universally quantified |
| C62 | twist functions of curve.c | field identities |
| C63 | curve is_sqr | direct |
| C64 | is_almost_coddh of each type | bilinearity and the product pairing |
| C65 | preprocessed pairings holding an address | store with updates between the calls |
| C66 | type I group, random elements | representation of stored points; field order 3^m |
| C67 | tinyfp.c with 64-bit wrap-around | simulation of residue arithmetic over call histories; necessity of each exclusion refuted by witnesses |
| C68 | snprint/out_str/set_str of towers, curves, GT (Model/ElementText.v) | composition lemma for truncated writes; induction over towers and coefficient lists |
| C69 | set_str on arbitrary strings | invariant: the cursor stays in the part before the terminator; refuted for failed point texts |
| C70 | bytes, sign, hashing, random of towers (Model/TowerCodec) | induction on the tower; refuted for polymod_from_hash and for polynomials of 65536 coefficients |
| C71 | poly_is_irred, poly_findroot, polymod_is_sqr, polymod_sqrt (Model/PolyTests) | Rabin's criterion over any finite field (RabinField), linear factors of X^q - X, evaluation at the roots of X^2 - a; refuted for non-monic polynomials, degree one, and is_sqr of 0 |
| C72 | what the generators of types D, G, E, F do once q and r are known (Model/CurveGen) | irreducible loops by C71; r^2 divides the extension order by an induction on the trace recurrence; X^6 + a^5 irreducible from X^6 + a irreducible; the results satisfy type_d, type_g, type_f; refuted when 0 is drawn. Not proved: that the curve or its twist has n points (complex multiplication), that one of two sextic twists has order-r points |
| C73 | the elliptic-net loops of types A, A1, G, E (Model/EllNet) | the net A(n), B(n) of P and Q is defined by its three-term recurrences; every block of eight or three terms the loop keeps is a window of it; B(r+1) is Miller's function at -Q up to a power of one constant that the final powering removes; the twisted coordinates of types A and G scale the net. type E needs A(r-j) in terms of A(j) and f(Q) f(-Q). Refuted: a table built under one method and used under another; type E at P, -P and 2P |
| C74 | set_multiz of every field, multiz text (Model/SetMultiz) | value of a list in a field with named generators, level by level; sums, products, opposites commute with values in any field; refuted: lists longer than the degree are cut, points are not checked, lists cannot be read back |
| C75 | the seven programs of example/, one honest run each (Model/Examples); random choices and hashes are arguments | each program computed once over an abstract bilinear pairing (Proofs/ExampleFacts, ExampleBls), then instantiated with the pairings of types A, E (all programs), D, F (BLS), G (BLS, when the values paired are not 1), A1 (all programs, when the first arguments of the pairings are points the A1 pairing accepts; Proofs/ExampleA1); refuted: key 0 in BLS, k = 0 in Paterson, H(m) = -x in ZSS, and over A1 a secret that shares a factor with the group order |
| C76 | nothing new: points, pairings and programs of C25-C28, C31, C35, C64, C75 | order: n(x) + n(-x) = 2 for the number n(x) of points above x, as -1 is not a square (Proofs/Supersingular); the sum over a finite group gives (q + 1)Q = O, cosets give cyclicity (Proofs/CurveOrder); Miller's function is written as A(X) + Y B(X) with deg bounds (Proofs/MillerPoly), and if all values were 1 then B would have too many roots (Proofs/NonDegenerate); refuted: r dividing h, which the library does not exclude (q = 587, r = 7, h = 84) |
| C77 | pbc/pbc.c: value objects in memory, the two symbol tables, every node type, every built-in function with its arity and type checks, user functions, printing of statements (Model/Calculator); the library is a record of arbitrary operations | the value semantics (Spec/Calculator) is simulated step by step: evaluation of a clean tree never writes to an object that existed before it, and an element it returns is in no table (Proofs/CalculatorFacts); consequences for expressions, integers, reserved names (Proofs/CalculatorUse); refuted: assignments inside operands, call by value, reporting of ill-typed calls, extend |
| C78 | pbc/parser.y as a shift-reduce machine over the grammar symbols, conflicts resolved by the declared precedences as bison does (Model/CalcParser); pbc/parser.lex as longest-match scanner (Model/CalcScanner) | a decreasing measure bounds the actions; an invariant says that the stack spells the tokens consumed, so what is accepted is a reading in the grammar without precedence; induction on source expressions, with the places where an expression may start and the tokens that end it, shows that what is written with the parentheses the precedences call for, and any others, is read back (Proofs/CalcParserFacts, CalcParserWrite); conversely every text with some reading is such a writing, by regrouping its operators with a stack of pending ones (Proofs/CalcParserComplete), so acceptance is decided exactly; the scanner by induction on the layout (Proofs/CalcScannerFacts); refuted: assignments of conditions and comparisons, a comment at the end of the file |
| C79 | multiz.c nodes as blocks of a heap, freed blocks unusable (Model/MultizHeap) | the blocks of a value as a footprint; every constructor adds exactly the blocks of its result and frees its temporaries, by induction on values; an invariant says that elements in use have disjoint footprints and that nothing else is allocated; refuted: an element and the list it was put into both own it |
| C80 | every init/clear function of elements, fields, parameters, the seven pairing types, pairing_pp_t and element_pp_t as a program over a heap of named blocks; releasing a block that is not there or using one after release is UB (Model/Storage) | for each function the multiset of blocks it adds or releases and the blocks it needs, composed bottom-up over the towers of fields; histories of calls by an invariant: the heap is the multiset of the blocks of the live objects, and each object's pairing is live. Not modelled: the storage of temporaries of arithmetic operations (they are created and cleared within one call), and the limbs inside an mpz. The seven parameter generators are programs over the same heap (Model/StorageGen), with the course of the search as a parameter; histories may mix generated and read parameters. Refuted: generating parameters of types E and F leaks the curve; default tables of type A1 leak; a text with a missing key leaks; changing the method under a table; tables of types D and G when r = 2^k - 1 |
| C81 | gen/genaparam.c, gena1param.c, gendparam.c, geneparam.c, genfparam.c and gengparam.c over the models of the generators, the printing and parsing of parameters and the pairings (Model/GenTools, Model/GenToolsD, Model/GenToolsG) | composition: the equations of C42 give the hypotheses of the round trip of C40 (all ints in range) and of the records type_a, type_a1, whose pairings are bilinear and non-degenerate by C31, C35, C39, C76; the sizes of r and q by cases on the signs of the Solinas prime. Type E: the multiples of torsion points and the shift of C73. Type F: r divides q^4 - q^2 + 1 by a polynomial identity in x, the count over the field with q^12 elements is non-negative because t^2 <= 4q, then the curve and twist chosen by the generator (C72) give the record type_f. Types D and G: the search of C43 gives the equations, the choices of C72 the records type_d and type_g. Witnesses for the refuted parts by computation |
| C82 | gen/listmnt.c and listfreeman.c over the model of the CM searches (Model/GenLists); the heading line is left out | induction on the loop gives the set of discriminants visited; soundness and termination of each search from C43; the bound and the residues by arithmetic |

Not expressible / out of scope: wall-clock behaviour, constant-time properties, floating-point accuracy
of hilbert.c (mpf rounding), GMP internals, Windows random source, the scanner of pbc/ and all of guru/,
benchmark code.
