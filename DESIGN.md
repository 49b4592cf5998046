# Formal model of hmcol/algeo in Rocq (Coq 8.16.1)

## 1. Shape of the development

`/verif/rocq/theories` (logical name `Verif`), standard library only, one style.

Layers (each file depends only on earlier ones; the build order is that of `_CoqProject`):

| layer | files | content |
|---|---|---|
| model | `Base`, `IntModel`, `RatModel`, `FieldIface`, `MDegModel`, `OrdModel`, `PolyModel`, `CompModel`, `UtilModel`, `MatModel`, `AlgModel`, `ConeModel`, `DebugModel`, `DisplayModel`, `FloatModel`, `MainModel`, and the first sections of `MatDisplay` and `FloatDisplay` | Gallina transcription of the Rust, function by function, each with a `file:lines` citation. No proofs. |
| specification | `MonoSpec`, `PolySpec`, `GroebnerSpec`, `DivSpec`, `IdealSpec`, `SubstSpec`, `StdSpec`, `GradeSpec`, `LinSpec`, `RrefSpec`, `Farkas`, `DetSpec`, `MapSpec`, `LinPolySpec` | mathematical vocabulary and theorems that do not mention the model: monomials as exponent functions, polynomials as coefficient functions, ideals, Groebner bases, Buchberger's theorem, uniqueness of division, matrices as functions, independence, echelon forms, linear inequalities, determinants. |
| proofs, exact fields | `BaseLemmas`, `IntProofs`, `RatProofs`, `NumFacts`, `MDegProofs`, `OrdProofs`, `PolyProofs`, `DivProofs`, `GbProofs`, `CompMono`, `MatProofs`, `AlgProofs`, `Ideal`, `NoOverflow`, `BoundProofs`, `LinFacts`, `ConeProofs`, `DisplayProofs` | the model computes the specification. |
| proofs, two runs | `Param`, `ParamMat`, `Transfer`, `Refine`, `FloatSim` | simulation: the same code over two coefficient types, step by step (checked against release builds, Rational against Q, unrounded float runs against Q). |
| proofs, any coefficient type | `DivShape`, `ElimShape`, `ElimEntry`, `CleanShape` | what does not depend on the arithmetic. |
| proofs, floats | `FloatExact`, `FloatRound`, `FloatNearest`, `FloatErr`, `FloatLU` | exactness, correct rounding, error bounds. |
| properties | `Prop*` | the theorems listed in MANIFEST.json with their `Print Assumptions`, and non-vacuity `Example`s. |

### How a Rust run is modelled

`res A := Ok a | Panic kind | NoFuel`. A panic is data, with its *kind*
(`Overflow`, `DivZero`, `IndexOOB`, `UnwrapNone`, `Explicit`), so "panics only for overflow" is a
statement. `while`/`loop` become recursion on explicit fuel; `NoFuel` is never a normal value and every
termination theorem says "there is a bound N such that for every fuel >= N the outcome is not NoFuel".

`mode := Debug | Release` is an argument of every primitive machine operation. `Debug` is a build with
overflow checks (cargo's default for dev/test): out-of-range `+ - * neg abs pow` gives `Panic Overflow`.
`Release` wraps modulo 2^64 (i64) or 2^8 (u8). `/` and `%` panic in both modes on zero divisors and on
`MIN / -1`. usize index arithmetic is modelled with unbounded `nat` (no Vec can be that long), except where noted.

### Coefficient fields

The Rust code is generic over the trait `Field`. The model is generic over a record `FieldImpl` (carrier plus
*fallible* operations, each returning `res`). What the theorems assume of a coefficient type is a separate record
`FieldSpec`: a mathematical field `K` (stdlib `field_theory`), a well-formedness predicate on representations, a
denotation into `K`, and for each operation: on well-formed operands it either panics with `Overflow` or returns a
well-formed representation of the exact result; `x == ZERO` iff the denotation is zero. It does **not** assume
that equal values have equal representations, because `Rational` violates that (C07).
`Rational` is proved to be an instance (in Debug mode, K = `Qc`), so every generic theorem applies to
`Polynomial<Rational>` and `Mat<Rational>` with i64 overflow included.

### Floats

`f32`/`f64` are not instances of `FieldSpec`: rounding breaks the field laws. They are instances of `FieldImpl`
(`FloatModel`), built on the executable IEEE 754 specification of the standard library (`Coq.Floats.SpecFloat`, plain
definitions over Z; the axiomatised primitive floats are not used). What is proved about them: operations with a
representable result are exact (C79), runs in which nothing is rounded satisfy all theorems about exact fields (C80),
division and Groebner bases can run forever (C81), what holds for every coefficient type (C82, C85), outcomes of
elimination (C83), error bounds (C84, C86, C91), comparisons (C87, C88). Simplifications: one NaN, without sign and
payload; `powi`, whose precision Rust leaves unspecified, and the start value of `Sum` (0.0 or -0.0, depending on the
version of the standard library) are parameters of every theorem.

### Monomial orders

The trait `MonomialOrder` becomes an argument `ocmp : list nat -> list nat -> res comparison`. `OrderSpec` (well-order
on n variables, total, compatible with multiplication) is proved for Lex, RevLex, GrLex, GRevLex and assumed for a
user-supplied order: this is exactly what the trait's doc comment lists as "not checked by rust".

## 2. Plan per property

| id | what is modelled | how proved |
|---|---|---|
| C01-C03 | Integer API over Z with explicit range checks | Euclid loop invariant, `Z.gcd` characterisation; witnesses for sign/truncation |
| C04-C11 | Rational API (both modes) with structural equality | denotation into Q; induction over expression trees for histories; witnesses by `vm_compute` for the defects |
| C12-C16 | MultiDegree as `list nat` with u8 checks | induction on lists; exponent function `expo` |
| C17-C21 | four orders, `cmp` may panic | induction; well-foundedness by lexicographic product over n; witness for wrap |
| C22-C29 | Term / Polynomial operators | coefficient-function semantics, clean-form invariant, expression-tree induction |
| C30-C37 | Computer: sort, leading term, divide, lcm, S-polynomial | loop invariants, well-founded recursion on leading monomial |
| C38-C45 | Buchberger criterion, extend, minimise, reduce | own proof of Buchberger's theorem in `GroebnerSpec/Proofs`; counting argument on u8 monomials for termination |
| C46-C58 | Mat and elimination algorithms | entry semantics; loop invariants P*A=B with explicit inverse; pivot-list invariant; hash order as an arbitrary permutation |
| C59-C61 | iterators in util | unfolding the iterators; digit arithmetic |
| C62-C64, C74, C75 | display as character lists | finite sweep for u8; injectivity by parsing |
| C65-C66, C76 | Cone::new | composition of the linalg theorems; low-rank panics; witnesses |
| C67-C73 | further facts about division, uniqueness of rref, rank | uniqueness in the specification layer; rank via independent columns |
| C77, C78 | two runs of the same code | simulation relations through every function |
| C79-C88 | floats | see above |
| C89, C90 | Display of Mat and Polynomial<f64> | injectivity by parsing; the text of an f64 is a parameter with a contract, an instance is given |
| C91 | lu over floats | invariant per entry: the computed l and u are the exact factors of a matrix close to p*self |
| C92-C98 | uses of divide and buchberger_algorithm | from C32-C45 by mathematics in `IdealSpec`: elimination, coefficients of a power of one variable |
| C99 | arithmetic and division on polynomials that are not clean | the lemmas of `PolyProofs` with the cleanness hypothesis dropped where it can be, and runs for the rest |
| C100 | how many iterations `gcd` and `divide` need | the Fibonacci bound for gcd; a count of the degrees below the leading degree for divide |
| C101 | MultiDegree with trailing zeros | exponent functions of the results of the loops of `mdeg.rs`; an invariant of the division loop |
| C102 | the half-spaces of the facets against the cone | Farkas' lemma and the fundamental theorem of linear inequalities (`Farkas.v`), C76 |
| C103 | size bounds under which no operation overflows | numerator and denominator bounds through each fold (`BoundProofs.v`) |
| C104 | solving A x = c with p, the bound variables and the kernel | pivot columns span the vectors supported on the first r rows; C51-C54 |
| C105 | saturation and radical membership | replacing x_i by 1/f after clearing denominators (SubstSpec), C94 and C95 |
| C106 | intersection and quotient of ideals | substituting 0 and 1 for the extra variable, C95, no zero divisors |
| C107 | standard monomials | normal forms exist and are unique, dependent rows (StdSpec) |
| C108 | number of common zeros | interpolation at the points, dependent rows (StdSpec) |
| C109 | weighted homogeneous input gives weighted homogeneous output (weights in Z, also modulo k); the result decides whether the ideal is homogeneous | `GradeSpec` (filtering on grades commutes with multiplication by homogeneous polynomials; uniqueness of division and of remainders), `PropGraded` |
| C110 | number of terms: binomial and monomial generators stay binomials and monomials | counting supports without the cancelled leading monomial; an invariant of the three loops (`PropSparse`) |
| C111 | determinants: LU, products, transposes, row operations, rank | Laplace expansion; multilinear and alternating in the rows; multiplicativity from the LU decomposition over the field itself (`DetSpec`, `PropDet`) |
| C112 | polynomial maps: kernel, implicit equations, subalgebra membership | kernel of a substitution is the ideal of its graph; elimination; normal forms stay in an initial segment of an elimination order (`MapSpec`, `PropMap`) |
| C113 | Groebner bases of linear systems and row reduction agree | the rows of a reduced echelon form are a reduced Groebner basis, shown by solving for the pivot variables; uniqueness of reduced Groebner bases (`LinPolySpec`, `PropLinPoly`) |
| C114 | Debug output of all types, alternate formats | the builders of core::fmt as a printer of trees; reading back with what may follow a value; padding is invertible (`DebugModel`, `DebugProofs`, `PropDebug`) |
| C115 | Transposes: solvability and least squares | echelon form of the matrix gives rows of p in the left kernel; sums of squares over Q (`PropGram`) |
| C116 | Renaming the variables | two-run relation on exponent vectors, pushed through every function in both directions (`ParamDeg`, `RenameProofs`, `PropRename`) |
| C117 | Larger fields | an implementation of K composed with the embedding implements a part of L, so the generic theorems apply twice (`PropExt`); Gaussian rationals as an example |
| C118 | Hilbert functions | reduction does not raise the degree, so independent polynomials modulo the ideal are at most as many as standard monomials (`HilbertSpec`, `PropHilbert`) |
| C119 | No overflow on the way to a power | the loop of Rust's core library transcribed; invariants on accumulator and base (`PropPow`) |
| C120 | The dimension of an ideal | counting: products of independent variables against standard monomials; Lex and RevLex by weights that decide bounded exponents (`DimSpec`, `PropDim`) |
| C121 | The crate's unit tests hold for all inputs | the tests transcribed (`TestsModel`, which also runs them on the model); assertions by the theorems on the functions tested (`PropTests`) |
| C122 | Writing through the mutable accessors | models of single writes and of loops (`AccessModel`, `PropAccess`) |
| C123 | Integer arithmetic over Rational, f32 and f64 is exact within bounds | one run over bounded integers simulates all three types; norms are submultiplicative (`IntSim`, `IntNorm`, `PropInt`) |
| C124 | Divisions in which no degree overflows | the order is closed downwards on the monomials of total degree at most 255, combined with C100 (`PropFits`) |
| C125 | Dividing integer polynomials over Rational, f32 and f64 is exact within bounds | coefficient growth per iteration, C124 for the number of iterations (`IntNorm`, `PropInt`) |
| C126 | Elimination over Rational does not overflow within explicit bounds | bounds for every row, carried through the permutations, scalings and replacements (`ElimBound`, `PropElimFits`) |
| C127 | Bases of monomials and differences of monomials are the same over every number type | simulation of the run over the integers -1, 0, 1 by every other run, with the shape of the polynomials as invariant (`SignSim`, `SignRun`, `PropBinomial`) |
| C128 | The facets Cone::new finds over any number type, f32 and f64 included | inversion of the loop, the lexicographic order of combinations (`PropConeAny`) |
| C129 | buchberger_algorithm on monomials | computation of each step; the removals of minimize leave the same survivors (`PropMonomial`) |
| C130 | coprime leading terms (Buchberger's first criterion) | S(f, g) is a multiple of f' g - g' f with f', g' the tails: a representation below the lcm; then the criterion, the uniqueness of leading monomials and the dimension theorem of C120 (`PropCoprime`) |
| C131 | order of stored terms | induction over the second summand; loop invariant of divide: what is left lies below every stored term (`PropTermOrder`) |
| C132 | operators of Integer in both profiles | case distinction on the range; congruences modulo 2^64 (`PropInteger`) |
| C133 | elementary functions used by the others | direct computation; positions of row-major lists (`PropElementary`) |
| C134 | systems with finitely many candidates are decided | Chinese remainder theorem for the linear factors, induction on the variables; dimension count (`GridSpec`, `PropGrid`) |
| C135 | syzygies of a basis | theorem of Schreyer, by induction on the largest leading monomial of v_k g_k (`SyzSpec`, `PropSyz`) |
| C136 | linear algebra modulo an ideal | coefficients of normal forms; standard monomials are a basis of the quotient (`ModSpec`, `PropModular`) |
| C137 | matrices of polynomials | the part of weight d of the ideal is spanned by the multiples (`MacSpec`, `PropMacaulay`) |
| C138 | Sylvester matrices | the u f + v g with deg u < n, deg v < m are the multiples of h of degree below m + n (`SylSpec`, `PropSylvester`) |
| C139 | word problem of commutative monoids | the ideal of the differences holds x^u - x^v iff u and v are linked by the multiples of the relations that occur in a combination (a functional constant on connected components); monomials up to the smallest congruence are a model (`WordSpec`, `PropWord`) |
| C140 | division as rewriting | well-founded induction on the highest monomial and on the rest; a change by a multiple of a divisor has a common reduct with the unchanged polynomial; the quotient terms in descending order are the steps (`RewriteSpec`, `PropRewrite`) |
| C141 | GRevLex and the last variable | the lowest exponent of x_n in a homogeneous polynomial is that of its leading monomial, so division of a multiple of x_n uses only multiples of x_n (`LastVarSpec`, `PropLastVar`) |
| C142 | homogenization and setting a variable to one | x_n = 1 keeps the order of the monomials of a homogeneous polynomial; a combination with x_n = 1 is lifted to one of a common degree (`HomogSpec`, `PropHomog`) |
| C143 | exponents in release builds | exponents modulo 256 are a monoid, so the identities of C99 hold in the quotient by x_i^256 = 1 (`WrapSpec`, `PropWrap`) |
| C144 | interpolation | values of monomials at points as a matrix: kernel and rank (C53, C54), Lagrange polynomials, and reduction to standard monomials (`InterpSpec`, `PropInterp`) |
| C145 | multiplication matrices | the matrix acts on combinations of standard monomials as f does modulo the ideal; uniqueness of these combinations gives the rest (`MultSpec`, `PropMult`) |
| C146 | change of order | relations between remainders (C136) are relations modulo the ideal; independence of standard monomials and normal forms for the second order (`FglmSpec`, `PropFglm`) |
| C147 | integer programming | the congruence generated by the columns is equality of the totals u + A v (`IpSpec`), remainders are least elements of classes (C139) |
| C148 | Zassenhaus' sum-intersection algorithm | the row space of the large matrix consists of the rows (x + y, x) with x in the first and y in the second space (`ZasSpec`); echelon rows with pivots in the second half have first half zero |
| C149 | backward error of division | invariant of the loop (`DivErr`): quotient by 1 is exact, so the leading term cancels and degrees drop; every other coefficient takes one rounded product and one rounded sum |
| C150 | Buchberger's second criterion | the difference of two polynomials lifted to the same leading monomial telescopes along the path (`ChainSpec`), each step a multiple of an S-polynomial with a representation below its own least common multiple |
| C151 | error of evaluation | one lemma for a rounded product with a factor of relative error delta, one for a rounded sum of inexact summands, induction over factors and terms |
| C152 | order dependence | rewriting depends on the order only through the leading monomials, and a basis is a Groebner basis iff rewriting has one end (`RewriteSpec`); equality of runs is the renaming theorem for the identity |
| C153 | sums as stored | by cases on the first item and a lemma on folding over a list with one more item |
| C154 | evaluation order | from C153 and the lemma on folding over a list with one more item |

## 3. Trusted base

* Coq 8.16.1 kernel (with `vm_compute`), standard library.
* Axioms: none; section 4 lists the output of `Print Assumptions` for every property theorem.
* The reading of the Rust source: each definition cites its lines.
* Standard-library and itertools behaviour, modelled by contract: `Iterator::max_by` (last maximum, left fold),
  `reduce`, `zip`, `zip_longest`, `sort_by`/`sorted_by` (stable sort: modelled by insertion sort), `position`, `Vec::remove/swap/truncate`,
  `cartesian_product`, `combinations`, `i64::pow` and `usize::pow` (exact power, range-checked/wrapped; the loop in `core` does this: C119), `HashSet` (arbitrary iteration order),
  decimal formatting of integers, `DebugList`, derived `Debug`, IEEE arithmetic of `f32`/`f64`.

### Modelled

| Rust | model | remarks |
|---|---|---|
| core/num/int.rs | `IntModel`, `DisplayModel` | all functions and operators |
| core/num/rat.rs | `RatModel`, `DisplayModel`, `MatDisplay`, `DebugModel` | all functions and operators; op-assign forms are the operators |
| core/num/traits.rs | `RatModel`, `FieldIface`, `FloatModel`, `AccessModel` | Zero, One, Field, EpsilonEquality, StabilityCmp, Ord for Rational, f32, f64; Zero and One for the primitive integers |
| poly/mdeg.rs | `MDegModel`, `AccessModel` | all; `degs_mut` by the writes made through it |
| poly/ord.rs | `OrdModel` | all four orders; a user's order is a parameter |
| poly/elts.rs | `PolyModel`, `AccessModel` | all; `terms_mut` by the writes made through it |
| poly/comp.rs | `CompModel` | all functions, including the private ones |
| poly/display.rs, macros.rs | `DisplayModel`, `FloatDisplay` | all Display impls; of the macros `fn_vars` |
| linalg/util.rs | `UtilModel`, `MatModel` | all functions and iterators |
| linalg/mat.rs | `MatModel`, `MatDisplay`, `DebugModel` | all functions and operators |
| linalg/algorithm.rs | `AlgModel` | all functions |
| linalg/cone.rs | `ConeModel` | all |
| main.rs | `MainModel` | all |
| the `tests` modules | `TestsModel` | every unit test, with the loops of the larger ones over fewer inputs; they pass on the model |

### Not modelled, and simplifications

* `Clone`, `Copy`; formatter flags other than `#`.
* The owned/borrowed variants generated by `xops::binop` (all forward to the modelled `&` version; `commute` swaps arguments).
* Memory, performance, stack depth.
* usize arithmetic is unbounded, except in `mat_iterator` (C60) and `form_nullity_release` (C83). The subtraction in `rank` never
  underflows; the one in `nullity` can over floats, and wraps in a release build (C83_nullity_release_refuted).
* A `Panic` is the first panic; destructors and unwinding are not modelled.
* Float simplifications: see "Floats" above.

## 4. Print Assumptions

Generated by `tools/assumptions.py` from the compiled files.

**Closed under the global context** (615 theorems):

* `C01_gcd_both_profiles`, `C01_gcd_is_gcd`, `C01_gcd_release_min_refuted`, `C01_gcd_terminates`
* `C02_lcm`, `C02_lcm_completes`, `C02_lcm_nonnegative_refuted`, `C02_lcm_zero_zero`
* `C03_pow_exact`, `C03_pow_refuted`, `C03_pow_truncates`
* `C04_new_canonical`, `C04_new_completes`, `C04_new_unique`, `C04_new_zero_denominator`
* `C05_arithmetic_exact`, `C05_assign_forms`, `C05_completes`, `C05_div_by_zero_panics`, `C05_sum_product`
* `C06_release_agrees`, `C06_release_silent_overflow`
* `C07_diff_not_reduced_refuted`, `C07_mul_history_reduced`, `C07_sum_not_reduced_refuted`
* `C08_history_exact`, `C08_integer_predicates`, `C08_predicates`
* `C09_cmp_is_order`, `C09_eq_agrees`, `C09_total_preorder`
* `C10_pow_negative`, `C10_pow_negative_misordered_refuted`, `C10_pow_nonneg`, `C10_zero_denominators_refuted`
* `C11_epsilon_equals`, `C11_epsilon_equals_refuted`, `C11_max_of_sequence`, `C11_stability_cmp`
* `C12_from_vec`, `C12_same_monomial`, `C12_var`
* `C13_trim_all_zero`, `C13_trim_nonzero`
* `C14_add`, `C14_add_overflow_iff`, `C14_add_release_refuted`
* `C15_add_back`, `C15_checked_sub`, `C15_is_succ`
* `C16_total_deg`
* `C17_grevlex`, `C17_grlex`, `C17_lex`, `C17_revlex`
* `C18_total_order`
* `C19_respects_multiplication`, `C19_zero_least`
* `C20_no_infinite_descent`, `C20_revlex_unbounded`, `C20_unbounded_descent_refuted`
* `C21_checked_panics`, `C21_release_below_zero_refuted`, `C21_release_graded_refuted`
* `C22_from_coef_and_term`, `C22_poly_new`, `C22_term_new`, `C22_var_one_zero`
* `C23_add`, `C23_neg`, `C23_sub`
* `C24_mul`, `C24_term_degree`
* `C25_clean`, `C25_equal_polys_same_support`
* `C26_add_laws`, `C26_mul_laws`, `C26_mul_term_injective`
* `C27_eval_value`, `C27_homomorphism`
* `C28_divides_agrees`, `C28_try_div`, `C28_zero_operands`
* `C29_div_by_zero`, `C29_div_scalar`
* `C30_lex_revlex_total`, `C30_only_overflow`, `C30_order_independent`, `C30_sort_terms`
* `C31_clean`, `C31_last_maximum`, `C31_leading_term`
* `C32_division_identity`
* `C33_remainder_reduced`
* `C34_degree_bound`, `C34_leading`
* `C35_division_terminates`
* `C36_monic_lcm`, `C36_zero`
* `C37_none`, `C37_s_polynomial`
* `C38_criterion_decides`, `C38_criterion_terminates`
* `C39_same_ideal`
* `C40_criterion_accepts`, `C40_groebner_basis`
* `C41_inter_reduced`, `C41_minimal`
* `C42_monic_refuted`, `C42_unique_up_to_scaling`
* `C43_algorithm_terminates`
* `C44_single_generator`, `C44_zero_generator_algorithm`, `C44_zero_generator_criterion`, `C44_zero_generator_never_returns`
* `C45_membership`, `C45_remainder_order_independent`
* `C46_e`, `C46_from_col_vectors`, `C46_from_row_vectors`, `C46_get_row_col_transpose`, `C46_identity`, `C46_index_iter`, `C46_new`, `C46_permutation`, `C46_permutation_from_vec`, `C46_replacement`, `C46_scale_mat`, `C46_vectors_panic`, `C46_zero`
* `C47_add`, `C47_dot_norm`, `C47_identity_unit`, `C47_mul`, `C47_mul_assoc`, `C47_mul_distrib`, `C47_mul_distrib_r`, `C47_panics`, `C47_scalar`, `C47_transpose_involutive`, `C47_transpose_mul`
* `C48_permute_rows`, `C48_permute_rows_exact`, `C48_replace_row`, `C48_replace_row_frame`, `C48_replace_row_same`, `C48_scale_row`, `C48_scale_row_frame`
* `C49_documented`, `C49_lu`
* `C50_lu_shapes`
* `C51_row_echelon`
* `C52_rref`, `C52_to_rref`
* `C53_nullity`, `C53_rank`
* `C54_kernel`, `C54_kernel_mul`
* `C55_order_exists`, `C55_range`
* `C56_no_panic`, `C56_total`
* `C57_general`, `C57_nonsquare_refuted`, `C57_square`
* `C58_epsilon_equals`, `C58_shapes`
* `C59_base_one`, `C59_digits`, `C59_digits_release`, `C59_panics`
* `C60_enumeration`, `C60_exponent_truncated`, `C60_no_values`, `C60_overflow`
* `C61_last_maximum`, `C61_panics`
* `C62_superscript_decimal`, `C62_superscript_injective`
* `C63_display_injective`, `C63_display_total`
* `C64_letter_w_never_printed`, `C64_names_agree_refuted`, `C64_u_printed_as_v`, `C64_v_printed_as_list`, `C64_w_printed_as_u`, `C64_xyz_agree`
* `C65_dimension`, `C65_facets`, `C65_orthogonal_complement`
* `C66_no_generators`, `C66_otherwise_defined`, `C66_rank_one`, `C66_rank_zero`
* `C67_division_determined`, `C67_storage_order`
* `C68_leading_term_multiplicative`
* `C69_rref_characterised`, `C69_rref_unique`
* `C70_lu_u_is_row_echelon_b`
* `C71_inverse`
* `C72_rank_transpose`
* `C73_rank_product`
* `C74_rational_display_injective`, `C74_rational_display_sign`, `C74_term_display_injective`, `C74_term_display_total`
* `C75_polynomial_display_injective`, `C75_polynomial_display_panics`, `C75_zero_display`
* `C76_complete_off_first_generator`, `C76_complete_refuted`, `C76_distinct_refuted`, `C76_proper_faces_refuted`
* `C77_computer_release`, `C77_cone_release`, `C77_elimination_release`, `C77_matrices_release`, `C77_multidegrees_release`, `C77_polynomials_release`
* `C78_arithmetic`, `C78_division`, `C78_elimination`, `C78_eval`, `C78_groebner`, `C78_transformation_refuted`
* `C79_all_integers_exist`, `C79_integers`, `C79_integers_refuted`, `C79_operations`
* `C80_computer`, `C80_cone`, `C80_division`, `C80_elimination`, `C80_lu`, `C80_polynomials`
* `C81_buchberger_terminates_refuted`, `C81_division_terminates_refuted`, `C81_nonfinite_diverges`, `C81_stuck_diverges`, `C81_underflow_diverges`
* `C82_algorithm`, `C82_criterion`, `C82_division`, `C82_extend`, `C82_minimize`, `C82_reduce`
* `C83_finite_panics_refuted`, `C83_lu_refuted`, `C83_nullity_release`, `C83_nullity_release_refuted`, `C83_outcomes`, `C83_pivot`, `C83_pivot_nan`, `C83_pivot_one_refuted`, `C83_rank_refuted`
* `C84_add`, `C84_dot`, `C84_frobenius`, `C84_mul`, `C84_nearest`, `C84_operations`
* `C85_add`, `C85_add_assoc_refuted`, `C85_add_comm`, `C85_mul`, `C85_mul_nonzero_refuted`, `C85_mul_term`, `C85_neg`, `C85_sub`, `C85_sub_float`
* `C86_add`, `C86_mul`, `C86_sub`
* `C87_epsilon_boundary_refuted`, `C87_epsilon_equals`, `C87_epsilon_large`, `C87_epsilon_reflexive`, `C87_epsilon_small`, `C87_epsilon_symmetric`, `C87_epsilon_transitive_refuted`, `C87_stability_cmp`, `C87_stability_nonfinite`
* `C88_float`, `C88_float_equivalence`, `C88_float_reflexive_refuted`, `C88_hash`, `C88_hash_order_refuted`, `C88_matrix`, `C88_rational`, `C88_value_refuted`
* `C89_defined`, `C89_empty_refuted`, `C89_injective`, `C89_injective_plain`, `C89_lines`, `C89_text`
* `C90_append`, `C90_injective`, `C90_rational_agreement`, `C90_sign`, `C90_total`, `C90_zero`, `C90_zero_coefficient_refuted`
* `C91_backward`, `C91_finite`, `C91_lower`, `C91_permutation`
* `C92_congruence`, `C92_idempotent`, `C92_linear`, `C92_multiplicative`
* `C93_remainder_value`, `C93_zero_set`
* `C94_no_common_zero`, `C94_unit_ideal`
* `C95_lex`, `C95_revlex`
* `C96_evaluable`, `C96_variables`
* `C97_containment`, `C97_equality`
* `C98_gcd`
* `C99_cleaning`, `C99_division_identity`, `C99_is_zero_refuted`, `C99_repeated_degree_diverges`, `C99_repeated_degree_no_result`, `C99_values`, `C99_zero_leading_term_diverges`, `C99_zero_value_refuted`
* `C100_divide_256`, `C100_divide_graded`, `C100_divide_steps`, `C100_divide_univariate`, `C100_gcd_91`, `C100_gcd_91_tight`, `C100_gcd_steps`, `C100_graded_orders`
* `C101_checked_sub`, `C101_checked_sub_refuted`, `C101_division_no_result`, `C101_grlex`, `C101_is_succ`, `C101_is_succ_refuted`, `C101_lex`, `C101_revlex_refuted`, `C101_same_monomial`
* `C102_description`, `C102_exact`, `C102_exact_refuted`, `C102_inside`, `C102_whole_space`
* `C103_add_sub`, `C103_dot`, `C103_eval`, `C103_frobenius`, `C103_integers`, `C103_mat_add_scale`, `C103_mat_mul`, `C103_mul`
* `C104_left_kernel`, `C104_rouche_capelli`, `C104_solution`, `C104_solvable`, `C104_unique`
* `C105_radical`, `C105_radical_vanishes`, `C105_saturation_lex`, `C105_saturation_revlex`
* `C106_intersection_lex`, `C106_intersection_revlex`, `C106_quotient`
* `C107_dimension`, `C107_finite`, `C107_normal_form`
* `C108_product`, `C108_roots`, `C108_zeros`
* `C109_division`, `C109_homogeneous`, `C109_ideal`, `C109_spoly`
* `C110_division`, `C110_monomials`, `C110_spoly`, `C110_two_terms`
* `C111_lu`, `C111_mul`, `C111_rank`, `C111_row_operations`, `C111_transpose`
* `C112_implicit_lex`, `C112_implicit_revlex`, `C112_kernel`, `C112_points`, `C112_subalgebra_lex`, `C112_subalgebra_revlex`
* `C113_orders`, `C113_rref`
* `C114_eval_message`, `C114_mat`, `C114_mat_display_injective`, `C114_mat_display_plain`, `C114_mat_display_text`, `C114_numbers`, `C114_plain`, `C114_poly`, `C114_rat_debug`, `C114_rational`, `C114_term`, `C114_text`, `C114_text_alternate`
* `C115_gram`, `C115_least_squares`, `C115_orthogonal`, `C115_solvable`
* `C116_arith`, `C116_increasing`, `C116_meaning`, `C116_reversing`
* `C117_basis`, `C117_count`, `C117_linear`, `C117_membership`, `C117_unit`, `C117_zeros`
* `C118_degree`, `C118_exists`, `C118_homogeneous`, `C118_independent`, `C118_independent_homogeneous`, `C118_lex_refuted`
* `C119_int_pow`, `C119_usize_pow`, `C119_usize_range`
* `C120_dimension`, `C120_free`, `C120_independent`, `C120_invariant`, `C120_orders`
* `C121_all`, `C121_division`, `C121_division_float`, `C121_division_rational_refuted`, `C121_for_each`, `C121_is_rref`, `C121_is_rref_columns_refuted`, `C121_is_rref_pivots_refuted`, `C121_is_rref_wide`, `C121_kernel`, `C121_kernel_full_rank`, `C121_kernel_wide`, `C121_lu`, `C121_multi_product`, `C121_multi_product_order`, `C121_polys`, `C121_row_echelon`, `C121_rref`
* `C122_float_zero`, `C122_map_coefs`, `C122_outside`, `C122_overflow`, `C122_primitives`, `C122_ranges`, `C122_write_deg`, `C122_write_deg_canonical`, `C122_write_deg_trim`, `C122_write_deg_trim_refuted`, `C122_write_term`
* `C123_add`, `C123_bound_refuted`, `C123_mat_add`, `C123_mat_mul`, `C123_mat_scale`, `C123_mul`, `C123_neg`, `C123_sub`
* `C124_divide_fits`, `C124_graded`, `C124_lex_refuted`, `C124_univariate`
* `C125_bound_refuted`, `C125_graded`, `C125_univariate`
* `C126_bound_refuted`, `C126_inverse`, `C126_lu`, `C126_row_echelon`, `C126_rref`, `C126_three_rows`, `C126_two_rows`
* `C127_algorithm`, `C127_criterion`, `C127_division`, `C127_extend`, `C127_minimize`, `C127_reduce`, `C127_s_polynomial`, `C127_sums_refuted`
* `C128_facets`, `C128_float_above`, `C128_float_numbers`, `C128_number`, `C128_order`
* `C129_algorithm`, `C129_criterion`, `C129_exact`, `C129_extend`, `C129_float`, `C129_float_refuted`, `C129_minimal`, `C129_rational`
* `C130_algorithm`, `C130_dimension`, `C130_extend`, `C130_groebner`, `C130_pair`
* `C131_add`, `C131_algorithm`, `C131_algorithm_descending`, `C131_divide`, `C131_divide_storage`
* `C132_arithmetic`, `C132_checked_associative_refuted`, `C132_division`, `C132_division_panics`, `C132_release_denominator_refuted`, `C132_release_rational`, `C132_release_ring`
* `C133_box`, `C133_grad`, `C133_index`, `C133_main`, `C133_rational`, `C133_swap`, `C133_term_constructors`, `C133_term_eval`, `C133_zero_rows`
* `C134_count`, `C134_membership`, `C134_product`, `C134_solvable`
* `C135_all`, `C135_output`, `C135_relation`
* `C136_independent`, `C136_multiplication`, `C136_powers`, `C136_relations`
* `C137_leading`, `C137_macaulay`, `C137_rows`
* `C138_coprime`, `C138_rank`
* `C139_normal_form`, `C139_same_normal_form`, `C139_word`
* `C140_any_choice`, `C140_criterion`, `C140_division`, `C140_terminates`
* `C141_leading`, `C141_quotient`, `C141_saturation`, `C141_section`
* `C142_generators_refuted`, `C142_homogenize`, `C142_member`, `C142_set_one`
* `C143_buchberger`, `C143_buchberger_refuted`, `C143_buchberger_returns_refuted`, `C143_divide_ends_refuted`, `C143_division`, `C143_division_refuted`, `C143_eval`, `C143_mul`, `C143_mul_refuted`, `C143_zeros`
* `C144_prescribed`, `C144_standard`, `C144_values`, `C144_vandermonde`, `C144_vanishing`
* `C145_eigenvalues`, `C145_equal`, `C145_polynomial`, `C145_remainder`, `C145_ring`, `C145_zeros`
* `C146_basis`, `C146_element`, `C146_standard`
* `C147_least`, `C147_lex`
* `C148_bases`, `C148_dimensions`
* `C149_backward`, `C149_shape`
* `C150_groebner`, `C150_pair`, `C150_triple`
* `C151_eval`, `C151_term`
* `C152_algorithm`, `C152_criterion`, `C152_one`, `C152_remainder`, `C152_same`, `C152_two`
* `C153_product`, `C153_sum`
* `C154_float`, `C154_rational`

## Seeded faults: what they show

`seeded/LOG.jsonl` records edits of the model after which some proof no longer goes through. For most lines the build stopped
at the first broken proof and the theorems listed are those that refer to it; that a proof script breaks does not show that
the theorem became false (see `seeded/README.md`). Only lines with a `verdict` (W001 to W024) were checked for this, by
computing with the wrong definitions on a few inputs; there 12 of 24 are known to make a theorem or an example false. W006,
which changes the order of the basis returned by buchberger_reduce, is not known to be excluded by any theorem.
