{"id": "C01", "title": "gcd is the greatest common divisor", "statement": "Integer::gcd(a,b) terminates for every pair of i64 values and, unless it panics with an arithmetic overflow (which happens only when an argument is i64::MIN), returns a nonnegative integer that divides both a and b and is divisible by every common divisor of a and b.", "quantifier": "all pairs of i64 values, both build profiles for the overflow-free case", "why_tests_cant": "2^128 input pairs; termination of an unbounded loop", "anchors": ["src/core/num/int.rs: Integer::gcd"]}
{"id": "C02", "title": "lcm magnitude and sign", "statement": "For a,b not both zero, whenever Integer::lcm(a,b) completes in an overflow-checked build its absolute value is the least common multiple (both divide it, and it divides every common multiple). The documented 'nonnegative' result holds exactly when the result's factors agree in sign: a negative result is returned precisely when a and b have strictly opposite signs. lcm(0,0) panics with a division by zero.", "quantifier": "all pairs of i64 values", "why_tests_cant": "unbounded input space; the sign defect is invisible to positive-only tests", "anchors": ["src/core/num/int.rs: Integer::lcm"]}
{"id": "C03", "title": "Integer::pow truncates its exponent", "statement": "Integer::pow(x,e) with 0 <= e < 2^32 returns exactly x^e or panics with overflow in a checked build; for any other e it returns x raised to e mod 2^32 instead (so 2.pow(2^32) is 1, not an overflow).", "quantifier": "all i64 bases and exponents", "why_tests_cant": "exponents beyond 2^32 are never sampled", "anchors": ["src/core/num/int.rs: Integer::pow"]}
{"id": "C04", "title": "Rational::new yields the canonical lowest-terms representative", "statement": "Rational::new(n,d) panics iff d = 0 (apart from overflow at i64::MIN); otherwise the result has a positive denominator, coprime numerator and denominator, and represents exactly n/d. Two fractions built by new are structurally equal iff they represent the same rational number.", "quantifier": "all numerator/denominator pairs", "why_tests_cant": "a statement about all pairs and about uniqueness of representatives", "anchors": ["src/core/num/rat.rs: Rational::new", "src/core/num/rat.rs: Rational::new_i64"]}
{"id": "C05", "title": "Rational arithmetic is exact", "statement": "For all rationals with positive denominators, +, -, *, /, unary minus, recip, Sum, Product and the compound assignment forms return, whenever they complete in an overflow-checked build, a rational with positive denominator whose value is exactly the mathematical result; / panics when the divisor is zero; no other panic than overflow is possible.", "quantifier": "all rationals with positive denominator and every operator", "why_tests_cant": "exactness for all operands; overflow corner cases", "anchors": ["src/core/num/rat.rs: Add", "src/core/num/rat.rs: Sub", "src/core/num/rat.rs: Mul", "src/core/num/rat.rs: Div", "src/core/num/rat.rs: Neg", "src/core/num/rat.rs: Rational::recip", "src/core/num/rat.rs: Sum", "src/core/num/rat.rs: Product", "src/core/num/rat.rs: impl_op_assign_for_rational_simple"]}
{"id": "C06", "title": "Overflow is never silent in a checked build, and release agrees when nothing overflows", "statement": "Every Integer/Rational operation that completes in an overflow-checked build returns the same value in an unchecked (wrapping) build. In the unchecked build there are operands for which + on rationals silently returns a wrong value.", "quantifier": "all operands, both overflow profiles", "why_tests_cant": "requires comparing both profiles on every operand", "anchors": ["src/core/num/int.rs: impl_integer_binop", "src/core/num/int.rs: Neg", "src/core/num/rat.rs: Add", "src/core/num/rat.rs: Mul"]}
{"id": "C07", "title": "Sums of rationals are not kept in lowest terms", "statement": "The crate states that rationals are always in simplest form; Rational + and - do not reduce, so there are rationals a,b reachable from Rational::new with a+b of value 1 whose structure is not ONE: == distinguishes it from ONE while cmp says Equal, although is_one says true. Values built only with new, *, / and recip (no + or -) do stay in lowest terms.", "quantifier": "all values reachable from Rational::new through the operators", "why_tests_cant": "an invariant over arbitrary operation histories", "anchors": ["src/core/num/rat.rs: Add", "src/core/num/rat.rs: Sub", "src/core/num/traits.rs: One for Rational", "src/core/num/traits.rs: Ord for Rational"]}
{"id": "C08", "title": "Zero is always canonical", "statement": "Along any history of Rational operations starting from new/new_int/ZERO/ONE and using +, -, *, /, unary minus, nonnegative powers and recip of nonzero values, a value is mathematically zero iff is_zero returns true iff it == Rational::ZERO, and its denominator stays positive. For Integer, is_pos, is_neg, is_zero, is_one and sgn are the sign tests, and abs is the absolute value except at i64::MIN.", "quantifier": "all finite expression trees over the Rational operators", "why_tests_cant": "induction over unbounded operation histories; every zero test in poly and linalg depends on it", "anchors": ["src/core/num/rat.rs: Rational", "src/core/num/traits.rs: Zero for Rational"]}
{"id": "C09", "title": "Rational order is the order of the rationals", "statement": "On rationals with positive denominators cmp returns Less/Equal/Greater exactly as the represented numbers compare (whenever it does not overflow), hence is a total preorder; == implies cmp Equal, and conversely for lowest-terms operands.", "quantifier": "all pairs and triples of rationals", "why_tests_cant": "order laws quantify over all triples", "anchors": ["src/core/num/traits.rs: Ord for Rational", "src/core/num/traits.rs: PartialOrd for Rational"]}
{"id": "C10", "title": "Rational::pow and recip edge behaviour", "statement": "For 0 <= e < 2^32, pow(r,e) has value r^e and, when r is in lowest terms, so is the result. For -2^32 < e < 0 the result has value r^e for nonzero r, but the denominator is negative when r is negative and e odd, and cmp then orders it wrongly against zero; a zero base gives a zero denominator without a panic. recip(0) returns 0/0 without a panic.", "quantifier": "all rationals and exponents", "why_tests_cant": "all exponents and signs", "anchors": ["src/core/num/rat.rs: Rational::pow", "src/core/num/rat.rs: Rational::powi", "src/core/num/rat.rs: Rational::recip"]}
{"id": "C11", "title": "stability_cmp never prefers zero", "statement": "For rationals whose zero is canonical, stability_cmp(x,y) is Less whenever x is zero and Greater whenever y is zero and x is not; otherwise it ranks by the smaller |numer|+|denom|. Consequently the maximum of any nonempty sequence under it is zero only if the whole sequence is zero. epsilon_equals of Rational holds iff numerators and denominators agree, so for reduced values iff the values agree, but not for unreduced ones.", "quantifier": "all nonempty sequences of rationals", "why_tests_cant": "property of a fold over arbitrarily long sequences", "anchors": ["src/core/num/traits.rs: StabilityCmp for Rational", "src/linalg/util.rs: get_max_index"]}
{"id": "C12", "title": "from_vec canonicalises", "statement": "MultiDegree::from_vec(v) represents the same exponents as v and never ends in a zero, so two vectors denote the same monomial iff their from_vec results are ==.", "quantifier": "all vectors of u8", "why_tests_cant": "vectors of every length", "anchors": ["src/poly/mdeg.rs: MultiDegree::from_vec"]}
{"id": "C13", "title": "trim_zeros leaves all-zero vectors untrimmed", "statement": "trim_zeros canonicalises every multidegree with at least one nonzero entry without changing its exponents, and leaves an all-zero multidegree unchanged, so on a nonempty all-zero one the result is not the canonical zero and is_zero stays false.", "quantifier": "all multidegrees", "why_tests_cant": "all vectors", "anchors": ["src/poly/mdeg.rs: MultiDegree::trim_zeros", "src/poly/mdeg.rs: MultiDegree::is_zero"]}
{"id": "C14", "title": "Multidegree addition", "statement": "For canonical a,b: a+b is canonical and its exponent at every index is the sum of the exponents of a and b; in a checked build it panics exactly when some exponent sum exceeds 255. In an unchecked build such a sum wraps and the result can even be non-canonical.", "quantifier": "all pairs of multidegrees of any lengths", "why_tests_cant": "all lengths and all exponents", "anchors": ["src/poly/mdeg.rs: Add for &MultiDegree"]}
{"id": "C15", "title": "Divisibility and checked subtraction agree", "statement": "For canonical a,b: b.is_succ(a) holds iff every exponent of b is at most that of a, iff a.checked_sub(b) is Some; then the result d is canonical and d's exponents are the differences, so b+d == a. checked_sub is the only c with b+c == a.", "quantifier": "all pairs of canonical multidegrees", "why_tests_cant": "all lengths", "anchors": ["src/poly/mdeg.rs: MultiDegree::checked_sub", "src/poly/mdeg.rs: MultiDegree::is_succ"]}
{"id": "C16", "title": "total_deg", "statement": "total_deg is the sum of all exponents whenever that sum is at most 255 and panics in a checked build otherwise; in an unchecked build it is the sum modulo 256.", "quantifier": "all multidegrees", "why_tests_cant": "long vectors", "anchors": ["src/poly/mdeg.rs: MultiDegree::total_deg"]}
{"id": "C17", "title": "Lex, RevLex, GrLex, GRevLex are the textbook orders", "statement": "On canonical multidegrees: Lex decides at the smallest index where exponents differ (larger exponent is greater); RevLex decides at the largest such index (larger exponent is greater); GrLex compares total degree, then Lex; GRevLex compares total degree, then at the largest differing index the smaller exponent is greater.", "quantifier": "all pairs of canonical multidegrees, including those of different lengths", "why_tests_cant": "all lengths and exponents", "anchors": ["src/poly/ord.rs: Lex::cmp", "src/poly/ord.rs: RevLex::cmp", "src/poly/ord.rs: GrLex::cmp", "src/poly/ord.rs: GRevLex::cmp", "src/poly/ord.rs: grad"]}
{"id": "C18", "title": "The four orders are total orders", "statement": "Each order returns Equal iff the multidegrees are ==, is antisymmetric under swapping arguments and transitive (whenever it does not panic).", "quantifier": "all triples of canonical multidegrees", "why_tests_cant": "order laws over all triples", "anchors": ["src/poly/ord.rs: Lex", "src/poly/ord.rs: RevLex", "src/poly/ord.rs: GrLex", "src/poly/ord.rs: GRevLex"]}
{"id": "C19", "title": "The four orders respect multiplication", "statement": "cmp(a+c, b+c) == cmp(a, b) for every a,b,c for which the sums exist, and the zero multidegree is least.", "quantifier": "all triples of canonical multidegrees", "why_tests_cant": "the trait documents the law as unchecked by rust", "anchors": ["src/poly/ord.rs: MonomialOrder"]}
{"id": "C20", "title": "Well-foundedness in a fixed number of variables", "statement": "For each of the four orders and each n, there is no infinite strictly decreasing sequence of multidegrees of length at most n. With no bound on the number of variables Lex, GrLex and GRevLex are not well-founded: x_0 > x_1 > x_2 > ... descends forever.", "quantifier": "all infinite sequences of multidegrees", "why_tests_cant": "about infinite sequences", "anchors": ["src/poly/ord.rs: MonomialOrder", "src/poly/ord.rs: Lex"]}
{"id": "C21", "title": "Graded orders break when total degree wraps", "statement": "In an unchecked build there are canonical a,b,c with GrLex::cmp(a,b) = Less but GrLex::cmp(a+c,b+c) = Greater; in a checked build comparison of a multidegree with total degree above 255 panics.", "quantifier": "all multidegrees with total degree above 255", "why_tests_cant": "needs large degrees and wrapping", "anchors": ["src/poly/ord.rs: grad", "src/poly/ord.rs: GrLex", "src/poly/ord.rs: GRevLex"]}
{"id": "C22", "title": "Term construction and conversions", "statement": "Term::new, Term::var, Term::one/zero/monic/From<F> and Polynomial::from/new/var/one/constant produce a polynomial whose coefficient at every monomial is the one written, with no zero-coefficient terms for the sanitising constructors; Polynomial::new keeps the represented polynomial unchanged and removes every zero term.", "quantifier": "all coefficients, multidegrees, term lists", "why_tests_cant": "all inputs", "anchors": ["src/poly/elts.rs: Term::new", "src/poly/elts.rs: Term::var", "src/poly/elts.rs: Polynomial::new", "src/poly/elts.rs: Polynomial::var", "src/poly/elts.rs: From<F> for Polynomial<F>", "src/poly/elts.rs: From<Term<F>> for Polynomial<F>"]}
{"id": "C23", "title": "Polynomial addition and subtraction", "statement": "For all polynomials in clean form over any exact field, every overload of + and - (term/term, poly/term, term/poly, poly/poly) and unary minus returns a polynomial whose coefficient at each monomial is the sum/difference/negation of the operands' coefficients.", "quantifier": "all clean polynomials, all overloads", "why_tests_cant": "all polynomials of all sizes", "anchors": ["src/poly/elts.rs: Add", "src/poly/elts.rs: Sub", "src/poly/elts.rs: Neg"]}
{"id": "C24", "title": "Polynomial multiplication", "statement": "For all clean polynomials, term*term, poly*term, poly*scalar and poly*poly return the mathematical product: the coefficient at m is the sum over all factorizations m = a+b of the products of coefficients; only overflow can panic.", "quantifier": "all clean polynomials", "why_tests_cant": "all sizes", "anchors": ["src/poly/elts.rs: Mul"]}
{"id": "C25", "title": "Clean form is invariant", "statement": "Any polynomial obtained from constants, variables and clean terms through any finite sequence of the polynomial operators has no zero coefficients, pairwise distinct canonical multidegrees; hence Polynomial::is_zero is true iff the polynomial is mathematically zero.", "quantifier": "all finite operation histories (expression trees)", "why_tests_cant": "induction over histories", "anchors": ["src/poly/elts.rs: Polynomial::is_zero", "src/poly/elts.rs: Add", "src/poly/elts.rs: Mul", "src/poly/elts.rs: Neg", "src/poly/elts.rs: Sub"]}
{"id": "C26", "title": "Polynomial ring laws", "statement": "Over any exact field the API's + and * are commutative, associative, distributive with neutral elements 0 and 1 and additive inverses, as polynomials (coefficient-wise), whenever the operations complete.", "quantifier": "all triples of clean polynomials", "why_tests_cant": "algebraic laws over all triples", "anchors": ["src/poly/elts.rs: Add", "src/poly/elts.rs: Mul"]}
{"id": "C27", "title": "Evaluation is a ring homomorphism", "statement": "eval at a point with enough coordinates is the sum of coef * prod x_i^deg_i; eval(p+q)=eval p+eval q, eval(p*q)=eval p*eval q, eval(-p)=-eval p in value; eval panics iff some term mentions a variable index beyond the point's length (apart from overflow).", "quantifier": "all clean polynomials and points", "why_tests_cant": "all polynomials and points", "anchors": ["src/poly/elts.rs: Polynomial::eval", "src/poly/elts.rs: Term::eval"]}
{"id": "C28", "title": "Term division", "statement": "s.try_div(t) for nonzero t returns Some(q) with q*t equal to s exactly when s is zero or t's exponents are all at most s's; a zero divisor yields None unless s is zero; t.divides(s) agrees with it for nonzero s.", "quantifier": "all term pairs", "why_tests_cant": "all exponents", "anchors": ["src/poly/elts.rs: Term::try_div", "src/poly/elts.rs: Term::divides"]}
{"id": "C29", "title": "Scalar division", "statement": "p / c multiplies every coefficient by 1/c for nonzero c. For c = 0 over Rational it panics iff p has a term, and returns the zero polynomial otherwise.", "quantifier": "all polynomials and scalars", "why_tests_cant": "all inputs", "anchors": ["src/poly/elts.rs: Div<F> for &Polynomial<F>"]}
{"id": "C30", "title": "sort_terms", "statement": "sort_terms returns a permutation of the terms, ascending in the chosen monomial order, stable, and represents the same polynomial; on clean input the result is independent of the input term order.", "quantifier": "all polynomials and every lawful order", "why_tests_cant": "all lengths", "anchors": ["src/poly/comp.rs: Computer::sort_terms"]}
{"id": "C31", "title": "leading_term", "statement": "leading_term(f) is None iff f has no terms, otherwise a term of f whose multidegree is at least every other term's; on clean f it is the unique such term and leading_coef is its coefficient.", "quantifier": "all polynomials and every lawful order", "why_tests_cant": "all lengths", "anchors": ["src/poly/comp.rs: Computer::leading_term", "src/poly/comp.rs: Computer::leading_coef"]}
{"id": "C32", "title": "Division identity", "statement": "divide(f, divs) on clean inputs returns (r, qs) with one quotient per divisor and f = q_1 g_1 + ... + q_m g_m + r exactly as polynomials; r and all q_i are clean.", "quantifier": "all clean f, all finite divisor lists (including zero polynomials), every lawful order", "why_tests_cant": "loop of unbounded length over all polynomials", "anchors": ["src/poly/comp.rs: Computer::divide"]}
{"id": "C33", "title": "Remainder is fully reduced", "statement": "No term of the remainder returned by divide is divisible by the leading term of any nonzero divisor.", "quantifier": "all clean inputs, every lawful order", "why_tests_cant": "for-all over terms and divisors", "anchors": ["src/poly/comp.rs: Computer::divide"]}
{"id": "C34", "title": "Quotient degree bound", "statement": "In the result of divide, the leading multidegree of each q_i*g_i, and of r, is at most the leading multidegree of f.", "quantifier": "all clean inputs, every lawful order", "why_tests_cant": "documented guarantee for all inputs", "anchors": ["src/poly/comp.rs: Computer::divide"]}
{"id": "C35", "title": "Division terminates", "statement": "For every clean f and divisor list and every lawful order, divide terminates: it returns or panics with an arithmetic overflow, and never any other panic.", "quantifier": "all clean inputs, every lawful order", "why_tests_cant": "termination", "anchors": ["src/poly/comp.rs: Computer::divide"]}
{"id": "C36", "title": "monic_lcm", "statement": "For nonzero terms monic_lcm(s,t) is the monic term whose exponents are the maxima; it is canonical, divisible by both and divides every common multiple; with a zero argument it is zero.", "quantifier": "all term pairs", "why_tests_cant": "all exponents", "anchors": ["src/poly/comp.rs: Computer::monic_lcm"]}
{"id": "C37", "title": "S-polynomial", "statement": "try_reduce(f,g) is None iff f or g has no terms; otherwise it returns (M/LT(f)) f - (M/LT(g)) g exactly, it lies in the ideal of f and g, and every term of it is strictly below M (the leading terms cancel).", "quantifier": "all clean polynomial pairs, every lawful order", "why_tests_cant": "all inputs", "anchors": ["src/poly/comp.rs: Computer::try_reduce"]}
{"id": "C38", "title": "Buchberger criterion decides the Groebner property", "statement": "For nonzero clean generators, buchberger_criterion returns true iff the leading term of every nonzero element of the ideal they generate is divisible by the leading term of a generator.", "quantifier": "all finite lists of nonzero clean polynomials and all elements of the ideal", "why_tests_cant": "the ideal is infinite", "anchors": ["src/poly/comp.rs: Computer::buchberger_criterion"]}
{"id": "C39", "title": "buchberger_algorithm preserves the ideal", "statement": "Whenever buchberger_algorithm completes on nonzero clean generators, the resulting list generates exactly the same ideal as the input.", "quantifier": "all finite lists of nonzero clean polynomials, every lawful order", "why_tests_cant": "equality of infinite ideals after an unbounded loop", "anchors": ["src/poly/comp.rs: Computer::buchberger_algorithm", "src/poly/comp.rs: Computer::buchberger_extend", "src/poly/comp.rs: Computer::buchberger_minimize", "src/poly/comp.rs: Computer::buchberger_reduce"]}
{"id": "C40", "title": "buchberger_algorithm returns a Groebner basis", "statement": "Whenever buchberger_algorithm completes on nonzero clean generators, the leading term of every nonzero ideal element is divisible by the leading term of some resulting generator.", "quantifier": "all finite lists of nonzero clean polynomials, every lawful order, all ideal elements", "why_tests_cant": "infinite ideal", "anchors": ["src/poly/comp.rs: Computer::buchberger_algorithm"]}
{"id": "C41", "title": "The result is minimal and inter-reduced", "statement": "In the list returned by buchberger_algorithm on nonzero clean generators, no term of one generator is divisible by the leading term of another, and no generator is zero.", "quantifier": "all inputs", "why_tests_cant": "for-all over inputs", "anchors": ["src/poly/comp.rs: Computer::buchberger_minimize", "src/poly/comp.rs: Computer::buchberger_reduce"]}
{"id": "C42", "title": "The result need not be monic", "statement": "The documentation promises a reduced Groebner basis, which must be monic; buchberger_algorithm leaves input generators unnormalised, so [2x] stays [2x] and two inputs generating the same ideal can give different results. Up to scaling each generator by a nonzero constant, results for the same ideal and order are the same set.", "quantifier": "all inputs; the uniqueness part over all pairs of inputs generating the same ideal", "why_tests_cant": "uniqueness over all generating sets", "anchors": ["src/poly/comp.rs: Computer::buchberger_algorithm"]}
{"id": "C43", "title": "buchberger_algorithm terminates", "statement": "On nonzero clean generators buchberger_algorithm terminates: it returns or panics with an arithmetic overflow; no other panic occurs.", "quantifier": "all finite lists of nonzero clean polynomials, every lawful order", "why_tests_cant": "termination", "anchors": ["src/poly/comp.rs: Computer::buchberger_algorithm"]}
{"id": "C44", "title": "A zero generator makes Buchberger panic", "statement": "If some generator has no terms and there are at least two generators, buchberger_criterion and buchberger_algorithm do not return normally unless an earlier result is already decided; in particular buchberger_algorithm panics.", "quantifier": "all generator lists containing a zero polynomial", "why_tests_cant": "all lists", "anchors": ["src/poly/comp.rs: Computer::buchberger_extend", "src/poly/comp.rs: Computer::buchberger_criterion"]}
{"id": "C45", "title": "Ideal membership by division", "statement": "If divs is a Groebner basis then divide(f,divs) has zero remainder iff f is in the ideal, and the remainder is the same polynomial for every reordering of divs.", "quantifier": "all Groebner bases, all f, all permutations", "why_tests_cant": "documented claim about all reorderings and all ideals", "anchors": ["src/poly/comp.rs: Computer::divide"]}
{"id": "C46", "title": "Matrix constructors", "statement": "identity, zero, e, scale_mat, permutation, replacement, permutation_from_vec, from_row_vectors, from_col_vectors, get_row, get_col and transpose have the documented entry at every in-range index, and the documented dimensions; index_iter yields every index once, in storage order.", "quantifier": "all sizes and indices", "why_tests_cant": "all sizes", "anchors": ["src/linalg/mat.rs: Mat::identity", "src/linalg/mat.rs: Mat::transpose", "src/linalg/mat.rs: Mat::permutation", "src/linalg/mat.rs: Mat::replacement", "src/linalg/mat.rs: Mat::scale_mat", "src/linalg/mat.rs: Mat::from_row_vectors"]}
{"id": "C47", "title": "Matrix arithmetic", "statement": "On well-formed matrices +, scalar * and matrix * have the mathematical entries; + panics iff dimensions differ and * panics iff inner dimensions differ; * is associative, distributive and has identity as unit, transpose reverses products (in value).", "quantifier": "all well-formed matrices", "why_tests_cant": "all sizes and entries", "anchors": ["src/linalg/mat.rs: Add for &Mat<F>", "src/linalg/mat.rs: Mul for &Mat<F>", "src/linalg/mat.rs: Mul<F> for &Mat<F>"]}
{"id": "C48", "title": "Row operations are elementary matrices", "statement": "scale_row, permute_rows and replace_row change only the target rows and equal left multiplication by scale_mat, permutation and replacement respectively (replace_row for distinct rows).", "quantifier": "all matrices, row indices, scalars", "why_tests_cant": "all sizes", "anchors": ["src/linalg/mat.rs: Mat::scale_row", "src/linalg/mat.rs: Mat::permute_rows", "src/linalg/mat.rs: Mat::replace_row"]}
{"id": "C49", "title": "LU decomposition identity", "statement": "For every well-formed matrix over an exact field, lu() returns p,l,u with p*a = l*u exactly, and p a permutation matrix; equivalently a = p^T * l * u.", "quantifier": "all matrices of all shapes", "why_tests_cant": "all sizes and entries", "anchors": ["src/linalg/algorithm.rs: Mat::lu", "src/linalg/algorithm.rs: LUDecompositionInternal"]}
{"id": "C50", "title": "LU factor shapes", "statement": "In the result of lu(), l is square lower triangular with nonzero diagonal and u is in row echelon form with unit pivots, hence upper triangular; is_lower_triangular(l) and is_upper_triangular(u) return true.", "quantifier": "all matrices of all shapes", "why_tests_cant": "all sizes", "anchors": ["src/linalg/algorithm.rs: Mat::lu", "src/linalg/mat.rs: Mat::is_upper_triangular", "src/linalg/mat.rs: Mat::is_lower_triangular"]}
{"id": "C51", "title": "row_echelon: p*a = b with p invertible", "statement": "For every matrix, row_echelon() returns p,b with p*a = b and p invertible, and b is in row echelon form with unit pivots and zero rows last.", "quantifier": "all matrices of all shapes", "why_tests_cant": "all sizes", "anchors": ["src/linalg/algorithm.rs: Mat::row_echelon", "src/linalg/algorithm.rs: RowEquivalentForm"]}
{"id": "C52", "title": "to_rref", "statement": "row_echelon().to_rref() returns p,b with p*a=b, p invertible and b in reduced row echelon form (each pivot is 1, the only nonzero entry of its column, pivots strictly moving right, zero rows last).", "quantifier": "all matrices of all shapes", "why_tests_cant": "all sizes", "anchors": ["src/linalg/algorithm.rs: RowEchelonForm::to_rref"]}
{"id": "C53", "title": "rank and nullity", "statement": "rank() is the dimension of the column space of a (the size of a basis among its columns, and no larger independent family exists in it), nullity() is cols - rank and equals the number of kernel vectors returned.", "quantifier": "all matrices", "why_tests_cant": "all sizes", "anchors": ["src/linalg/algorithm.rs: RowEquivalentForm::rank", "src/linalg/algorithm.rs: RowEquivalentForm::nullity", "src/linalg/algorithm.rs: Mat::zero_rows"]}
{"id": "C54", "title": "compute_kernel is a basis of the kernel", "statement": "Every vector returned by compute_kernel satisfies a*v=0, the vectors are linearly independent, and every v with a*v=0 is a combination of them.", "quantifier": "all matrices and all kernel vectors", "why_tests_cant": "infinite kernel", "anchors": ["src/linalg/algorithm.rs: ReducedRowEchelonForm::compute_kernel"]}
{"id": "C55", "title": "compute_range is a basis of the column space", "statement": "The columns returned by compute_range are linearly independent and span all columns of a, whatever order the hash set iterates in.", "quantifier": "all matrices, all hash iteration orders", "why_tests_cant": "hash order nondeterminism; infinite space", "anchors": ["src/linalg/algorithm.rs: ReducedRowEchelonForm::compute_range"]}
{"id": "C56", "title": "Elimination never divides by zero", "statement": "On well-formed matrices over an exact field lu, row_echelon, to_rref, rank, nullity, compute_kernel and compute_range panic only for arithmetic overflow: never on an index, an unwrap or a zero division.", "quantifier": "all well-formed matrices", "why_tests_cant": "all shapes, including 0 x n and n x 0", "anchors": ["src/linalg/algorithm.rs: Mat::get_stable_column_index_under_row", "src/linalg/util.rs: get_max_index"]}
{"id": "C57", "title": "get_col_iter_mut is wrong off square shapes", "statement": "get_col_iter_mut(c) yields the entries of column c when rows = cols; there are non-square matrices for which it yields entries of other columns or panics.", "quantifier": "all shapes", "why_tests_cant": "all shapes", "anchors": ["src/linalg/mat.rs: Mat::get_col_iter_mut"]}
{"id": "C58", "title": "Matrix epsilon_equals over Rational is equality", "statement": "For rational matrices of equal shape epsilon_equals returns true iff all entries are equal in value.", "quantifier": "all rational matrices", "why_tests_cant": "all entries", "anchors": ["src/linalg/mat.rs: EpsilonEquality for Mat<F>", "src/linalg/mat.rs: Mat::frobenius_norm"]}
{"id": "C59", "title": "num_to_seq produces base digits", "statement": "For base >= 2 num_to_seq(n, base) yields finitely many digits, each below base, little-endian, whose weighted sum is n, with no trailing zero; for base 1 and n > 0 it never ends; for base 0 it panics.", "quantifier": "all n and bases", "why_tests_cant": "all n", "anchors": ["src/linalg/util.rs: num_to_seq", "src/linalg/util.rs: BaseSeqIterator"]}
{"id": "C60", "title": "mat_iterator enumerates every matrix exactly once", "statement": "For distinct values, mat_iterator(n,m,values) yields each n x m matrix with entries in values exactly once and then stops: values.len()^(n*m) matrices.", "quantifier": "all n, m, value lists", "why_tests_cant": "exhaustiveness claim used by the test-suite itself", "anchors": ["src/linalg/util.rs: mat_iterator", "src/linalg/util.rs: MatIterator"]}
{"id": "C61", "title": "get_max_index", "statement": "get_max_index returns the last index of a maximal element for every total preorder, panics on an empty sequence and when the comparison returns None between compared elements.", "quantifier": "all sequences and preorders", "why_tests_cant": "all lengths", "anchors": ["src/linalg/util.rs: get_max_index"]}
{"id": "C62", "title": "superscript", "statement": "superscript(n) is the decimal expansion of n in superscript digits, for every u8, hence injective.", "quantifier": "all u8", "why_tests_cant": "finite but exhaustive", "anchors": ["src/poly/display.rs: superscript"]}
{"id": "C63", "title": "Multidegree display is injective", "statement": "Distinct canonical multidegrees are displayed by distinct strings.", "quantifier": "all pairs of canonical multidegrees", "why_tests_cant": "all pairs", "anchors": ["src/poly/display.rs: Display for MultiDegree"]}
{"id": "C64", "title": "Variable naming disagrees between macro and display", "statement": "The fn_vars macro names indices 3,4,5 as w,u,v while Display prints indices 3,4 as u,v and never prints a letter for index 5; so the variable constructed as w(1) prints as u.", "quantifier": "all variable indices", "why_tests_cant": "cross-module agreement", "anchors": ["src/poly/macros.rs: fn_vars", "src/poly/display.rs: Display for MultiDegree"]}
{"id": "C65", "title": "Cone facets are supporting", "statement": "Whenever Cone::new completes on generators of equal dimension over Rational, every facet normal has nonnegative dot product with every generator and zero dot product with the facet's own generators; orth_comp_basis spans the vectors orthogonal to all generators; dim is the rank.", "quantifier": "all generator lists", "why_tests_cant": "all inputs", "anchors": ["src/linalg/cone.rs: Cone::new"]}
{"id": "C66", "title": "Cone::new panics in low dimension", "statement": "Cone::new panics on an empty generator list, when all generators are zero (rank 0), and for every one-dimensional cone (rank 1).", "quantifier": "all generator lists of rank at most one", "why_tests_cant": "all inputs", "anchors": ["src/linalg/cone.rs: Cone::new"]}
{"id": "C67", "title": "Division is determined by its specification", "statement": "The quotients and remainder of divide are the unique ones with f = sum q_i g_i + r, r reduced, no term of q_i*LT(g_i) divisible by an earlier LT(g_j), and zero quotients for zero divisors; so the order in which terms are stored in f and the divisors has no influence on the polynomials returned.", "quantifier": "all clean inputs, every lawful order", "why_tests_cant": "uniqueness over all competing quotient/remainder candidates", "anchors": ["src/poly/comp.rs: divide"]}
{"id": "C68", "title": "Leading terms are multiplicative", "statement": "For clean p, q the product p*q is zero iff p or q is, and the leading term of p*q is the product of the leading terms, for every lawful order.", "quantifier": "all clean pairs, every lawful order", "why_tests_cant": "all pairs and all orders", "anchors": ["src/poly/comp.rs: leading_term"]}
{"id": "C69", "title": "Reduced row echelon form is unique", "statement": "Row-equivalent matrices (a' = q a with q invertible) have, in value, the same reduced row echelon form b; b is the only matrix in reduced row echelon form of the shape q a with q invertible. So the pivoting choices of stability_cmp do not influence it.", "quantifier": "all matrices over an exact field", "why_tests_cant": "quantifies over all invertible transformations", "anchors": ["src/linalg/algorithm.rs: RowEchelonForm::to_rref"]}
{"id": "C70", "title": "lu and row_echelon agree", "statement": "The factor u of lu() and the matrix b of row_echelon() are identical entry by entry, representation included.", "quantifier": "all matrices, every field type", "why_tests_cant": "all inputs", "anchors": ["src/linalg/algorithm.rs: Mat::lu", "src/linalg/algorithm.rs: Mat::row_echelon"]}
{"id": "C71", "title": "Rank decides invertibility and to_rref computes the inverse", "statement": "For square a the rank read off the reduced form is n iff a is invertible, and then b is the identity and p is the two-sided inverse of a.", "quantifier": "all square matrices over an exact field", "why_tests_cant": "all sizes", "anchors": ["src/linalg/algorithm.rs: RowEchelonForm::to_rref", "src/linalg/algorithm.rs: RowEquivalentForm::rank"]}
{"id": "C72", "title": "Rank is invariant under transposition", "statement": "The rank computed for a and for a.transpose() agree.", "quantifier": "all matrices over an exact field", "why_tests_cant": "row rank equals column rank for all matrices", "anchors": ["src/linalg/algorithm.rs: RowEquivalentForm::rank", "src/linalg/mat.rs: Mat::transpose"]}
{"id": "C73", "title": "Rank of a product", "statement": "The rank computed for a * b is at most the ranks computed for a and for b.", "quantifier": "all composable pairs", "why_tests_cant": "all pairs", "anchors": ["src/linalg/algorithm.rs: RowEquivalentForm::rank", "src/linalg/mat.rs: Mul for &Mat<F>"]}
{"id": "C74", "title": "Rational and term display are injective", "statement": "Displaying a Term<Rational> never panics, and two well-formed rationals (or terms) with the same display are identical; a rational is displayed with a leading minus sign iff its value is negative.", "quantifier": "all rationals with positive denominator, all terms with canonical multidegree", "why_tests_cant": "all pairs", "anchors": ["src/core/num/rat.rs: Display for Rational", "src/poly/display.rs: Display for Term"]}
{"id": "C75", "title": "Polynomial display is injective and its only failure is i64::MIN", "statement": "Two Polynomial<Rational> values with canonical multidegrees and nonzero coefficients which print the same have the same terms in the same order; only the zero polynomial prints as 0; with overflow checks Display panics iff a term after the first has numerator i64::MIN.", "quantifier": "all pairs of polynomials", "why_tests_cant": "all pairs; unambiguous parsing of the sum notation", "anchors": ["src/poly/display.rs: Display for Polynomial<Rational>"]}
{"id": "C76", "title": "Which facets Cone::new finds", "statement": "For a full-dimensional cone, every supporting hyperplane through dim-1 independent generators that does not contain the first generator is reported with a positive multiple of its inner normal. Without the last condition facets can be missed; in a larger ambient space reported normals can be orthogonal to the whole cone; one hyperplane can be reported several times.", "quantifier": "all generator lists; refutations by example", "why_tests_cant": "completeness quantifies over all hyperplanes", "anchors": ["src/linalg/cone.rs: Cone::new"]}
{"id": "C77", "title": "The release build agrees with every checked run that does not overflow", "statement": "For polynomials, orders, division, Groebner bases, matrices, elimination, kernels and cones over Rational: if a build with overflow checks does not end in an overflow panic, a release build on the same inputs gives the identical result, representation included, or panics identically.", "quantifier": "all inputs, all four orders, every loop bound", "why_tests_cant": "relates two builds on all inputs; tests run one build", "anchors": ["src/poly/comp.rs: PolyComputer::divide", "src/poly/comp.rs: PolyComputer::buchberger_algorithm", "src/linalg/algorithm.rs: Mat::row_echelon", "src/linalg/algorithm.rs: Mat::lu", "src/linalg/cone.rs: Cone::new"]}
{"id": "C78", "title": "Results depend on values, not on representations", "statement": "Rational does not keep sums in lowest terms. Replacing coefficients by equal numbers in other representations changes results of polynomial arithmetic, evaluation, division, Buchberger criterion and Groebner bases only to equal numbers, unless one of the runs overflows; the reduced row echelon form and rank likewise. The transformation matrix p does depend on the representation.", "quantifier": "all pairs of representations, every exact field type", "why_tests_cant": "quantifies over all pairs of equal inputs", "anchors": ["src/poly/comp.rs: PolyComputer::divide", "src/poly/comp.rs: PolyComputer::buchberger_algorithm", "src/linalg/algorithm.rs: RowEchelonForm::to_rref", "src/core/num/rat.rs: StabilityCmp for Rational"]}
{"id": "C79", "title": "f32 and f64 operations with a representable result are exact", "statement": "For finite operands, +, -, *, / return the mathematical result whenever that is a value of the type, negation and comparison are exact; in particular integer arithmetic is exact up to 2^24 (f32) and 2^53 (f64), and every such integer is a value of the type. Beyond that it is refuted.", "quantifier": "all finite operands of both types", "why_tests_cant": "2^128 operand pairs", "anchors": ["src/core/num/traits.rs: Field for f32, f64"]}
{"id": "C80", "title": "Float computations in which nothing is rounded are exact", "statement": "Polynomial arithmetic, evaluation, division, S-polynomials, Groebner bases, matrix arithmetic, elimination, kernels and cones over f32 and f64: if a run with a rounding alarm (which also rings at nonzero values below EPSILON in elimination) does not ring, the run over the primitive type gives the same result. Hence every theorem about exact field types applies to it, such as the division identity and p a = l u.", "quantifier": "all inputs, every order, every choice of powi and of the start value of Sum", "why_tests_cant": "all inputs; relates float runs to exact mathematics", "anchors": ["src/core/num/traits.rs: Field for f32, f64", "src/poly/comp.rs: PolyComputer::divide", "src/linalg/algorithm.rs: Mat::lu"]}
{"id": "C81", "title": "Division and Groebner bases over floats need not terminate", "statement": "Over f32 and f64 divide() never returns when the leading coefficient quotient underflows to zero, when a nonfinite coefficient is met, or when c - (c/b)*b does not round to zero along the run. Harmless inputs show it: x divided by 49x (f64), x divided by 41x (f32), and the Groebner basis of (49x, x) over f64 never finish, although all polynomials are in one variable with small integer coefficients.", "quantifier": "all fuel bounds; all inputs with these features", "why_tests_cant": "nontermination is not observable by a test", "anchors": ["src/poly/comp.rs: PolyComputer::divide", "src/poly/comp.rs: PolyComputer::buchberger_algorithm", "src/core/num/traits.rs: Field for f32, f64"]}
{"id": "C82", "title": "What division and Groebner functions guarantee for every coefficient type", "statement": "Without any law of arithmetic (so also with rounding): if divide returns, there is one quotient per divisor and no term of the remainder is divisible by the leading term of a divisor; buchberger_extend keeps the generators as a prefix and every pair's S-polynomial has remainder zero under the final list; buchberger_criterion is true iff all pairs do; minimize returns a sublist in which no leading term divides another; reduce keeps the length and no term is divisible by the leading term of another element.", "quantifier": "all coefficient types, all inputs", "why_tests_cant": "all coefficient types", "anchors": ["src/poly/comp.rs: PolyComputer::divide", "src/poly/comp.rs: PolyComputer::buchberger_criterion", "src/poly/comp.rs: PolyComputer::buchberger_extend", "src/poly/comp.rs: PolyComputer::buchberger_minimize", "src/poly/comp.rs: PolyComputer::buchberger_reduce"]}
{"id": "C83", "title": "Elimination over floats: outcomes and pivots", "statement": "Over f32 and f64 row_echelon and lu return matrices of the right shapes or panic in unwrap on a NaN; rank, rref and kernel then do not panic. The pivot chosen has the largest absolute value of its column, is at least EPSILON and is rejected only when all candidates are smaller; a NaN in a column with two candidates panics. Refuted over f64: rank <= columns (column (49, 49) has rank 2 and nullity underflows), pivots equal to 1, p a = l u up to epsilon_equals, and that finite matrices do not panic.", "quantifier": "all matrices over both float types", "why_tests_cant": "all matrices, including NaN and infinities", "anchors": ["src/linalg/algorithm.rs: Mat::row_echelon", "src/linalg/algorithm.rs: Mat::lu", "src/linalg/algorithm.rs: RowEquivalentForm::rank", "src/linalg/algorithm.rs: Mat::get_stable_column_index_under_row"]}
{"id": "C84", "title": "Rounding errors of float operations and matrix arithmetic", "statement": "Over f32 and f64 (u = 2^-24 and 2^-53) the sum, difference, product and quotient of finite values differ from the exact result by at most u times its size, plus half the smallest positive value for products and quotients, and are infinite only beyond the largest finite value, never NaN except for division by zero; a finite result is nearest to the exact one among all finite values. A finite dot product, Frobenius sum or entry of a product of matrices with inner dimension n differs from the exact sum of products by at most ((1+u)^(n+1)-1) times the sum of absolute products plus an underflow term; entries of a + b by at most u |a+b|.", "quantifier": "all valid operands, all matrices of all sizes", "why_tests_cant": "all values and sizes; an error bound is not observable by sampling", "anchors": ["src/core/num/traits.rs: Field for f32, f64", "src/linalg/mat.rs: Mat::dot", "src/linalg/mat.rs: Mat::frobenius_norm", "src/linalg/mat.rs: Mul for &Mat<F>", "src/linalg/mat.rs: Add for &Mat<F>"]}
{"id": "C85", "title": "Coefficients of sums and products for every coefficient type", "statement": "For polynomials without repeated degrees and without zero coefficients, p + q has neither, and its coefficient at each degree is that of p, that of q, or the single sum of both, dropped when zero; likewise p - q when negation keeps nonzero values; products with a term have exactly the single products as coefficients; p * q has no repeated degree. Over floats + is commutative coefficient by coefficient; refuted over f64: nonzero coefficients of products ((2^-600 x)^2 is a nonzero polynomial 0 x^2) and associativity.", "quantifier": "all coefficient types, all clean polynomials", "why_tests_cant": "all coefficient types and inputs", "anchors": ["src/poly/elts.rs: Add", "src/poly/elts.rs: Sub", "src/poly/elts.rs: Neg", "src/poly/elts.rs: Mul"]}
{"id": "C86", "title": "Rounding errors of polynomial arithmetic over floats", "statement": "For clean polynomials over f32 and f64, each finite coefficient of p + q and p - q differs from the exact one by at most u times its size. Each finite (or absent) coefficient of p * q at degree d differs from the exact sum over the k pairs of terms with that product degree by at most ((1+u)^(k+1)-1) times the sum of the absolute products plus an underflow term.", "quantifier": "all clean polynomials over both types, all degrees", "why_tests_cant": "all inputs; error bounds are not observable by sampling", "anchors": ["src/poly/elts.rs: Add", "src/poly/elts.rs: Sub", "src/poly/elts.rs: Mul", "src/core/num/traits.rs: Field for f32, f64"]}
{"id": "C87", "title": "Comparison of floats", "statement": "epsilon_equals holds only for finite values closer than EPSILON and whenever they are closer than EPSILON (1-u); it is symmetric and reflexive exactly on finite values. For values of size at least 1 it is plain equality, and all values below about EPSILON/2 are equal to each other. Refuted: transitivity, and that closer than EPSILON suffices. stability_cmp compares absolute values, is None exactly for NaN, and infinities are largest.", "quantifier": "all pairs of values of both types", "why_tests_cant": "2^128 pairs", "anchors": ["src/core/num/traits.rs: EpsilonEquality for f32, f64", "src/core/num/traits.rs: StabilityCmp for f32, f64"]}
{"id": "C88", "title": "Equality and hashing", "statement": "Over Rational, == of terms and of matrices is identity of representations, so terms with equal values can be unequal: (1/2)x + (1/2)x != x. Over floats == is symmetric and transitive but not reflexive (NaN), although Term<F> implements Eq for all F. Hashing a Rational is consistent with == and not with cmp: 1/2 + 1/2 compares as equal to 1 and hashes differently.", "quantifier": "all terms and matrices", "why_tests_cant": "all pairs", "anchors": ["src/poly/elts.rs: PartialEq for Term<F>", "src/poly/elts.rs: Eq for Term<F>", "src/linalg/mat.rs: Mat"]}
{"id": "C89", "title": "Matrix display", "statement": "Display for Mat prints an empty line and then one line per row with the Debug texts of the entries in brackets; it panics iff Mat::new was given too few entries. Over Rational (and any entry type whose texts differ and contain no comma or bracket) matrices with at least one row and the same display are identical; refuted for matrices without rows.", "quantifier": "all matrices, every entry type", "why_tests_cant": "all pairs of matrices", "anchors": ["src/linalg/mat.rs: Display for Mat<F>"]}
{"id": "C90", "title": "Display of Polynomial<f64>", "statement": "Display never panics, also with NaN and infinities; terms after the first are printed with their sign in front and the rest as if positive; polynomials with nonzero non-NaN coefficients that print the same have identical terms; only the zero polynomial prints 0 (refuted when zero coefficients are present); with the same integer coefficients up to 2^53 Polynomial<f64> and Polynomial<Rational> print the same text.", "quantifier": "all polynomials, given that the text of an f64 reads back to it", "why_tests_cant": "all pairs", "anchors": ["src/poly/display.rs: Display for Polynomial<f64>", "src/poly/display.rs: Display for Term"]}
{"id": "C91", "title": "Backward error of lu over floats", "statement": "Over f32 and f64, when lu returns: p is exactly a permutation matrix, l is lower triangular with exact zeros above the diagonal, no entry of l below the diagonal is larger in size than the diagonal entry of its column, and no diagonal entry is below EPSILON. Entry (i, j) of p self - l u is at most ((1+2u)^(i+4) - 1) times the sum of the absolute products l_ik u_kj, plus (i + 2 |l_ii|)(1+2u)^i times half the smallest positive value, whenever the entries of l and u in that sum are finite; if all entries of l and u are finite then so are those of the matrix.", "quantifier": "all matrices of all sizes over both float types", "why_tests_cant": "all matrices; an error bound is not observable by sampling", "anchors": ["src/linalg/algorithm.rs: Mat::lu"]}
{"id": "C92", "title": "Remainders are normal forms modulo the ideal", "statement": "For a Groebner basis: divide gives f and g the same remainder iff f - g is in the ideal; the remainder of a sum, difference or scalar multiple is that of the remainders; the remainder of a product is that of the product of the remainders. For any divisors: dividing a remainder again changes nothing and all quotients are zero.", "quantifier": "all polynomials, all Groebner bases, every order satisfying the laws", "why_tests_cant": "all inputs; ideal membership is not observable by sampling", "anchors": ["src/poly/comp.rs: PolyComputer::divide"]}
{"id": "C93", "title": "Zero sets", "statement": "A point at which all generators evaluate to zero is a zero of every element of the result of buchberger_algorithm and conversely; at a common zero of the divisors a polynomial and its remainder have the same value.", "quantifier": "all generators, all points at which the evaluations succeed", "why_tests_cant": "all points", "anchors": ["src/poly/comp.rs: PolyComputer::buchberger_algorithm", "src/poly/comp.rs: PolyComputer::divide", "src/poly/elts.rs: Polynomial::eval"]}
{"id": "C94", "title": "The unit ideal is recognised", "statement": "1 is in the ideal of the generators iff buchberger_algorithm returns a nonzero constant among its results iff it returns just one constant polynomial; with a common zero of the generators no result is constant.", "quantifier": "all nonempty lists of nonzero generators, every order", "why_tests_cant": "all generators; the absence of a representation of 1 is not observable", "anchors": ["src/poly/comp.rs: PolyComputer::buchberger_algorithm"]}
{"id": "C95", "title": "Elimination with Lex and RevLex", "statement": "With Lex the results without x_0 .. x_(k-1) generate, with coefficients in the remaining variables, exactly the elements of the ideal without these variables, and their leading monomials cover those of all such elements; with RevLex (as implemented: the last variable weighs most) the same holds for the results without x_k, x_(k+1), ...", "quantifier": "all generators, all k", "why_tests_cant": "all elements of the elimination ideal", "anchors": ["src/poly/comp.rs: PolyComputer::buchberger_algorithm", "src/poly/ord.rs: Lex::cmp", "src/poly/ord.rs: RevLex::cmp"]}
{"id": "C96", "title": "The result of buchberger_algorithm has no new variables", "statement": "A variable occurring in no generator occurs in no result. Hence a point long enough to evaluate the generators is long enough for the results: eval can only overflow.", "quantifier": "all generators, all variables, every order", "why_tests_cant": "all generators", "anchors": ["src/poly/comp.rs: PolyComputer::buchberger_algorithm", "src/poly/elts.rs: Polynomial::eval"]}
{"id": "C97", "title": "Comparing ideals", "statement": "If all elements of a second list have remainder zero under the result of buchberger_algorithm then its ideal is contained in that of the generators, and conversely every such remainder is zero. Two ideals are equal iff the results for their generators agree up to order and nonzero constant factors.", "quantifier": "all lists of generators, every order", "why_tests_cant": "all pairs of ideals", "anchors": ["src/poly/comp.rs: PolyComputer::buchberger_algorithm", "src/poly/comp.rs: PolyComputer::divide"]}
{"id": "C98", "title": "Greatest common divisors", "statement": "For nonzero polynomials in one variable buchberger_algorithm returns a single polynomial: it divides all generators, is a combination of them, and every common divisor divides it.", "quantifier": "all nonempty lists of nonzero polynomials in one variable, every order", "why_tests_cant": "all inputs", "anchors": ["src/poly/comp.rs: PolyComputer::buchberger_algorithm"]}
{"id": "C99", "title": "Polynomials with repeated degrees or zero coefficients", "statement": "Polynomial::new keeps repeated degrees, new_unchecked and the public field also keep zero terms. The public degree vectors may end in zeros. On such polynomials +, -, negation, scaling, * and eval still have the right values, adding to a clean polynomial a polynomial without trailing zeros gives a clean one, multiplying by a term removes trailing zeros, and when divide returns then f = sum q_i g_i + r, whatever comparison is used as the order. But is_zero may be false for value zero (refuted: x - x), and divide need not end: with a zero leading coefficient and some nonempty divisor it loops for ever for every coefficient type; c x^k + d x^k divided by a term dividing x^k gives no result when c is not a natural multiple of d (refuted: x - x by x), and over numbers without overflow runs for ever.", "quantifier": "all polynomials with valid coefficients and any exponent lists, all comparisons, all fuel", "why_tests_cant": "non-termination is not observable by testing; all polynomials", "anchors": ["src/poly/elts.rs: Polynomial::new", "src/poly/elts.rs: Polynomial::new_unchecked", "src/poly/elts.rs: Polynomial::is_zero", "src/poly/elts.rs: Polynomial::eval", "src/poly/comp.rs: PolyComputer::divide"]}
{"id": "C100", "title": "Iteration bounds", "statement": "Integer::gcd ends within k iterations when |b| < F(k+2) (Fibonacci), so within 91 for all i64 arguments, and 91 are needed for F(91), F(92). divide takes at most as many iterations as there are monomials with u8 exponents, in the variables of the input, not above every monomial of f: at most 256^n in n variables, deg f + 1 in one variable for every order, and binom(n+d, n) for an order by total degree and f of total degree d.", "quantifier": "all integers, all clean polynomials and divisors, every order satisfying the laws", "why_tests_cant": "a bound over all inputs", "anchors": ["src/core/num/int.rs: Integer::gcd", "src/poly/comp.rs: PolyComputer::divide"]}
{"id": "C101", "title": "Multidegrees with trailing zeros", "statement": "A MultiDegree can be built with trailing zeros. A difference returned by checked_sub is right for all vectors, and one is returned whenever it exists and the subtrahend has no trailing zero (refuted otherwise: (1) - (1,0) is None); is_succ is sound for all vectors (not complete: (1,0) against (1)); Lex and GrLex order different monomials correctly whatever the trailing zeros, RevLex and GRevLex do not (refuted); two forms of one monomial are compared by length only, so never equal. A nonzero term whose degree ends in a zero, divided by a term that checked_sub accepts, gives no result with any of the orders, even when divided by itself.", "quantifier": "all vectors of u8 values, every field implementation, all fuel", "why_tests_cant": "all vectors; non-termination is not observable by testing", "anchors": ["src/poly/mdeg.rs: MultiDegree::checked_sub", "src/poly/mdeg.rs: MultiDegree::is_succ", "src/poly/mdeg.rs: MultiDegree::trim_zeros", "src/poly/ord.rs: Lex::cmp", "src/poly/ord.rs: RevLex::cmp", "src/poly/ord.rs: GrLex::cmp", "src/poly/ord.rs: GRevLex::cmp", "src/poly/comp.rs: PolyComputer::divide"]}
{"id": "C102", "title": "The half-spaces of Cone::new describe the cone", "statement": "Every nonnegative combination of the generators has nonnegative dot product with every reported normal. For a full-dimensional cone a vector is a nonnegative combination of the generators iff its dot products with the reported normals, and with the inner normals of the supporting hyperplanes that contain dim-1 independent generators and the first generator, are nonnegative. So if the first generator is a positive combination of the others (for instance their sum), the reported facets describe exactly the cone, and there are none iff the cone is the whole space. Without this the half-spaces can be larger than the cone (refuted: (1,0), (0,-1)).", "quantifier": "all generator lists for which Cone::new completes, all vectors", "why_tests_cant": "all points of the space; the existence of nonnegative coefficients is Farkas' lemma", "anchors": ["src/linalg/cone.rs: Cone::new"]}
{"id": "C103", "title": "Inputs for which nothing overflows", "statement": "If the coefficients have numerators at most A, B in absolute value and denominators at most D, E, then +, - of clean polynomials complete when A*E+B*D and D*E fit i64, * of polynomials completes when n*A*B*(D*E)^(n-1) and (D*E)^n fit, n the number of terms of the left factor, and the exponents add up to at most 255; eval completes when the same holds with A*X^g, D*Y^g for points bounded by X/Y and total degrees at most g; matrix +, scaling, *, dot and frobenius_norm likewise with n the number of products added up. The results obey these bounds. For integer coefficients the conditions are A+B, n*A*B and n*A*X^g at most i64::MAX, which is sharp.", "quantifier": "all clean polynomials and matrices within the bounds", "why_tests_cant": "absence of overflow for all inputs of a size cannot be sampled", "anchors": ["src/poly/elts.rs: Add", "src/poly/elts.rs: Sub", "src/poly/elts.rs: Neg", "src/poly/elts.rs: Mul", "src/poly/elts.rs: Polynomial::eval", "src/linalg/mat.rs: Add", "src/linalg/mat.rs: Mul", "src/linalg/mat.rs: Mat::dot", "src/linalg/mat.rs: Mat::frobenius_norm", "src/core/num/rat.rs: Add", "src/core/num/rat.rs: Mul"]}
{"id": "C104", "title": "Systems of linear equations", "statement": "With the p, b of row_echelon or to_rref and the rank r: A x = c has a solution iff the entries of p*c from r on are zero; the rows of p from r on are a basis of the vectors y with y A = 0 and the first r rows of b a basis of the row space; with the reduced form, putting the entries of p*c at the bound variables and zero elsewhere gives a solution of every solvable system, and the solutions are exactly this one plus combinations of the vectors of compute_kernel; the solution is unique iff r is the number of columns; A x = c is solvable iff appending c as a column does not change the rank.", "quantifier": "all matrices and right sides whose elimination completes", "why_tests_cant": "the set of all solutions, and the absence of solutions, cannot be observed by testing", "anchors": ["src/linalg/algorithm.rs: Mat::row_echelon", "src/linalg/algorithm.rs: RowEchelonForm::to_rref", "src/linalg/algorithm.rs: RowEquivalentForm::rank", "src/linalg/algorithm.rs: ReducedRowEchelonForm::compute_kernel"]}
{"id": "C105", "title": "Saturation and radical membership by an extra variable", "statement": "Let gens be clean non-zero polynomials and f a clean polynomial, none of which involves the variable x_i, and let h = 1 - x_i f be computed with the crate's operators. If PolyComputer::buchberger_algorithm(gens + [h]) returns, with any of the orders, then some power of f lies in the ideal of gens iff the result is a single constant; in that case f evaluates to zero at every common zero of gens. With Lex and i = 0 the elements of the result without x_0 generate exactly the polynomials p without x_0 such that f^n p lies in the ideal of gens for some n; with RevLex the same holds for the last variable.", "quantifier": "for all coefficient fields meeting the field contract, all clean generator lists, all f, all variables and all runs that return", "why_tests_cant": "It relates a run on an extended system to powers of a polynomial modulo the ideal, with no bound on the power or on the cofactors.", "anchors": ["src/poly/comp.rs: PolyComputer::buchberger_algorithm", "src/poly/elts.rs: Polynomial::var", "src/poly/elts.rs: Polynomial::eval"]}
{"id": "C106", "title": "Intersection and quotient of ideals by an extra variable", "statement": "Let gens and gens2 be clean non-zero polynomials not involving x_0. If the crate's operators compute x_0 f for f in gens and (1 - x_0) g for g in gens2, and buchberger_algorithm with Lex returns on those, then the elements of the result without x_0 generate exactly the polynomials without x_0 in both ideals; with RevLex the same holds for the last variable. If gens2 = [f], dividing each of these elements by [f] with PolyComputer::divide leaves remainder zero, and the quotients generate exactly the p without x_0 with f p in the ideal of gens.", "quantifier": "for all coefficient fields meeting the field contract, all clean generator lists and all runs that return", "why_tests_cant": "Intersection and quotient quantify over all cofactors and all elements of infinite ideals.", "anchors": ["src/poly/comp.rs: PolyComputer::buchberger_algorithm", "src/poly/comp.rs: PolyComputer::divide", "src/poly/elts.rs: Polynomial::var"]}
{"id": "C107", "title": "Standard monomials of the result", "statement": "Call a monomial in x_0..x_(n-1) standard if no leading monomial of the result of buchberger_algorithm divides it. There are finitely many standard monomials iff for each variable the result has an element whose leading monomial is a power of it, iff the ideal has such an element. For generators and f in n variables the remainder of divide(f, result) has standard monomials only and is the only polynomial with standard monomials congruent to f modulo the ideal. If the lists of standard monomials of two results are finite and the ideals are equal, they have the same length, whatever the two orders and generators are.", "quantifier": "all clean generator lists, all orders, all numbers of variables, all runs that return", "why_tests_cant": "infinitely many monomials, polynomials and orders; the dimension of the quotient is not observable", "anchors": ["src/poly/comp.rs: PolyComputer::buchberger_algorithm", "src/poly/comp.rs: PolyComputer::divide"]}
{"id": "C108", "title": "Number of common zeros", "statement": "If the generators are clean and in n variables, and points with pairwise different first n coordinates all annihilate the generators under Polynomial::eval, then there are at most as many points as standard monomials of the result of buchberger_algorithm; at most d_0*...*d_(n-1) if the result has elements led by x_i^(d_i) for all i < n. A non-zero clean polynomial in one variable has at most as many pairwise different roots as its degree.", "quantifier": "all clean generator lists, all point lists, all orders", "why_tests_cant": "bounds the number of zeros in an infinite set of points", "anchors": ["src/poly/comp.rs: PolyComputer::buchberger_algorithm", "src/poly/elts.rs: Polynomial::eval"]}
{"id": "C109", "title": "Weighted homogeneous polynomials and ideals", "statement": "Give variable i an integer weight w_i and compare weights of terms modulo k (k = 0: equality). If all terms of each generator have the same weight, the same holds for each element of the result of buchberger_algorithm. For arbitrary generators, all elements of the result are homogeneous in this sense iff the ideal contains with each f the part of f of each weight. If the divisors are homogeneous and f has terms of weight d only, then the remainder of divide has terms of weight d only and so has every product of a term of a quotient with a term of its divisor. The S-polynomial of homogeneous polynomials has the weight of the least common multiple of their leading monomials.", "quantifier": "all clean inputs, all orders, all integer weights, all moduli, all runs that return", "why_tests_cant": "quantifies over all weights, all members of the ideal and all graded parts", "anchors": ["src/poly/comp.rs: PolyComputer::buchberger_algorithm", "src/poly/comp.rs: PolyComputer::divide", "src/poly/comp.rs: PolyComputer::try_reduce"]}
{"id": "C110", "title": "Polynomials with at most two terms", "statement": "If every divisor has at most two terms, the remainder of divide has no more terms than the dividend. The S-polynomial of f and g has at most |f| + |g| - 2 terms. If every generator has at most two terms, so has every element of the results of buchberger_extend, buchberger_reduce and buchberger_algorithm. If every generator has exactly one term, the result of buchberger_algorithm is a sublist of the generators, unchanged and in their order; every generator is divisible by an element of it and none of its elements divides another.", "quantifier": "all clean inputs, all orders, all runs that return", "why_tests_cant": "bounds the size of all intermediate and final polynomials for all inputs", "anchors": ["src/poly/comp.rs: PolyComputer::divide", "src/poly/comp.rs: PolyComputer::try_reduce", "src/poly/comp.rs: PolyComputer::buchberger_extend", "src/poly/comp.rs: PolyComputer::buchberger_reduce", "src/poly/comp.rs: PolyComputer::buchberger_algorithm"]}
{"id": "C111", "title": "Determinants and LU", "statement": "For a square matrix the sign of the permutation returned by lu, times the products of the diagonals of l and u, is the determinant (defined by expansion along the first column); the diagonal of u multiplies to one exactly when the matrix is invertible and to zero otherwise. The product of matrices multiplies determinants, the transpose keeps the determinant, scale_row multiplies it by the scalar, permute_rows of two different rows negates it and replace_row with different rows keeps it. The computed rank is full exactly when the determinant is not zero.", "quantifier": "all square matrices over exact fields", "why_tests_cant": "relates the entries of three computed matrices to one number defined independently of elimination, in every dimension", "anchors": ["src/linalg/algorithm.rs: Mat::lu", "src/linalg/algorithm.rs: Mat::row_echelon", "src/linalg/mat.rs: Mat::transpose", "src/linalg/mat.rs: Mat::scale_row", "src/linalg/mat.rs: Mat::permute_rows", "src/linalg/mat.rs: Mat::replace_row"]}
{"id": "C112", "title": "Polynomial maps, implicit equations and subalgebras", "statement": "Let y_j be new variables and run buchberger_algorithm on the polynomials y_j - f_j, built with poly_var and the subtraction operator. For every order the result generates exactly the polynomials that become zero when f_j is substituted for y_j, a division by the result has remainder zero exactly for these, and every element of the result evaluates to zero at (x, f(x)). With Lex and the y_j last, or RevLex and the y_j first, the elements of the result in the y_j alone generate all polynomial relations between the f_j; and a polynomial p in the old variables is a polynomial in the f_j exactly when its remainder contains only the y_j, in which case substituting f_j in the remainder gives p.", "quantifier": "all polynomial maps, all runs that return", "why_tests_cant": "relates results of two algorithms to substitution in all polynomials", "anchors": ["src/poly/comp.rs: PolyComputer::buchberger_algorithm", "src/poly/comp.rs: PolyComputer::divide", "src/poly/elts.rs: Polynomial::var", "src/poly/elts.rs: Polynomial::eval"]}
{"id": "C113", "title": "Groebner bases of linear systems agree with row reduction", "statement": "Let the rows of an n x (m+1) matrix be polynomials of degree at most one (column j < m the coefficient of a variable, the last column the constant term), with the variables of the columns decreasing in the order used. Then buchberger_algorithm on the nonzero rows and row_echelon followed by to_rref on the matrix give the same answer: if the constant column holds no pivot, the result has exactly rank many elements and they are the nonzero rows of the reduced form up to order and nonzero factors; the result is a single constant exactly when the constant column holds a pivot, that is when the system is inconsistent. Lex, GrLex and GRevLex have decreasing variables x_0, x_1, ..., RevLex the reverse.", "quantifier": "all matrices, all lists of generators with these rows, all orders with decreasing variables, all runs that return", "why_tests_cant": "two independent algorithms compared on all linear systems", "anchors": ["src/poly/comp.rs: PolyComputer::buchberger_algorithm", "src/linalg/algorithm.rs: Mat::row_echelon", "src/linalg/algorithm.rs: RowEchelonForm::to_rref", "src/linalg/algorithm.rs: RowEquivalentForm::rank"]}
{"id": "C114", "title": "Debug output and alternate formats", "statement": "format!(\"{:?}\", a) and format!(\"{:#?}\", a) determine the value: two Integers, Rationals, MultiDegrees, Terms, Polynomials or Mats (over Rational, or over any type whose own texts differ and consist of letters, digits and signs) have the same text exactly when they are structurally equal. Display of Mat prints its rows one after the other, each as DebugList prints it with the flags of the formatter, so that {:#} puts every entry on lines of its own; with {:#} as well, matrices with at least one row and the same text are equal. The two texts of every type are given explicitly. The message of the panic of Term::eval determines argument and term.", "quantifier": "all values, both formats", "why_tests_cant": "nested indentation and unbounded nesting of lists; injectivity over all pairs of values", "anchors": ["src/core/num/int.rs: Integer", "src/core/num/rat.rs: Rational", "src/poly/elts.rs: Term::eval", "src/linalg/mat.rs: Mat::new"]}
{"id": "C115", "title": "Transposes: solvability and least squares", "statement": "For a matrix a over an exact field, a x = b has a solution exactly when the dot products of b with the kernel vectors computed from the transpose all compare equal to zero; these vectors are orthogonal to the range vectors of a, and both families together have as many vectors as a has rows. Over Rational, transpose(a)*a has the rank and the kernel of a; transpose(a)*a x = transpose(a)*b always has a solution, and its solutions are exactly the x for which the squared norm of a x - b is least.", "quantifier": "all matrices of any shape, all right sides, all competing vectors", "why_tests_cant": "the minimum ranges over all vectors, and solvability over all candidate solutions", "anchors": ["src/linalg/mat.rs: transpose", "src/linalg/mat.rs: dot", "src/linalg/mat.rs: frobenius_norm", "src/linalg/algorithm.rs: compute_kernel", "src/linalg/algorithm.rs: compute_range", "src/linalg/algorithm.rs: fn rank"]}
{"id": "C116", "title": "Renaming the variables", "statement": "Moving the variables 0..n-1 to other numbers (the same coefficients, the exponents at other places) does not change what the code does: addition, subtraction, negation, multiplication and scaling give the renamed result or the same panic for every renaming; with a renaming that keeps the order of the variables, leading terms, sorting, divide, try_reduce, buchberger_criterion and buchberger_algorithm run in step for Lex, RevLex, GrLex and GRevLex; with one that reverses their order they run in step between Lex and RevLex. This holds for every coefficient type, floats and overflowing machine rationals included. The renamed polynomial is p with x_s(i) put for x_i.", "quantifier": "all coefficient types, all polynomials and lists of generators, all renamings, any number of steps (builds with overflow checks)", "why_tests_cant": "relates two runs on every input; a test compares finitely many pairs", "anchors": ["src/poly/mdeg.rs: fn add", "src/poly/mdeg.rs: checked_sub", "src/poly/mdeg.rs: is_succ", "src/poly/ord.rs: impl MonomialOrder for Lex", "src/poly/ord.rs: impl MonomialOrder for RevLex", "src/poly/comp.rs: fn divide", "src/poly/comp.rs: buchberger_algorithm"]}
{"id": "C117", "title": "Larger fields", "statement": "The coefficients are rational (or lie in any field K), but what the code computes stays right over every field L that contains K: the result of buchberger_algorithm is the reduced Groebner basis of the ideal the generators have over L; the remainder of divide decides membership over L, so that an ideal gains no element of K[x] over L; the result is a constant exactly when 1 is a combination of the generators over L; generators and result have the same zeros in L, and there are at most as many as there are standard monomials; a linear system is solvable over L exactly when it is over K, and rank and nullity are the dimensions over L.", "quantifier": "all fields K and L with an embedding of K into L, all inputs, all points with coordinates in L", "why_tests_cant": "there is no test input with coordinates in a larger field; over K alone zeros may be missing", "anchors": ["src/poly/comp.rs: fn divide", "src/poly/comp.rs: buchberger_algorithm", "src/linalg/algorithm.rs: fn row_echelon", "src/linalg/algorithm.rs: fn rank", "src/linalg/algorithm.rs: fn nullity"]}
{"id": "C118", "title": "Hilbert functions", "statement": "With GrLex or GRevLex, the number of monomials of degree at most d in n variables that no leading monomial of buchberger_algorithm's result divides is the dimension of the polynomials of degree at most d modulo the ideal; for generators homogeneous with respect to some weights the same holds for each weight and every order. The number therefore depends neither on the order nor on the generators. With Lex and generators that are not homogeneous it can be a different one.", "quantifier": "all degrees, all numbers of variables, all fields, all generators and orders", "why_tests_cant": "a dimension quantifies over all families of polynomials", "anchors": ["src/poly/comp.rs: fn leading_term", "src/poly/comp.rs: buchberger_algorithm", "src/poly/ord.rs: impl MonomialOrder for GrLex", "src/poly/ord.rs: impl MonomialOrder for GRevLex"]}
{"id": "C119", "title": "No overflow on the way to a power", "statement": "Integer::pow and the size computed in mat_iterator use the multiplication loop of i64::pow and usize::pow. That loop never overflows when the power itself fits, panics with overflow checks exactly when it does not, and without them returns the power modulo 2^64: squares that are computed ahead of need do no harm.", "quantifier": "all i64 bases and u32 exponents, both build profiles", "why_tests_cant": "the intermediate products depend on the binary digits of the exponent; tests cover a few", "anchors": ["src/core/num/int.rs: pub fn pow", "src/linalg/util.rs: mat_iterator"]}
{"id": "C120", "title": "The dimension of an ideal", "statement": "The largest number of variables that are independent modulo an ideal (no nonzero polynomial of the ideal is in these variables only) equals the largest number of variables such that every leading term of buchberger_algorithm's result has a variable outside them, for each of the four monomial orders. Hence this number does not depend on the order or on the generators chosen.", "quantifier": "all lists of nonzero polynomials in any number of variables over any exact field type; Lex, RevLex, GrLex and GRevLex (or any order compatible with positive weights on bounded exponents)", "why_tests_cant": "a statement about all polynomials of the ideal and all sets of variables", "anchors": ["src/poly/comp.rs: pub fn buchberger_algorithm", "src/poly/comp.rs: pub fn leading_term", "src/poly/ord.rs: pub struct Lex"]}
{"id": "C121", "title": "The crate's unit tests hold for all inputs", "statement": "The assertions of the crate's unit tests of lu, row_echelon, rref and compute_kernel hold for every matrix of rationals, not only for the small ones enumerated (for the kernel: whenever the rank is less than the number of columns; otherwise the test panics), and the assertion of the division test (f equals the remainder plus the quotients times the divisors, compared with == after sorting) holds for every dividend and divisors over every type whose == compares values, in particular for f64 whenever nothing is rounded. Over Rational it fails, because == compares representations. The helper is_rref of these tests accepts exactly the matrices with the zeros of a reduced form; it does not check that the pivots are 1, and with 2^31 columns or more it rejects reduced matrices, because it casts columns to i32. The helper polys lists exactly the polynomials without zero terms and repeated degrees in the given number of variables, up to the given total degree, with coefficients up to the given one.", "quantifier": "all matrices of rationals of every size (fewer than 2^31 columns for is_rref); all polynomials, divisors and monomial orders", "why_tests_cant": "these are the tests, for all inputs", "anchors": ["src/linalg/algorithm.rs: fn test_lu", "src/linalg/algorithm.rs: fn test_row_echelon", "src/linalg/algorithm.rs: fn is_rref", "src/linalg/algorithm.rs: fn test_rref", "src/linalg/algorithm.rs: fn test_compute_kernel", "src/poly/comp.rs: fn division", "src/poly/comp.rs: fn poly_assert_eq"]}
{"id": "C122", "title": "Writing through the mutable accessors", "statement": "A write through MultiDegree::degs_mut changes that exponent and nothing else, and leaves a multidegree without trailing zeros exactly if the last entry is not made zero; trim_zeros repairs it unless no exponent is left. A write through Polynomial::terms_mut changes the polynomial by the difference of the two terms and keeps it clean exactly if the new term is nonzero and has a degree of its own; a loop over terms_mut that maps nonzero coefficients to nonzero ones maps the coefficients of the polynomial. Zero::is_zero and One::is_one of the twelve primitive integer types recognise the neutral elements of + and * in both build profiles, where + and * panic outside the range of the type in checked builds and wrap around in release builds; for floats is_zero holds of 0.0 and -0.0 only.", "quantifier": "all multidegrees, polynomials over any exact field type, indices and written values; all values of the primitive types", "why_tests_cant": "the accessors are untested", "anchors": ["src/poly/mdeg.rs: pub fn degs_mut", "src/poly/mdeg.rs: pub fn trim_zeros", "src/poly/elts.rs: pub fn terms_mut", "src/core/num/traits.rs: impl_zero_for_primitives", "src/core/num/traits.rs: impl_one_for_primitives"]}
{"id": "C123", "title": "Integer arithmetic over Rational, f32 and f64 is exact within explicit bounds", "statement": "Let B be i64::MAX for Rational, 2^24 for f32 and 2^53 for f64, and the norm of a polynomial the sum of the absolute values of its integer coefficients. Adding, subtracting and negating polynomials with integer coefficients returns the exact result if the sum of the norms is at most B; multiplying does if the product of the norms is at most B and the exponents fit in u8. Sums, scalar multiples and products of integer matrices with entries bounded by c and c' are exact if c+c', c*|s| and k*c*c' (k the inner dimension) are at most B. No intermediate value rounds or overflows. The bound is sharp: a product of norm 2^53+1 in f64 and a sum of norm i64::MAX+1 in Rational fail.", "quantifier": "all polynomials and matrices with integer coefficients within the bound, any number of variables, f32, f64 and Rational", "why_tests_cant": "the intermediate values depend on the order of summation; tests use coefficients below 10", "anchors": ["src/poly/elts.rs: fn add", "src/poly/elts.rs: fn mul", "src/linalg/mat.rs: fn mul", "src/linalg/mat.rs: fn add", "src/core/num/rat.rs: fn add", "src/core/num/rat.rs: fn mul"]}
{"id": "C124", "title": "Divisions in which no degree overflows", "statement": "For grlex and grevlex, dividing a polynomial in n variables of total degree d <= 255 by divisors of total degree at most 255 never overflows an exponent or a total degree, and ends within binom(n+d,n) iterations; for one variable and all four orders within d+1 iterations. With pure lex this fails: dividing x0^2 by x0 - x1^200 needs the exponent 400.", "quantifier": "all polynomials and divisor lists over any field type whose arithmetic does not overflow, any number of variables and iterations", "why_tests_cant": "an overflow shows up in some inputs only; the tests use degrees below 10", "anchors": ["src/poly/comp.rs: pub fn divide", "src/poly/ord.rs: fn cmp", "src/poly/mdeg.rs: pub fn total_deg"]}
{"id": "C125", "title": "Dividing integer polynomials over Rational, f32 and f64 is exact within explicit bounds", "statement": "Let B be i64::MAX, 2^24 or 2^53 as in C123. If the divisors have integer coefficients, norm at most G and leading coefficient 1 or -1, then dividing an integer polynomial f of one variable and degree d returns the exact integer quotients and remainder as soon as norm(f)*(2+G)^(d+1) <= B; in n variables with a graded order as soon as norm(f)*(2+G)^binom(n+d,n) <= B. Without the bound it is false: x^2 divided by x-(2^27+1) over f64.", "quantifier": "all integer polynomials and divisor lists within the bound, f32, f64 and Rational, the four orders for one variable, the graded orders for several", "why_tests_cant": "coefficients grow during the division; tests use coefficients below 10", "anchors": ["src/poly/comp.rs: pub fn divide"]}
{"id": "C126", "title": "Elimination over Rational does not overflow within explicit bounds", "statement": "Let the entries of an n x m matrix of rationals have numerators of absolute value at most A >= 1 and denominators at most D >= 1. Put (N,M) = (A,D) and replace it by (2*N^2*M^2, N*M^3) once per pivot. If the product N*M after min(n-1,m) replacements is at most i64::MAX, then row_echelon, rank, nullity and lu return a value, and the product after k replacements bounds row k of the result. A second explicit bound does the same for to_rref, compute_kernel, compute_range and so for inverting a matrix. For two rows of integers the bounds are 2*A^3 and 4*A^5 (A up to 1.6 million and 4700), for three rows 16*A^11 and 2^18*A^43. It is false at 2*A^3 = 2^64: a 2 x 3 matrix with entries up to 2^21 overflows.", "quantifier": "all matrices of rationals within the bound, any size, any rank, any choice of pivots the code makes", "why_tests_cant": "the size of the intermediate fractions depends on the pivots and on the order of the operations; the tests use entries below 10", "anchors": ["src/linalg/algorithm.rs: pub fn row_echelon", "src/linalg/algorithm.rs: pub fn lu", "src/linalg/algorithm.rs: pub fn to_rref", "src/linalg/algorithm.rs: pub fn compute_kernel", "src/core/num/rat.rs: fn add", "src/core/num/rat.rs: fn mul"]}
{"id": "C127", "title": "Bases of monomials and differences of monomials are the same over every number type", "statement": "Let f and the generators each be 0, a monomial or a difference of two monomials, up to sign (toric and monomial ideals). Then divide, the S-polynomial, the criterion, extend, minimize, reduce and buchberger_algorithm have one and the same outcome over Rational, f32, f64 and every exact field, also of characteristic 2: the same result with coefficients 1 and -1 (so no rounding and no overflow of a coefficient), the same panic from the exponents, or both no result within the fuel. Every polynomial of a result is again 0, a monomial or a difference of two monomials, and the quotients of a division have coefficients 1 and -1. It is false for sums: x+y divided by x-y leaves 2y over the rationals and nothing modulo 2.", "quantifier": "all polynomials of this kind, all lists of generators, the four orders, any fuel, every number type", "why_tests_cant": "tests run finitely many inputs over one number type; the claim compares all runs over all number types", "anchors": ["src/poly/comp.rs: PolyComputer::divide", "src/poly/comp.rs: PolyComputer::try_reduce", "src/poly/comp.rs: PolyComputer::buchberger_criterion", "src/poly/comp.rs: PolyComputer::buchberger_extend", "src/poly/comp.rs: PolyComputer::buchberger_minimize", "src/poly/comp.rs: PolyComputer::buchberger_reduce", "src/poly/comp.rs: PolyComputer::buchberger_algorithm"]}
{"id": "C128", "title": "The facets Cone::new finds over any number type, f32 and f64 included", "statement": "Whenever Cone::new returns a cone, for any number type and any accuracy, its facets are exactly the following: a choice of dim-1 of the generators whose matrix has, as computed, full rank, with the first computed kernel vector, multiplied by 0-1 if its inner product with the first generator is computed as negative, as normal, such that the computed inner product of every generator with the normal compares as equal to or greater than 0. A comparison without result (NaN) excludes the facet. The facets come in the lexicographic order of the positions of their generators, one at most per choice, so there are at most binom(number of generators, dim-1). Over f32 and f64 no product of coordinates of a generator and a normal is NaN, and the computed inner products are 0, positive or inf.", "quantifier": "all lists of generators over all number types, all values of f32 and f64, every comparison with an accuracy", "why_tests_cant": "tests use a few cones with small coordinates; no test has a comparison without result or an overflow to infinity", "anchors": ["src/linalg/cone.rs: Cone::new"]}
{"id": "C129", "title": "buchberger_algorithm on monomials", "statement": "For generators that are single terms c x^a with nonzero coefficients and exponents in u8, and with any comparison as the order: buchberger_criterion returns true, buchberger_extend returns its argument, and buchberger_algorithm returns, within as many steps as there are generators plus one, exactly the generators of which no other degree is a divisor, in their order, where of several generators with the same degree the last one is kept. No exponent overflows, and no coefficient changes. It holds over exact fields, over Rational if |numerator| * denominator is at most i64::MAX, and over f32 and f64 if c * (1/c) is computed as 1; it is false over f64 otherwise (the S-polynomial of 49x and y is not zero).", "quantifier": "all lists of terms, all degrees, all orders (even comparisons that are not orders), any fuel above the number of generators", "why_tests_cant": "the number of lists of monomials is unbounded; which of several equal degrees is kept and the behaviour at exponents up to 255 need all positions and all exponents", "anchors": ["src/poly/comp.rs: PolyComputer::try_reduce", "src/poly/comp.rs: PolyComputer::buchberger_criterion", "src/poly/comp.rs: PolyComputer::buchberger_extend", "src/poly/comp.rs: PolyComputer::buchberger_minimize", "src/poly/comp.rs: PolyComputer::buchberger_reduce", "src/poly/comp.rs: PolyComputer::buchberger_algorithm"]}
{"id": "C130", "title": "Polynomials with coprime leading terms", "statement": "If no variable occurs in the leading terms of two different generators (Buchberger's first criterion), then the generators are a Groebner basis: the leading term of every nonzero polynomial of the ideal is divisible by one of theirs, buchberger_criterion answers true, the S-polynomial of two such polynomials has remainder 0 on division by the two, and buchberger_extend, which adds nothing to any Groebner basis, returns its argument. If moreover no leading term is constant, buchberger_algorithm returns as many polynomials as it is given, with the same leading monomials, and the dimension of the ideal in n variables is n minus the number of generators.", "quantifier": "all lists of nonzero canonical polynomials over every exact field (in particular Rational) with pairwise coprime leading terms, any monomial order (for the dimension: the four orders of the crate); a run may end in a detected overflow", "why_tests_cant": "quantifies over all polynomials with the given leading terms and over all elements of the ideal", "anchors": ["src/poly/comp.rs: PolyComputer::try_reduce", "src/poly/comp.rs: PolyComputer::divide", "src/poly/comp.rs: PolyComputer::buchberger_criterion", "src/poly/comp.rs: PolyComputer::buchberger_extend", "src/poly/comp.rs: PolyComputer::buchberger_algorithm"]}
{"id": "C131", "title": "The order in which results store their terms", "statement": "Sums keep the order of the first summand: p + q stores, in this order, the terms of p (with the coefficient of q of the same degree added, and left out if the sum is zero), then the terms of q with degrees that p does not have, in the order of q; this holds for every coefficient type, including f32 and f64. Over exact fields, divide returns its remainder and all quotients with their terms in strictly decreasing order, whatever the order in which its arguments store theirs, so that the stored lists of two divisions that differ only in the order of stored terms agree term by term. Every polynomial returned by buchberger_algorithm is one of the generators, stored as given, or has its terms in decreasing order; if all generators do, the whole basis does.", "quantifier": "all polynomials without zero terms and repeated degrees, every coefficient type (sums) or exact field (division, bases), every monomial order", "why_tests_cant": "the stored order is observable through terms() and the indexing of results; unit tests see it for single inputs (polynomials have no ==, so tests compare stored terms)", "anchors": ["src/poly/elts.rs: Add", "src/poly/comp.rs: PolyComputer::divide", "src/poly/comp.rs: PolyComputer::buchberger_extend", "src/poly/comp.rs: PolyComputer::buchberger_reduce", "src/poly/comp.rs: PolyComputer::buchberger_algorithm"]}
{"id": "C132", "title": "The operators of Integer", "statement": "Integer + - * neg and abs return the mathematical result if it fits into an i64; otherwise a checked build panics and a release build returns the i64 congruent to it modulo 2^64. In both builds a / b and a % b panic exactly for b = 0 and for i64::MIN by -1, and otherwise return q and r with a = b q + r, |r| < |b| and r zero or of the sign of a. In release builds + and * satisfy all laws of the ring of integers modulo 2^64; in checked builds they do not, since one side can panic. A release build computes sums and differences of rationals with numerator and denominator right modulo 2^64, so that a denominator can silently become 0, and the product of two valid rationals can panic as if it had been built with the denominator 0.", "quantifier": "all pairs and triples of i64 values, both build profiles", "why_tests_cant": "2^128 pairs of operands; the algebraic laws quantify over triples", "anchors": ["src/core/num/int.rs: impl_integer_binop", "src/core/num/int.rs: fn neg", "src/core/num/int.rs: pub fn abs", "src/core/num/rat.rs: fn add", "src/core/num/rat.rs: fn sub", "src/core/num/rat.rs: fn mul"]}
{"id": "C133", "title": "The remaining elementary functions", "statement": "Term::var, one, zero, constant_unchecked and monic have the coefficients their names say, and Term::var(i, 0) is 1. Term::eval returns c x_0^d_0 x_1^d_1 ... and panics before computing anything if there are fewer values than exponents. grad compares total degrees; above 255 it panics in checked builds and compares modulo 256 in release builds. get_box_iter(r, c) yields all r c index pairs exactly once, (i, j) at position i c + j. Reading and writing an entry inside a matrix addresses that entry and no other, a row that does not exist panics, but a column that does not exist is read from the next row; swap exchanges two entries and changes no other. zero_rows counts the rows whose entries are all epsilon-equal to zero, for every coefficient type. Rational: new_int(i) is i, powi agrees with pow, sgn is the sign of the value, partial_cmp is Some(cmp). The program prints (x + y)(x - y) = x² - y².", "quantifier": "all terms, points, multidegrees, matrices of all shapes, rationals; every coefficient type for the matrix functions", "why_tests_cant": "all sizes and all indices; the release behaviour of grad and the aliasing of columns show only on particular inputs", "anchors": ["src/poly/elts.rs: Term::var", "src/poly/elts.rs: Term::monic", "src/poly/elts.rs: Term::constant_unchecked", "src/poly/elts.rs: Term::eval", "src/poly/ord.rs: pub fn grad", "src/linalg/util.rs: pub fn get_box_iter", "src/linalg/mat.rs: pub fn swap", "src/linalg/mat.rs: pub fn get_unchecked", "src/linalg/mat.rs: fn index", "src/linalg/algorithm.rs: pub fn zero_rows", "src/core/num/rat.rs: pub fn new_int", "src/core/num/rat.rs: pub fn powi", "src/core/num/rat.rs: pub fn sgn", "src/main.rs"]}
{"id": "C134", "title": "Systems whose unknowns have finitely many candidate values", "statement": "Let the generators contain, for each variable x_i, the product of x_i - v over a list of different candidate values v (for example x_i^2 - x_i for 0/1 unknowns); computing that product with Polynomial's operators gives such a polynomial. If buchberger_algorithm returns, with any of the orders: the result is a single constant exactly if no choice of candidates is a common zero of the generators, and otherwise there is a common zero; dividing f by the result leaves remainder zero exactly if f evaluates to zero at all common zeros; the number of standard monomials of the result equals the number of common zeros.", "quantifier": "all lists of candidates, all numbers of variables, all generators and f in these variables whose evaluations at the candidate points do not overflow, all orders, all coefficient fields meeting the field contract", "why_tests_cant": "all systems; the number of candidate points grows exponentially with the number of unknowns", "anchors": ["src/poly/comp.rs: pub fn buchberger_algorithm", "src/poly/comp.rs: pub fn divide", "src/poly/elts.rs: pub fn eval"]}
{"id": "C135", "title": "The quotients of S-polynomials generate the relations between the elements of a basis", "statement": "For elements g_1,...,g_c of a basis whose S-polynomials (try_reduce) are divided by the basis (divide) with remainder 0, each pair i<j gives a relation sum_k v_k g_k = 0: v has x^M/lt(g_i) at i, -x^M/lt(g_j) at j (x^M the lcm of the leading monomials), minus the quotients returned by divide. Every relation sum_k v_k g_k = 0 with polynomial coefficients is a sum of polynomial multiples of these relations. For the result of buchberger_algorithm every such division which returns has remainder 0.", "quantifier": "all finite lists of clean polynomials, all numbers of variables, all orders, all coefficient fields meeting the field contract, all families v of polynomials", "why_tests_cant": "a statement about all relations (an infinite module), including the unbounded degrees of their coefficients", "anchors": ["src/poly/comp.rs: pub fn try_reduce", "src/poly/comp.rs: pub fn divide", "src/poly/comp.rs: pub fn buchberger_algorithm"]}
{"id": "C136", "title": "Linear algebra modulo an ideal", "statement": "Let fs be polynomials, rs their remainders on division by a Groebner basis, and a the matrix whose columns have the coefficients of the remainders at a list of monomials containing all of theirs. The vectors returned by compute_kernel for the reduced form of a are a basis of the linear relations between the fs modulo the ideal; the rank equals the number of columns exactly if there is no relation except 0. With the powers of f: a basis of the polynomials in f of degree below the number of columns which lie in the ideal. With the products of f and the standard monomials of the result of buchberger_algorithm: the rank is full exactly if f has an inverse modulo the ideal, and the kernel is not empty exactly if f is a zero divisor modulo the ideal.", "quantifier": "all ideals, orders, lists of polynomials, numbers of variables and coefficient fields meeting the contract; all relations", "why_tests_cant": "combines two independent parts of the crate; a statement about all linear relations modulo an infinite ideal", "anchors": ["src/poly/comp.rs: pub fn divide", "src/poly/comp.rs: pub fn buchberger_algorithm", "src/linalg/algorithm.rs: pub fn compute_kernel", "src/linalg/algorithm.rs: pub fn rank"]}
{"id": "C137", "title": "Matrices of polynomials", "statement": "Let a be the matrix whose rows have the coefficients of polynomials f_0, f_1, ... at a list of monomials in decreasing order containing all of theirs. The monomials at the columns bound_variables lists for its echelon form are exactly the leading monomials of the linear combinations of the f_i, and rank counts them. The rows of the reduced form, read as polynomials, are linear combinations with leading coefficient 1 that do not contain the leading monomials of each other, and every linear combination is a combination of them. If the f_i are all multiples of weight d of homogeneous generators by monomials, and the columns all monomials of weight d, the listed columns are exactly the monomials divisible by a leading monomial of the result of buchberger_algorithm, and the rank is the number of monomials of weight d minus the number of standard ones.", "quantifier": "all orders, weights, homogeneous generators, numbers of variables and coefficient fields meeting the contract; all linear combinations", "why_tests_cant": "two independent computations of the same leading monomials; a statement about all linear combinations and all elements of an ideal", "anchors": ["src/poly/comp.rs: pub fn buchberger_algorithm", "src/linalg/algorithm.rs: pub fn rank"]}
{"id": "C138", "title": "Sylvester matrices", "statement": "Let f and g be polynomials in one variable of degrees m and n, and a their Sylvester matrix: n shifted rows with the coefficients of f and m with those of g. The rank of its echelon form is m + n - k, where k is the degree of the one polynomial h buchberger_algorithm returns for [f, g], and the last row of the echelon form that is not zero has the coefficients of h, up to a factor. The rank is m + n exactly if only constants divide both polynomials.", "quantifier": "all polynomials in one variable over every coefficient field meeting the contract, all orders; all common divisors", "why_tests_cant": "two independent computations of the greatest common divisor; a statement about all common divisors", "anchors": ["src/poly/comp.rs: pub fn buchberger_algorithm", "src/linalg/algorithm.rs: pub fn rank"]}
{"id": "C139", "title": "Word problem of commutative monoids", "statement": "Let the generators be the differences x^a - x^b for a list of relations x^a = x^b between monomials, and divide by what buchberger_algorithm returns. The remainder of x^u - x^v is zero exactly if u and v have equal values in every commutative monoid and for every choice of elements that satisfies the relations. The remainder of x^u is one term with the coefficient 1; its monomial is equal to x^u in all these monoids and the smallest such monomial. Two monomials are equal in all of them exactly if their remainders have the same multidegree, whatever number types the two runs use.", "quantifier": "all finite lists of relations, all monomials, all commutative monoids, all pairs of coefficient fields meeting the contract, all orders", "why_tests_cant": "quantifies over all commutative monoids; equality under the relations is undecided by any bounded search for a chain of replacements", "anchors": ["src/poly/comp.rs: pub fn divide", "src/poly/comp.rs: pub fn buchberger_algorithm"]}
{"id": "C140", "title": "Division as rewriting", "statement": "A step cancels any one term of a polynomial with a multiple of one of the divisors. divide ends with a polynomial that is reached by such steps and allows no further one. No sequence of steps goes on for ever. buchberger_criterion returns true exactly if the choice of the steps never matters: all sequences from a polynomial that cannot be continued end with the same polynomial, and any two can be continued to a common one. By the result of buchberger_algorithm every sequence that cannot be continued ends with the remainder divide computes.", "quantifier": "all divisors and dividends over every coefficient field meeting the contract, all orders, all sequences of steps", "why_tests_cant": "quantifies over all sequences of steps, of which there are infinitely many; termination of all of them", "anchors": ["src/poly/comp.rs: pub fn divide", "src/poly/comp.rs: pub fn buchberger_criterion", "src/poly/comp.rs: pub fn buchberger_algorithm"]}
{"id": "C141", "title": "GRevLex and the last variable", "statement": "Let x_n be the last variable and the generators homogeneous. With GRevLex the leading term of a homogeneous polynomial has the lowest exponent of x_n among its terms: x_n divides the polynomial exactly if it divides the leading term. Taking one factor x_n out of every element of the result of buchberger_algorithm that has one gives a Groebner basis of the ideal quotient by x_n (all p with x_n p in the ideal). Taking out all such factors gives a Groebner basis of the saturation (all p with x_n^k p in the ideal for some k). The result together with x_n is again a Groebner basis. With GrLex the first statement fails: the leading term of x z - y^2 is x z.", "quantifier": "all lists of homogeneous generators in x_0 .. x_n over every coefficient field meeting the contract; all elements of the quotient and of the saturation", "why_tests_cant": "statements about all elements of ideals; the saturation quantifies over all powers of x_n", "anchors": ["src/poly/ord.rs: GRevLex::cmp", "src/poly/comp.rs: pub fn buchberger_algorithm", "src/poly/comp.rs: pub fn buchberger_criterion"]}
{"id": "C142", "title": "Homogenization and setting a variable to one", "statement": "With GRevLex and x_n the last variable: for homogeneous generators, setting x_n = 1 in the result of buchberger_algorithm gives a Groebner basis of the ideal of the generators with x_n = 1, and a homogeneous polynomial lies in that ideal after x_n = 1 exactly if its product with some power of x_n lies in the ideal of the homogeneous generators. For arbitrary generators, making every element of the result homogeneous with powers of x_n gives a Groebner basis of the ideal of all homogeneous polynomials that lie in the given ideal after x_n = 1. Making only the generators homogeneous does not: y^2 - x z is not in the ideal of x^2 - y w and x^3 - z w^2.", "quantifier": "all lists of generators over every coefficient field meeting the contract; all polynomials for membership", "why_tests_cant": "statements about all elements of ideals; membership up to some unknown power of x_n", "anchors": ["src/poly/ord.rs: GRevLex::cmp", "src/poly/comp.rs: pub fn buchberger_algorithm", "src/poly/comp.rs: pub fn buchberger_criterion"]}
{"id": "C143", "title": "Exponents in release builds", "statement": "Without overflow checks exponents are right modulo 256 and nothing more. Over exact coefficients and for every comparison used as the order: a product is the product up to x_i^256 = 1; the result of divide satisfies f = sum q_i g_i + r up to x_i^256 = 1; every element of the result of buchberger_algorithm lies in the ideal of the generators up to x_i^256 = 1. So at points whose coordinates satisfy c^256 = 1, such as +-1, products have the right values and the common zeros of the generators are zeros of the result. The exact statements fail: x^255 times x gives a constant term that is not equal to 1; x y^255 divided by x - y leaves the remainder 1; from x y^200 and x - y^100 buchberger_algorithm computes y^44, which is not in the ideal; and dividing x^2 y^254 by x^2 - y and x^2 y^254 + y^255 with GrLex never ends, and buchberger_algorithm on x y^255 and x - y with Lex never returns a result.", "quantifier": "all polynomials with u8 exponents, canonical or not, over every coefficient field meeting the contract; all comparisons; all runs that return a result; all numbers of steps for the division that does not end", "why_tests_cant": "the identities range over all polynomials and all ways the sums wrap; a test cannot show that a loop never ends", "anchors": ["src/poly/mdeg.rs: Add for MultiDegree", "src/poly/comp.rs: pub fn divide", "src/poly/comp.rs: pub fn buchberger_algorithm"]}
{"id": "C144", "title": "Interpolation", "statement": "Enter the values of a list of monomials at a list of points (Term::eval) in a matrix, a row for each point. Its product with the column of coefficients of a polynomial in these monomials is the column of the values of the polynomial at the points. The vectors of compute_kernel for its reduced form span exactly the coefficients of the polynomials in these monomials that vanish at all the points. Its rank is the number of points exactly if every list of values is taken by such a polynomial. If the points are different common zeros of generators and the list has the standard monomials of the result of buchberger_algorithm, the rank is the number of points, for every order. With the powers of one variable below d and different points the rank is the smaller of d and the number of points, and two polynomials of degree below d with equal values at d or more points are equal.", "quantifier": "all lists of points and monomials, all polynomials in them, all prescribed values, all orders, all coefficient fields meeting the contract", "why_tests_cant": "quantifies over all polynomials through given points and combines evaluation, elimination and Groebner bases", "anchors": ["src/poly/elts.rs: Polynomial::eval", "src/poly/elts.rs: Term::eval", "src/linalg/algorithm.rs: pub fn compute_kernel", "src/linalg/algorithm.rs: pub fn rank", "src/poly/comp.rs: pub fn buchberger_algorithm"]}
{"id": "C145", "title": "Multiplication matrices modulo an ideal", "statement": "Let an ideal have finitely many standard monomials for the result of buchberger_algorithm, and enter the remainders of the products of f with them as the columns of a square matrix. Its product (Mul) with the column of coefficients of the remainder of h is the column of the remainder of f h. The sum and product (Add, Mul) of the matrices of f and g are the matrices of f + g and f g, and the products commute. Two polynomials have the same matrix exactly if their difference is in the ideal. At a common zero of the generators the row of the values of the standard monomials is not zero and is multiplied by the matrix with the value of f, and the rank of the matrix minus this value is below its size. For every constant c the matrix minus c on the diagonal has full rank exactly if 1 is in the ideal of the generators and f - c. A polynomial in the powers of the matrix is zero exactly if the same polynomial in f is in the ideal.", "quantifier": "all generators, all polynomials, all common zeros with coordinates in the field, all orders, all coefficient fields meeting the contract", "why_tests_cant": "quantifies over all polynomials and zeros of an ideal and combines division, Groebner bases and matrix arithmetic", "anchors": ["src/poly/comp.rs: pub fn divide", "src/poly/comp.rs: pub fn buchberger_algorithm", "src/linalg/mat.rs: Add for &Mat<F>", "src/linalg/mat.rs: Mul for &Mat<F>", "src/linalg/algorithm.rs: pub fn rank"]}
{"id": "C146", "title": "Change of order by linear algebra", "statement": "Let buchberger_algorithm give results for the same generators and two orders. Take the monomials that are standard for the second order and below a monomial m, divide them and m by the first result and enter the remainders as the columns of a matrix. Its rank is the number of columns exactly if m is standard for the second order. If m is not, compute_kernel for its reduced form returns one vector, and the combination of these monomials with its coefficients is in the ideal and has the leading monomial m for the second order. If the second result has an element with leading monomial m, this element is the combination up to a nonzero factor. So the second result can be read off from divisions by the first.", "quantifier": "all generators, all pairs of orders, all monomials, all coefficient fields meeting the contract", "why_tests_cant": "relates the results for two orders over all generators, through division, elimination and the uniqueness of reduced bases", "anchors": ["src/poly/comp.rs: pub fn divide", "src/poly/comp.rs: pub fn buchberger_algorithm", "src/linalg/algorithm.rs: pub fn compute_kernel", "src/linalg/algorithm.rs: pub fn rank", "src/poly/ord.rs: GRevLex::cmp"]}
{"id": "C147", "title": "Linear equations in natural numbers", "statement": "Let the columns of a matrix A of natural numbers with p rows be given to buchberger_algorithm as the polynomials y_j - x^(column j), the unknowns y after the p variables x. Dividing x^b by the result leaves one monomial x^u y^v with coefficient 1; it satisfies u + A v = b and is the smallest such monomial for the order of the run. With Lex the system A v = b has a solution in natural numbers exactly if u is zero, and v is then its lexicographically smallest solution.", "quantifier": "all matrices, all right-hand sides, all orders, all coefficient fields meeting the contract", "why_tests_cant": "an optimum over all natural solutions, and the absence of solutions, for all systems", "anchors": ["src/poly/comp.rs: pub fn divide", "src/poly/comp.rs: pub fn buchberger_algorithm", "src/poly/ord.rs: GRevLex::cmp"]}
{"id": "C148", "title": "Sums and intersections of row spaces", "statement": "Let a and b be matrices with the same number of columns. Bring the matrix to echelon form whose rows are those of a written twice side by side, and below them those of b followed by zeros. The first halves of the rows whose pivot (bound_variables) lies in the first half are a basis of the sum of the row spaces of a and b; the second halves of the rows whose pivot lies in the second half are a basis of their intersection. The number of bound columns is rank a + rank b, so the dimensions of sum and intersection add up to the two ranks.", "quantifier": "all matrices with equal numbers of columns, all coefficient fields meeting the contract", "why_tests_cant": "bases of two subspaces, for all pairs of matrices", "anchors": ["src/linalg/algorithm.rs: Mat::row_echelon", "src/linalg/algorithm.rs: bound_variables", "src/linalg/algorithm.rs: pub fn rank"]}
{"id": "C149", "title": "Rounding errors of division", "statement": "Over f32 and f64, when every divisor has leading coefficient 1 and divide returns with finite quotients, then at every degree at which the remainder is finite the dividend and the sum of the exact products of quotients and divisors plus the remainder differ by at most ((1 + u)^(k+1) - 1) A + k eta (1 + u)^k, where k is the number of products of terms at that degree and A the sum of their absolute values and that of the dividend's coefficient. Degrees in the quotients and in the remainder are distinct.", "quantifier": "all dividends, all lists of divisors with leading coefficients 1, all orders, all degrees, both formats", "why_tests_cant": "rounding errors at all inputs; tests of float results use an arbitrary tolerance", "anchors": ["src/poly/comp.rs: pub fn divide", "src/poly/elts.rs: Term::try_div"]}
{"id": "C150", "title": "Pairs that need not be looked at", "statement": "Call a pair of polynomials settled when its S-polynomial (try_reduce) leaves remainder zero on division by the list, or its leading terms are coprime. If every pair of a list is joined by a path of settled pairs through polynomials whose leading terms divide the least common multiple of the leading terms of the pair, then the list is a Groebner basis: the leading monomial of every element of the ideal is divisible by one of the leading terms, buchberger_criterion returns true, and every S-polynomial leaves remainder zero. In particular of three polynomials two S-polynomials decide when the leading term of the middle one divides the least common multiple of the others.", "quantifier": "all fields, all orders, all lists of polynomials, all paths", "why_tests_cant": "a statement about S-polynomials that are never computed, and about all elements of an ideal", "anchors": ["src/poly/comp.rs: pub fn buchberger_criterion", "src/poly/comp.rs: pub fn divide", "src/poly/comp.rs: pub fn try_reduce"]}
{"id": "C151", "title": "Rounding errors of evaluation", "statement": "Over f32 and f64, when powi returns the powers that occur with relative error at most delta and absolute value at most M (M at least 1), and Polynomial::eval returns a finite number, then it differs from the exact value of the polynomial at the point by at most ((1 + u)^m ((1 + u)(1 + delta))^n - 1) A + m n eta ((1 + u) M)^n (1 + u)^m, where m is the number of terms, n the number of values, A the sum of the absolute values of the terms, u the unit roundoff and eta half the smallest positive number. Term::eval satisfies the bound ((1 + u)(1 + delta))^n - 1 times the absolute value of the term plus n eta ((1 + u) M)^n, n the length of the degree.", "quantifier": "all polynomials and points over both formats, every powi, both starting values of sum, all delta and M", "why_tests_cant": "rounding errors at all inputs, and for every implementation of powi, whose precision the standard library leaves open", "anchors": ["src/poly/elts.rs: Term::eval", "src/poly/elts.rs: Polynomial::eval", "src/core/num/traits.rs: powi32"]}
{"id": "C152", "title": "Orders which agree", "statement": "When two orders pick the same leading terms in a list of polynomials, buchberger_criterion gives the same answer for both, and if it is true divide leaves remainders of the same value; when they pick the same leading terms in the result of buchberger_algorithm for the first order, the result for the second is the same up to order and constant factors. Orders that compare all degrees in n variables alike make leading_term, sort_terms, divide, try_reduce, buchberger_criterion and buchberger_algorithm return the same results or panic alike on polynomials in n variables, whatever the coefficient type. In one variable all four orders agree, in two variables GrLex and GRevLex in a checked build; in three variables, and in release builds when a total degree wraps, they do not.", "quantifier": "all fields and coefficient types, all pairs of orders, all polynomials and lists, all runs", "why_tests_cant": "compares two runs with different type parameters for all inputs", "anchors": ["src/poly/comp.rs: pub fn buchberger_criterion", "src/poly/comp.rs: pub fn divide", "src/poly/comp.rs: pub fn buchberger_algorithm", "src/poly/ord.rs: GrLex::cmp", "src/poly/ord.rs: GRevLex::cmp", "src/poly/ord.rs: Lex::cmp", "src/poly/ord.rs: RevLex::cmp"]}
{"id": "C153", "title": "Sums and products of rationals, as stored", "statement": "Sum and Product of rationals combine the items from the left starting with the first item: one item is returned exactly as stored (0/5 stays 0/5), appending an item to a non-empty iterator adds it to, or multiplies it with, the previous result after the item has been computed, so the first panic is the one that surfaces, and only the empty iterator gives 0/1 or 1/1.", "quantifier": "all iterators of rationals, items that panic included, both overflow profiles", "why_tests_cant": "quantifies over all iterators and fixes the representation, not only the value", "anchors": ["src/core/num/rat.rs: Sum", "src/core/num/rat.rs: Product"]}
{"id": "C154", "title": "Polynomials are evaluated in the stored order", "statement": "Evaluating a polynomial with one more stored term gives the evaluation of the earlier terms plus the value of that term, computed in this order: for rationals this fixes the stored numerator and denominator and the panic that surfaces, for f32 and f64 the result bit for bit. One term evaluates to its own value for rationals; the zero polynomial gives 0/1, and for floats the start value of the library's Sum. The same polynomial stored in another order may overflow where this one does not.", "quantifier": "all polynomials over the rationals (both overflow profiles) and over both float types, all points", "why_tests_cant": "quantifies over all polynomials and points and fixes the representation, not only the value", "anchors": ["src/core/num/rat.rs: Sum", "src/poly/elts.rs: Polynomial::eval", "src/poly/elts.rs: Term::eval"]}
