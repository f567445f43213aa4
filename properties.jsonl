{"id": "C01", "title": "Addition is correctly rounded", "statement": "add(x, y, p, rm) on finite numbers returns the real sum x+y rounded to p bits (p rounded up to a whole number of 64-bit words) in the direction demanded by rm: a single rounding of the infinitely precise sum, whenever the rounded sum is a normal number.", "quantifier": "for all well-formed finite operands of any (different) precisions, signs and exponents, all precisions p>0, all seven rounding modes", "why_tests_cant": "Operand space is unbounded (any mantissa length, 2^32 exponents); wrong last bits occur only for rare alignments of the two mantissas (sticky branch, cancellation, carry).", "anchors": ["astro-float-num/src/num.rs: BigFloatNumber::add, add_sub", "astro-float-num/src/mantissa/mantissa.rs: Mantissa::abs_add, abs_sub, round_mantissa, maximize", "astro-float-num/src/mantissa/util.rs: ExtendedSlice, RightShiftedSlice"]}
{"id": "C02", "title": "Subtraction is correctly rounded", "statement": "sub(x, y, p, rm) on finite numbers returns the real difference x-y rounded once to p bits in the direction demanded by rm, whenever the rounded difference is a normal number; exact cancellation gives +0.", "quantifier": "for all well-formed finite operands, all p>0, all rounding modes", "why_tests_cant": "Catastrophic cancellation and far-apart exponents make the interesting inputs a vanishing fraction of the space.", "anchors": ["astro-float-num/src/num.rs: BigFloatNumber::sub, add_sub, abs_cmp", "astro-float-num/src/mantissa/mantissa.rs: Mantissa::abs_sub, abs_add, maximize, round_mantissa"]}
{"id": "C03", "title": "Multiplication is correctly rounded", "statement": "mul(x, y, p, rm) on finite numbers returns the real product x*y rounded once to p bits in the direction demanded by rm, whenever the rounded product is a normal number.", "quantifier": "for all well-formed finite operands, all p>0, all rounding modes", "why_tests_cant": "Products have up to unbounded length and the rounding position falls anywhere; carries out of the rounded mantissa occur with probability 2^-p.", "anchors": ["astro-float-num/src/num.rs: BigFloatNumber::mul, mul_general_case, normalize", "astro-float-num/src/mantissa/mantissa.rs: Mantissa::mul, round_mantissa", "astro-float-num/src/mantissa/mul.rs"]}
{"id": "C04", "title": "Division is correctly rounded", "statement": "div(x, y, p, rm) on finite numbers with y nonzero returns the real quotient x/y rounded once to p bits in the direction demanded by rm, whenever the rounded quotient is a normal number.", "quantifier": "for all well-formed finite operands with y nonzero, all p>0, all rounding modes", "why_tests_cant": "Knuth-D correction steps fire with probability about 2^-63 per digit; sampling never reaches them.", "anchors": ["astro-float-num/src/num.rs: BigFloatNumber::div", "astro-float-num/src/mantissa/mantissa.rs: Mantissa::div, add_ulp", "astro-float-num/src/mantissa/div.rs: div_basic, div_unbalanced"]}
{"id": "C05", "title": "Square root is correctly rounded", "statement": "sqrt(x, p, rm) of a finite nonnegative number returns the real square root rounded once to p bits in the direction demanded by rm; a negative argument is reported as an invalid argument.", "quantifier": "for all well-formed finite x, all p>0, all rounding modes", "why_tests_cant": "Exactness/half-way detection depends on the integer square-root remainder for arbitrarily long mantissas.", "anchors": ["astro-float-num/src/ops/sqrt.rs: sqrt", "astro-float-num/src/mantissa/mantissa.rs: Mantissa::sqrt", "astro-float-num/src/mantissa/sqrt.rs: sqrt_rem, sqrt_rem_basic"]}
{"id": "C06", "title": "Cube root is correctly rounded", "statement": "cbrt(x, p, rm) of a finite number returns the real cube root (negative for negative x) rounded once to p bits in the direction demanded by rm.", "quantifier": "for all well-formed finite x, all p>0, all rounding modes", "why_tests_cant": "Newton iteration termination and remainder computation must hold for every mantissa length and exponent residue mod 3.", "anchors": ["astro-float-num/src/ops/cbrt.rs: cbrt", "astro-float-num/src/mantissa/mantissa.rs: Mantissa::cbrt", "astro-float-num/src/mantissa/cbrt.rs: cbrt_rem"]}
{"id": "C07", "title": "Inexact flag is exact", "statement": "After add, sub, mul, div, sqrt, cbrt on operands that are not marked inexact, the result is marked inexact if and only if its value differs from the mathematically exact result; a marked nonzero operand always yields a marked result.", "quantifier": "for all well-formed nonzero operands, precisions, rounding modes with a normal result", "why_tests_cant": "A missed flag needs a discarded tail made of a single far-away one bit; impossible to enumerate.", "anchors": ["astro-float-num/src/num.rs: add_sub, mul_general_case, div", "astro-float-num/src/mantissa/mantissa.rs: round_mantissa, abs_add, abs_sub, div, sqrt"]}
{"id": "C08", "title": "Overflow is reported exactly when the rounded result is too large", "statement": "add/sub/mul/div on finite operands report exponent overflow with the sign of the exact result if and only if the exact result rounded to p bits has magnitude at least 2^EXPONENT_MAX; otherwise they return a number.", "quantifier": "for all well-formed operands, p>0, rounding modes", "why_tests_cant": "The boundary case (rounding up carries into the first unrepresentable binade) is one mantissa in 2^p.", "anchors": ["astro-float-num/src/num.rs: add_sub, mul_general_case, div"]}
{"id": "C09", "title": "Gradual underflow with directed rounding is a single correct rounding", "statement": "When the exact result of add/sub/mul/div is below the smallest normal number, the result in the modes None(truncate)/Up/Down/ToZero/FromZero is the exact result rounded once in that direction to the subnormal grid of precision p (multiples of 2^(EXPONENT_MIN-p)).", "quantifier": "for all well-formed operands whose exact result is tiny, p>0, directed modes", "why_tests_cant": "Rounding happens twice in the code (to p bits, then to the subnormal grid); only a proof shows the composition is harmless for directed modes.", "anchors": ["astro-float-num/src/num.rs: subnormalize, add_sub, mul_general_case, div", "astro-float-num/src/mantissa/mantissa.rs: round_mantissa"]}
{"id": "C10", "title": "Nearest rounding in the subnormal range is not a single rounding (documented correct rounding fails)", "statement": "For ToEven/ToOdd the result of an operation whose exact value is subnormal should be the exact value rounded once to the subnormal grid. This is refuted: the code rounds twice (first to p bits, then to the grid) and drops values just below the smallest positive number to zero.", "quantifier": "exists operands (refutation); for all operands the actual value is characterised as the two-step rounding", "why_tests_cant": "Double-rounding needs the first rounding to land exactly on a half-way pattern of the second.", "anchors": ["astro-float-num/src/num.rs: subnormalize (lines 699-747), mul_general_case"]}
{"id": "C11", "title": "Full-precision add/sub/mul are exact", "statement": "add_full_prec, sub_full_prec and mul_full_prec on nonzero finite numbers return exactly x+y, x-y, x*y with no rounding at all, whenever the exponent is in range; the result stores no zero words at its low end.", "quantifier": "for all well-formed nonzero operands", "why_tests_cant": "Exactness must hold for unbounded mantissa lengths and exponent gaps.", "anchors": ["astro-float-num/src/num.rs: add_full_prec, sub_full_prec, mul_full_prec, add_sub, mul_general_case", "astro-float-num/src/mantissa/mantissa.rs: abs_add, abs_sub, mul"]}
{"id": "C12", "title": "Full-precision add with a zero operand loses the other operand", "statement": "x + 0 with full precision should be x. Refuted: when one operand is zero the result is a zero-length zero.", "quantifier": "exists operand (refutation) ; holds for every nonzero operand with the other zero", "why_tests_cant": "A user sees it only when a zero appears as an intermediate value.", "anchors": ["astro-float-num/src/num.rs: add_sub lines 590-604, set_precision_internal"]}
{"id": "C13", "title": "Remainder is exact", "statement": "rem(x, y) for finite x and nonzero y is exactly x - y*trunc(x/y): it has the sign of x, magnitude below |y|, and differs from x by an integer multiple of y, whenever it is not in the subnormal range.", "quantifier": "for all well-formed x, nonzero y", "why_tests_cant": "Exponent gaps up to 2^32 go through modular exponentiation of 2; a test can only sample gaps.", "anchors": ["astro-float-num/src/num.rs: BigFloatNumber::rem", "astro-float-num/src/mantissa/mantissa.rs: pow_mod, mul_mod, rem, pow2, set_length"]}
{"id": "C14", "title": "Comparison of nonzero numbers is the order of their values", "statement": "cmp(x, y) of finite nonzero numbers is negative, zero or positive exactly when the real value of x is less than, equal to or greater than that of y, independently of the two precisions and of subnormal representation.", "quantifier": "for all pairs of well-formed nonzero finite numbers", "why_tests_cant": "Equality across different precisions, and all combinations of subnormal/normal operands, form an infinite product space.", "anchors": ["astro-float-num/src/num.rs: cmp, abs_cmp", "astro-float-num/src/mantissa/mantissa.rs: abs_cmp, cmp_iters", "astro-float-num/src/ext.rs: BigFloat::cmp"]}
{"id": "C15", "title": "Comparison with zero follows the sign", "statement": "cmp(x, 0) should be positive for every positive x. Refuted: for small x the comparison with a zero operand returns a negative number or zero.", "quantifier": "exists x (refutation); for all x with exponent above -precision(0) it holds", "why_tests_cant": "Only magnitudes below 2^-p expose it.", "anchors": ["astro-float-num/src/num.rs: abs_cmp lines 765-786"]}
{"id": "C16", "title": "Every operation returns a well-formed number", "statement": "Results of public constructors and operations satisfy the representation invariant: all words in range, bit length equals the position of the top set bit, normal numbers have the top bit set, subnormal numbers have exponent EXPONENT_MIN, zeros have exponent 0, exponent within [EXPONENT_MIN, EXPONENT_MAX], mantissa length equals the requested precision rounded up to words. Refuted for mode None: set_precision of a subnormal number can give a zero whose exponent is EXPONENT_MIN; sums with a zero operand, which use it, are excluded.", "quantifier": "for all well-formed inputs and all p>0", "why_tests_cant": "Invariant preservation is a closure property over all reachable values.", "anchors": ["astro-float-num/src/num.rs: all constructors and operations", "astro-float-num/src/mantissa/mantissa.rs: Mantissa"]}
{"id": "C17", "title": "set_precision rounds correctly and extends exactly", "statement": "set_precision(p, rm) keeps the value exactly when p is at least the current length, and otherwise rounds it once to p bits (p need not be a multiple of the word size) in the direction rm, including subnormal numbers on their fixed grid; overflow is reported when rounding up leaves the exponent range.", "quantifier": "for all well-formed x, p>0, modes other than None when p is not a word multiple", "why_tests_cant": "Unbounded mantissas and arbitrary bit positions p.", "anchors": ["astro-float-num/src/num.rs: set_precision, set_precision_internal", "astro-float-num/src/mantissa/mantissa.rs: round_mantissa, set_length"]}
{"id": "C18", "title": "round(n, rm) rounds to n fractional binary digits", "statement": "round(x, n, rm) is x rounded once in the direction rm to a multiple of 2^-n (for normal x), overflow reported if the exponent leaves the range, and x itself when it already has at most n fractional bits available in its mantissa.", "quantifier": "for all well-formed normal x, all n below the limit, all modes except None", "why_tests_cant": "The case split on n versus exponent and mantissa length has boundary cases (value below half a unit, exactly half) of measure zero.", "anchors": ["astro-float-num/src/num.rs: BigFloatNumber::round", "astro-float-num/src/mantissa/mantissa.rs: round_mantissa", "astro-float-num/src/common/util.rs: count_leading_zeroes_skip_first"]}
{"id": "C19", "title": "floor, ceil, int and fract are the mathematical functions", "statement": "int(x) truncates toward zero, fract(x) = x - int(x) exactly with the sign of x, floor(x) is the largest integer not above x, ceil(x) the smallest integer not below x; is_int(x) holds iff x is an integer.", "quantifier": "for all well-formed x (mantissa below 2^31 bits for fract)", "why_tests_cant": "All exponent/word-boundary alignments must be covered for unbounded precision.", "anchors": ["astro-float-num/src/num.rs: floor, ceil, int, fract, is_int", "astro-float-num/src/mantissa/mantissa.rs: mask_bits, find_one_from"]}
{"id": "C20", "title": "Integer conversions are exact", "statement": "from_u8..from_u128/from_i8..from_i128 with sufficient precision yield exactly the given integer; insufficient precision is reported as an invalid argument.", "quantifier": "for all integers of each type, all precisions", "why_tests_cant": "2^128 inputs times all precisions.", "anchors": ["astro-float-num/src/num.rs: from_u128, from_i128, impl_int_conv!, from_word", "astro-float-num/src/mantissa/mantissa.rs: from_word, from_words"]}
{"id": "C21", "title": "Conversion from f64 is exact for normal doubles", "statement": "from_f64(p, f) for every normal double f (any bit pattern with biased exponent 1..2046) is exactly the value of f; infinities give signed overflow and NaNs an invalid argument.", "quantifier": "for all 2^64 bit patterns and p>=64", "why_tests_cant": "2^64 bit patterns times precisions.", "anchors": ["astro-float-num/src/num.rs: from_f64", "astro-float-num/src/mantissa/mantissa.rs: from_u64"]}
{"id": "C22", "title": "Conversion from subnormal doubles is exact", "statement": "from_f64 of a subnormal double should be its exact value. Refuted: the result is half of the value.", "quantifier": "exists double (refutation); for all subnormal doubles the result is half", "why_tests_cant": "Tests that only sample normal doubles miss the denormal path.", "anchors": ["astro-float-num/src/num.rs: from_f64 lines 833-846"]}
{"id": "C23", "title": "Raw-parts round trip", "statement": "from_raw_parts(as_raw_parts(x)) = x for every well-formed x, and from_raw_parts accepts exactly the arguments describing a well-formed number (canonicalising the exponent of zero) and rejects all others.", "quantifier": "for all word slices, bit counts, signs, exponents, flags", "why_tests_cant": "Acceptance condition ranges over all slices.", "anchors": ["astro-float-num/src/num.rs: from_raw_parts, as_raw_parts", "astro-float-num/src/mantissa/mantissa.rs: from_words, find_bit_len"]}
{"id": "C24", "title": "from_words has the documented value", "statement": "from_words(m, s, e) denotes s * 0.m * 2^e exactly whatever leading zeros m has, renormalising mantissa and exponent, and producing a subnormal when the exponent bottoms out.", "quantifier": "for all word slices, signs and exponents", "why_tests_cant": "Unbounded slices; the clamping case needs exponents next to the minimum.", "anchors": ["astro-float-num/src/num.rs: from_words", "astro-float-num/src/mantissa/mantissa.rs: from_words, shift_left"]}
{"id": "C25", "title": "Sign operations touch only the sign", "statement": "neg, abs, inv_sign, set_sign change only the sign: neg negates the value, double negation is the identity, abs is the absolute value, precision, exponent and inexact flag are preserved; on NaN they are the identity, on infinities they swap/select the sign.", "quantifier": "for all values incl. NaN and infinities", "why_tests_cant": "Universal identity over all representations.", "anchors": ["astro-float-num/src/num.rs: neg, abs, inv_sign, set_sign", "astro-float-num/src/ext.rs: inv_sign, neg, abs, set_sign"]}
{"id": "C26", "title": "NaN propagates and infinities follow the IEEE table", "statement": "For add, sub, mul, div, rem: any NaN operand gives NaN; inf-inf, inf*0, inf/inf, 0/0 give NaN; x/0 gives the correctly signed infinity, inf absorbs finite operands in add/sub, inf*x and inf/x have the product sign.", "quantifier": "for all values (finite, infinite, NaN), precisions and modes", "why_tests_cant": "The cross product of classes with all finite values is infinite.", "anchors": ["astro-float-num/src/ext.rs: add_op, sub_op, mul_op, div, rem, result_to_ext"]}
{"id": "C27", "title": "Overflow becomes infinity and errors become NaN", "statement": "At the BigFloat level an exponent overflow is returned as the infinity of the sign of the exact result, division by zero as an infinity signed by the dividend and divisor, and any other error as NaN carrying that error; a finite result is returned unchanged.", "quantifier": "for all operands and results", "why_tests_cant": "Requires relating every error path to the mathematical result.", "anchors": ["astro-float-num/src/ext.rs: result_to_ext, add_op, mul_op, div"]}
{"id": "C28", "title": "Arithmetic is commutative bit for bit", "statement": "add(x,y)=add(y,x) and mul(x,y)=mul(y,x) give the same value and same inexact flag for nonzero finite operands in every mode.", "quantifier": "for all well-formed operands, p>0, modes", "why_tests_cant": "Symmetry over two unbounded operands; the code treats the operands asymmetrically.", "anchors": ["astro-float-num/src/num.rs: add_sub, mul_general_case", "astro-float-num/src/mantissa/mul.rs: mul_unbalanced"]}
{"id": "C29", "title": "Rounded arithmetic is monotone", "statement": "If x <= x' then add(x,y,p,rm) <= add(x',y,p,rm) as values, and likewise mul by a positive y, for results in the normal range.", "quantifier": "for all operands, p>0, modes", "why_tests_cant": "Relational property over triples of unbounded numbers.", "anchors": ["astro-float-num/src/num.rs: add, mul"]}
{"id": "C30", "title": "Equality and ordering are coherent", "statement": "a == b iff cmp is 0, partial_cmp agrees with cmp, NaN compares to nothing (not even itself), and on nonzero finite numbers and infinities the order is total and transitive.", "quantifier": "for all triples of values", "why_tests_cant": "Transitivity quantifies over triples.", "anchors": ["astro-float-num/src/ext.rs: BigFloat::cmp, PartialEq, PartialOrd"]}
{"id": "C31", "title": "clamp, max and min select the right operand", "statement": "max/min of nonzero non-NaN values return the larger/smaller operand; clamp(x, lo, hi) with lo <= hi lies in [lo, hi] and equals x when x does; NaN operands give NaN.", "quantifier": "for all nonzero values", "why_tests_cant": "Quantifies over all comparison outcomes.", "anchors": ["astro-float-num/src/ext.rs: clamp, max, min"]}
{"id": "C32", "title": "abs_cmp compares magnitudes", "statement": "BigFloat::abs_cmp(x,y) should compare |x| with |y|. Refuted: for two finite values it returns the signed comparison.", "quantifier": "exists pair (refutation); for all pairs of positive values it is right", "why_tests_cant": "Only negative operands expose it.", "anchors": ["astro-float-num/src/ext.rs: abs_cmp lines 352-366"]}
{"id": "C33", "title": "Classification and signum of zero", "statement": "classify(0) should be Zero and signum(0)... the documented categories. Refuted: a nonempty zero is classified Subnormal and signum(0) is 1; for nonzero values classification agrees with the representation.", "quantifier": "exists value (refutation) ; for all nonzero values it is right", "why_tests_cant": "A universally quantified classification claim.", "anchors": ["astro-float-num/src/ext.rs: classify, signum, is_subnormal"]}
{"id": "C34", "title": "set_exponent scales by a power of two", "statement": "set_exponent(e) on a normal number changes the value by exactly 2^(e - old e); on a subnormal number it scales by 2^(e-EXPONENT_MIN), renormalising as needed; zero stays zero.", "quantifier": "for all well-formed x and all exponents", "why_tests_cant": "Subnormal renormalisation boundary needs particular bit lengths.", "anchors": ["astro-float-num/src/num.rs: set_exponent"]}
{"id": "C35", "title": "Extreme constants are extreme", "statement": "max_value(p), min_value(p), min_positive(p), min_positive_normal(p) are the largest, smallest, smallest positive and smallest positive normal values among all well-formed numbers of precision p.", "quantifier": "for all well-formed numbers of the given precision", "why_tests_cant": "Extremality is a universal claim.", "anchors": ["astro-float-num/src/num.rs: max_value, min_value, min_positive, min_positive_normal", "astro-float-num/src/mantissa/mantissa.rs: oned_mantissa, min"]}
{"id": "C36", "title": "Reciprocal is correctly rounded", "statement": "reciprocal(x, p, rm) is 1/x rounded once to p bits; reciprocal of zero is reported as division by zero.", "quantifier": "for all well-formed nonzero x, p>0, modes", "why_tests_cant": "Same unbounded space as division.", "anchors": ["astro-float-num/src/num.rs: reciprocal, div"]}
{"id": "C37", "title": "Binary, octal and hexadecimal digit conversion is exact", "statement": "convert_to_radix in base 2, 8, 16 of a finite number yields its sign, digits all below the base and an exponent denoting exactly the value; there are no digits only for zero, the last digit is nonzero, and for a normal number the first digit is nonzero.", "quantifier": "for all well-formed numbers with a nonempty mantissa", "why_tests_cant": "Digit regrouping across word boundaries for any exponent residue mod 3 or 4.", "anchors": ["astro-float-num/src/conv.rs: convert_to_radix, conv_to_binary, conv_to_commensurable"]}
{"id": "C38", "title": "Reading digits in base 2, 8, 16 is correctly rounded", "statement": "convert_from_radix in base 2, 8, 16 with precision p yields the value denoted by the digit string and exponent, correctly rounded once (gradual underflow, exact when p is large enough), overflow as an error, and rejects digits not below the base. Base 2: digit strings that start with 1 (see C64 for leading zeros). Base 8 and 16: mode None only in the normal range, and outward modes not below the smallest positive number (see C65).", "quantifier": "for all digit strings, exponents, signs, precisions, modes", "why_tests_cant": "Digit strings are unbounded.", "anchors": ["astro-float-num/src/conv.rs: convert_from_radix, conv_from_binary, conv_from_commensurable"]}
{"id": "C39", "title": "Text round trip in base 2, 8, 16", "statement": "Formatting a finite number in base 2, 8 or 16 and parsing the text back with at least the same precision returns the same value; NaN and infinities round-trip as well.", "quantifier": "for all well-formed values", "why_tests_cant": "Quantifies over all values and all text lengths.", "anchors": ["astro-float-num/src/strop.rs: format", "astro-float-num/src/parser.rs: parse", "astro-float-num/src/conv.rs", "astro-float-num/src/ext.rs: parse, format"]}
{"id": "C40", "title": "Parser accepts the documented grammar and computes its value", "statement": "parse on [sign] digits [. digits] [e|_e [sign] digits] yields exactly the digit sequence with leading zeros stripped and the adjusted exponent denoting the same number; inf/nan words are recognised case-insensitively; the parser never panics on any character sequence.", "quantifier": "for all strings", "why_tests_cant": "All strings.", "anchors": ["astro-float-num/src/parser.rs: parse, parse_num, parse_digits, parse_exp"]}
{"id": "C41", "title": "Zero with a huge exponent parses to zero", "statement": "A literal whose digits are all zero denotes 0 whatever its exponent. Refuted: 0.0 with an exponent above EXPONENT_MAX parses to infinity.", "quantifier": "exists string (refutation)", "why_tests_cant": "Needs a huge exponent on an all-zero mantissa.", "anchors": ["astro-float-num/src/parser.rs: parse_num lines 117-156"]}
{"id": "C42", "title": "Schoolbook, Toom-2 and Toom-3 multiplication agree with the integer product", "statement": "The product of two word sequences computed by any internal algorithm chosen by operand size equals the integer product, so results do not depend on the size thresholds.", "quantifier": "for all word sequences of all lengths", "why_tests_cant": "Large-operand algorithms have intermediate sign cases that random operands hit unevenly.", "anchors": ["astro-float-num/src/mantissa/mul.rs: mul_basic, mul_slices, mul_unbalanced", "astro-float-num/src/mantissa/toom2.rs", "astro-float-num/src/mantissa/toom3.rs"]}
{"id": "C43", "title": "Long division returns quotient and remainder", "statement": "Internal long division (Knuth D, recursive and unbalanced variants) of word sequences u by normalised v returns q, r with u = q*v + r and 0 <= r < v.", "quantifier": "for all word sequences", "why_tests_cant": "Quotient-digit overestimation corrections are astronomically rare under random testing.", "anchors": ["astro-float-num/src/mantissa/div.rs: div_basic, div_recursive, div_unbalanced, div_correction"]}
{"id": "C44", "title": "Integer square and cube root with remainder", "statement": "Internal sqrt/cbrt of a word sequence m returns s, r with s^2 + r = m, s^2 <= m < (s+1)^2 (resp. cubes).", "quantifier": "for all word sequences with admissible length and top word", "why_tests_cant": "Newton iteration convergence for all lengths.", "anchors": ["astro-float-num/src/mantissa/sqrt.rs", "astro-float-num/src/mantissa/cbrt.rs"]}
{"id": "C45", "title": "Context clamps exponent ranges and never stores an invalid one", "statement": "A Context built with any emin, emax has EXPONENT_MIN <= emin <= 0 <= emax <= EXPONENT_MAX after construction and after any sequence of setter calls, precision and rounding mode are returned as set, and clone yields an equal context.", "quantifier": "for all arguments and all sequences of setter calls", "why_tests_cant": "Sequences of setters are unbounded.", "anchors": ["astro-float-num/src/ctx.rs: Context"]}
{"id": "C46", "title": "Exponent range check maps out-of-range results to infinity or zero", "statement": "check_exponent_range(x, emin, emax) returns the sign-matching infinity when the exponent exceeds emax, a zero when it is below emin, and x unchanged otherwise, including NaN and infinities.", "quantifier": "for all values and ranges", "why_tests_cant": "Universal.", "anchors": ["astro-float-num/src/macro_util.rs: check_exponent_range"]}
{"id": "C47", "title": "Integer power special cases and exactness", "statement": "powi(x, n): n=0 gives 1, n=1 gives x rounded, zero and infinities follow the sign/parity table; the square-and-multiply loop computes x^n exactly when no intermediate rounding occurs.", "quantifier": "for all x, n, p, modes", "why_tests_cant": "Unbounded exponents.", "anchors": ["astro-float-num/src/ops/pow.rs: powi, powi_internal, powsi", "astro-float-num/src/ext.rs: powi"]}
{"id": "C48", "title": "pow special-case table", "statement": "pow(x, y) at zeros, ones, infinities, NaN and negative bases follows the documented table (e.g. pow(x,0)=1, pow(1,y)=1, negative base with non-integer exponent is invalid, odd integer exponents keep the sign).", "quantifier": "for all x, y", "why_tests_cant": "Cross product of classes with all finite values.", "anchors": ["astro-float-num/src/ops/pow.rs: pow", "astro-float-num/src/ext.rs: pow"]}
{"id": "C49", "title": "Roundability test is sound for directed modes", "statement": "If the internal rounding test succeeds for a directed mode on an approximation known to s correct bits, then rounding the approximation gives the same result as rounding any real number within the error bound.", "quantifier": "for all approximations, error bounds, directed modes", "why_tests_cant": "Soundness quantifies over all reals in an interval.", "anchors": ["astro-float-num/src/mantissa/mantissa.rs: round_mantissa (check_roundable path)", "astro-float-num/src/num.rs: try_set_precision"]}
{"id": "C50", "title": "Roundability test is sound for nearest modes", "statement": "The same for ToEven/ToOdd. Refuted: the test reads words in the wrong order, so it accepts approximations that straddle a rounding boundary.", "quantifier": "exists approximation (refutation)", "why_tests_cant": "Requires a mantissa with specific low words.", "anchors": ["astro-float-num/src/mantissa/mantissa.rs: round_mantissa lines 902-963", "astro-float-num/src/ext.rs: try_set_precision"]}
{"id": "C51", "title": "Binary splitting for e sums the exponential series exactly", "statement": "The internal p/q pair computed for the constant e over any index range equals the exact partial sum of a!/k!, and extending a cached range gives the same pair as computing it from scratch. The only failure is an exponent overflow on ranges of more than 2^24 terms.", "quantifier": "for all index ranges", "why_tests_cant": "All ranges; intermediate numbers grow without bound.", "anchors": ["astro-float-num/src/ops/consts/e.rs: pq, b_factor"]}
{"id": "C52", "title": "Binary splitting for pi, ln2 and ln10 sums their series exactly", "statement": "The p/q/r triples over any index range denote exactly the partial sums of the Chudnovsky (pi) and the ln2/ln10 series, and extending a cached range gives the same triple as computing it from scratch. The only failure is an exponent overflow on ranges of more than 2^23 terms.", "quantifier": "for all index ranges and split points", "why_tests_cant": "All ranges.", "anchors": ["astro-float-num/src/ops/consts/pi.rs: pqr, pqr_inc", "astro-float-num/src/ops/consts/ln2.rs", "astro-float-num/src/ops/consts/ln10.rs"]}
{"id": "C53", "title": "Decimal conversion of integers: exact from digits, exact to digits exactly when no group of digits has a gap", "statement": "The cached powers are 10^(2^i); reading decimal digits gives their integer; writing an integer gives its digits exactly when no non-leading aligned group of 2^j (j >= 6) digits has a zero upper half while needing more than one word. In particular the conversion to digits and back is the identity on integers below 10^64, but not on all word sequences (10^64 + 10^25 is written as 10^32 + 10^25).", "quantifier": "for all word sequences, digit strings and reachable caches", "why_tests_cant": "Unbounded; the failing inputs are a small fraction of all integers.", "anchors": ["astro-float-num/src/mantissa/conv.rs: conv_to_dec, conv_from_dec, compute_tenpowers"]}
{"id": "C54", "title": "Arithmetic never panics on well-formed input", "statement": "add, sub, mul, div, rem, sqrt, cmp, set_precision, round, floor, ceil, int, fract on well-formed operands with p>0 never index out of bounds, underflow a length, or unwrap a missing value.", "quantifier": "for all well-formed operands", "why_tests_cant": "Panic freedom is universal over inputs.", "anchors": ["astro-float-num/src/num.rs: all operations", "astro-float-num/src/mantissa/mantissa.rs: all operations"]}
{"id": "C55", "title": "Formatting a zero-precision zero panics in octal and hexadecimal", "statement": "Formatting any finite value should succeed. Refuted: a value with an empty mantissa (e.g. from_f64(0.0, p)) makes base 8/16 conversion panic.", "quantifier": "exists value (refutation)", "why_tests_cant": "Only the degenerate empty mantissa triggers it.", "anchors": ["astro-float-num/src/conv.rs: conv_to_commensurable line 683"]}
{"id": "C56", "title": "Remainder in the subnormal range is flushed to zero", "statement": "rem should be exact also for subnormal remainders. Refuted: a remainder below the normal range is returned as zero without an inexact mark.", "quantifier": "exists operands (refutation)", "why_tests_cant": "Only operands near the minimum exponent.", "anchors": ["astro-float-num/src/num.rs: rem lines 459-465"]}
{"id": "C57", "title": "round(n, rm) of a subnormal number in the nearest modes", "statement": "round(x, n, rm) should be x rounded once to a multiple of 2^-n also for subnormal x. Refuted: for n = 2^31 the test for 'the rounding bit is set' reads the top word of the significant bits instead of the top word of the mantissa, so a tiny subnormal number is rounded up to a whole unit.", "quantifier": "exists subnormal x (refutation), both nearest modes; for all other n the claim is C18", "why_tests_cant": "needs a subnormal operand and exactly n = 2^31 fractional digits; every other n behaves", "anchors": ["astro-float-num/src/num.rs:1226-1288", "astro-float-num/src/mantissa/mantissa.rs:1149-1155"]}
{"id": "C58", "title": "Quotient by an infinity keeps sign and precision", "statement": "A finite number divided by an infinity should be a zero with the product sign and with the requested precision p. Refuted: the result is always +0 and has the precision of the dividend, whatever p and the signs are.", "quantifier": "for all finite dividends, infinities, precisions and modes (refutation)", "why_tests_cant": "A test that compares values cannot see the sign or the precision of a zero, and no finite set of precisions covers all p.", "anchors": ["astro-float-num/src/ext.rs:286-308"]}
{"id": "C59", "title": "Roundability test for any number of correct bits", "statement": "The documentation of BigFloat::try_set_precision lets s be any number of correct bits. Refuted: when s is not a multiple of the word size (guarded only by a debug assertion) more bits are examined than are known, and a directed rounding is accepted although a real within the error bound rounds differently.", "quantifier": "exists approximation, s (refutation)", "why_tests_cant": "Debug builds stop at the assertion, and the witness needs a run of zeros exactly at the boundary.", "anchors": ["astro-float-num/src/ext.rs: try_set_precision lines 1137-1152", "astro-float-num/src/mantissa/mantissa.rs: round_mantissa lines 878, 901"]}
{"id": "C60", "title": "Error estimate near one measures the distance to one", "statement": "For a normal finite x with exponent 1 or 0, compute_added_err_near_one returns n with |x|-1 in [2^-n, 2^(1-n)) or 1-|x| in (2^-(n+1), 2^-n]; it returns 0 in the other binades, and 0 near one only if the distance is below 2^emin. The leading-ones and leading-zeros counts equal their bit-length definition.", "quantifier": "for all x, emin, slices", "why_tests_cant": "Universal over mantissas of any length.", "anchors": ["astro-float-num/src/macro_util.rs: compute_added_err_near_one lines 10-25", "astro-float-num/src/common/util.rs: lines 280-327"]}
{"id": "C61", "title": "Integer power terminates and is correctly rounded", "statement": "For a nonzero x and n >= 2 whose power is not below the normal range, the retry loop of powi stops after finitely many rounds; in the directed modes the result is x^n rounded once to p bits with the exact inexact flag, in the other modes it is the rounding of a number within relative distance 2^-(p+64) of x^n; overflow is reported only when a number that close to x^n overflows, with the sign of x^n.", "quantifier": "for all x, n < 2^64, p, modes", "why_tests_cant": "The loop has no bound in the code and the exponents are unbounded.", "anchors": ["astro-float-num/src/ops/pow.rs: powi_internal lines 248-352", "astro-float-num/src/num.rs: try_set_precision"]}
{"id": "C62", "title": "Finite base and negative infinite exponent", "statement": "pow(v, -inf) is 0 for v > 1 and +inf for 0 < v < 1; pow(v, +inf) is infinite for v < -1. (The code returns -inf, 0 and 0: refuted for every such v.)", "quantifier": "for all finite v, p, modes", "why_tests_cant": "Universal over the finite values.", "anchors": ["astro-float-num/src/ext.rs: pow lines 393-407"]}
{"id": "C63", "title": "Even integer power of negative zero is positive zero", "statement": "powi(-0, n) is +0 for even n >= 2, as pow(-0, n) is. (The code returns -0: refuted for every even n.)", "quantifier": "for all n, p, modes", "why_tests_cant": "Universal over exponents.", "anchors": ["astro-float-num/src/ops/pow.rs: powi_internal lines 258-262"]}
{"id": "C64", "title": "Base-2 digits with leading zeros", "statement": "Reading a base-2 digit string with leading zeros rounds the denoted value and gives a well-formed number. Refuted: significant bits are cut off (0.0..01 with 64 zeros reads as 0 at 64 bits) and the result can be a subnormal mantissa with an exponent that is not the smallest one.", "quantifier": "exists digit string (refutation)", "why_tests_cant": "Needs a leading-zero fraction longer than the mantissa.", "anchors": ["astro-float-num/src/conv.rs: conv_from_binary lines 73-142"]}
{"id": "C65", "title": "Far underflow of octal and hexadecimal text in outward modes", "statement": "A positive value below the smallest positive number read in mode Up is the smallest positive number. Refuted: the result is 2^-64.", "quantifier": "exists digit string (refutation)", "why_tests_cant": "Only exponents far below the minimum with a directed mode.", "anchors": ["astro-float-num/src/conv.rs: conv_from_commensurable lines 225-272"]}
{"id": "C66", "title": "Automatic precision when reading digits", "statement": "With p = usize::MAX the number read is well formed (bit length of the mantissa as recorded, zero recognised as zero). Refuted: a subnormal hexadecimal value records the wrong bit length, and a base-2 zero is not recognised as zero.", "quantifier": "exists digit string (refutation)", "why_tests_cant": "Corner of a corner: automatic precision with zero or subnormal values.", "anchors": ["astro-float-num/src/conv.rs: conv_from_binary, conv_from_commensurable"]}
{"id": "C67", "title": "Literals with large exponents", "statement": "A literal is read as the rounding of the number it denotes whatever the length of its exponent field and however many leading zeros its fraction has. Refuted: exponent digits past a threshold are dropped, and the range test looks at the first digit written instead of the first significant one.", "quantifier": "exists string (refutation)", "why_tests_cant": "Needs exponents around 2^31 and 2^32.", "anchors": ["astro-float-num/src/parser.rs: parse_num 117-156, parse_exp"]}
{"id": "C68", "title": "Sign of zero literals", "statement": "A literal -0 gives a zero with negative sign in every base. Refuted for base 2 (positive zero), while base 16 keeps the sign.", "quantifier": "exists string (refutation)", "why_tests_cant": "Depends on base and on whether fraction digits are present.", "anchors": ["astro-float-num/src/conv.rs: conv_from_binary lines 80-86"]}
{"id": "C69", "title": "e is delivered correctly at every precision", "statement": "For every cache a program can hold, every precision and every rounding mode, asking for e ends within 31 rounds without a panic, and gives either an exponent overflow or a positive well-formed number of the rounded-up precision k that is the rounding of a real within 2^(2-(k+64)) of exp 1; in the directed modes it is the correct rounding of exp 1 itself, differs from it and is flagged inexact.", "quantifier": "forall reachable caches (any call history), forall 0 < p <= P_LIM, forall rounding modes", "why_tests_cant": "The history of the cache and all precisions are unbounded; tests compare a few precisions with a reference string.", "anchors": ["astro-float-num/src/ops/consts/e.rs: for_prec, calc_e, b_factor", "astro-float-num/src/ops/consts/mod.rs: e_num"]}
{"id": "C70", "title": "ln 2 is delivered correctly at every precision", "statement": "As C69 for ln 2: the rounding of a real within 2^(-(k+64)) of ln 2, and in the directed modes the correct rounding of ln 2.", "quantifier": "forall reachable caches, forall 0 < p <= P_LIM, forall rounding modes", "why_tests_cant": "All precisions and call histories; the error analysis covers every number of terms.", "anchors": ["astro-float-num/src/ops/consts/ln2.rs: for_prec, calc_ln2", "astro-float-num/src/ops/consts/mod.rs: ln_2_num"]}
{"id": "C71", "title": "Accuracy of ln 10", "statement": "Asking for ln 10 ends within 31 rounds without a panic, and gives either an exponent overflow or the rounding of a real within 2^(2-(k+9)) of ln 10. The stronger promise made to the roundability test, that the value is correct to k+64 bits, is refuted: at k = 64 the accepted value is off by more than 2^-84.", "quantifier": "forall reachable caches, forall 0 < p <= P_LIM, forall rounding modes; exists for the refutation", "why_tests_cant": "The excess of the series error over the promised working precision shows only if bits k+1..k+9 of ln 10 happen to be equal.", "anchors": ["astro-float-num/src/ops/consts/ln10.rs: for_prec, calc_ln10", "astro-float-num/src/ops/consts/mod.rs: ln_10_num"]}
{"id": "C72", "title": "pi is delivered correctly at every precision", "statement": "As C69 for pi. Proved with the sum of the Chudnovsky series in the place of pi: the series converges, and the result is the rounding of a real within 2^(2-(k+64)) of 426880 sqrt(10005) / sum, correct in the directed modes.", "quantifier": "forall reachable caches, forall 0 < p <= P_LIM, forall rounding modes", "why_tests_cant": "All precisions and call histories.", "anchors": ["astro-float-num/src/ops/consts/pi.rs: for_prec, calc_pi", "astro-float-num/src/ops/consts/mod.rs: pi_num"]}
{"id": "C73", "title": "Decimal output loses zeros inside the number", "statement": "Converting a number to decimal digits need not give a value near the number: 3.6107365060103e-21 at 128 bits is written with exponent -53.", "quantifier": "exists a well-formed number, for all amounts of fuel", "why_tests_cant": "Random numbers meet the failing pattern with a probability of about 10^-7 per short decimal literal.", "anchors": ["astro-float-num/src/conv.rs: conv_to_dec", "astro-float-num/src/mantissa/conv.rs: conv_to_dec"]}
{"id": "C74", "title": "Decimal input of exact midpoints is not rounded to even", "statement": "Reading decimal digits in the nearest modes is not correctly rounded: an exact midpoint with more digits than the working precision is rounded to the odd neighbour.", "quantifier": "exists a digit string, for all amounts of fuel", "why_tests_cant": "Needs a midpoint written with all its digits and an unlucky power of ten.", "anchors": ["astro-float-num/src/conv.rs: conv_from_dec", "astro-float-num/src/mantissa/mantissa.rs: round_mantissa"]}
{"id": "C75", "title": "Reading decimal digits and literals", "statement": "Reading decimal digits (or a decimal literal) of a nonzero number not below 2^EMIN ends after finitely many rounds, never panics, and returns a well-formed number of exactly the requested precision with the sign of the input. In the directed modes it is the correct rounding of the decimal number and the inexact mark is set exactly when the result differs from it. In the nearest modes and None it is the correct rounding of a real within a relative distance 2^-(p+64). A result not marked inexact equals the decimal number. Overflow is reported only if such a real overflows. With automatic precision the same holds at the precision computed from the number of digits.", "quantifier": "forall reachable caches of powers of ten, digit strings up to 646456991 digits, exponents of the range, precisions up to 2^60, rounding modes and signs", "why_tests_cant": "All digit strings, exponents, precisions and modes; termination of the retry loop rests on a number-theoretic argument (a decimal fraction very near a short binary fraction is equal to it).", "anchors": ["astro-float-num/src/conv.rs: conv_from_dec", "astro-float-num/src/mantissa/conv.rs: conv_from_dec", "astro-float-num/src/ext.rs: parse"]}
{"id": "C76", "title": "Exactly representable decimal numbers are read exactly", "statement": "A decimal number that fits the requested precision is read without error in every mode but None, and without the inexact mark in the directed modes. With automatic precision every integer is read exactly: the precision chosen for n digits holds 10^n.", "quantifier": "forall digit strings up to 646456991 digits, exponents, precisions and modes other than None", "why_tests_cant": "All digit strings and precisions; the constant 3.321928095 exceeds log2 10 by only 1.1e-10.", "anchors": ["astro-float-num/src/conv.rs: conv_from_dec (308-314)"]}
{"id": "C77", "title": "Elementary functions of tiny arguments are correctly rounded", "statement": "When the exponent of the argument is small enough for the shortcut of exp, sin, cos, tan, asin, atan, sinh, cosh, tanh, asinh or atanh, the result is the mathematical value of the function correctly rounded to the requested precision in the requested mode, it has that precision, and it is marked inexact.", "quantifier": "all well-formed nonzero numbers below the threshold of the shortcut, all precisions, all rounding modes", "why_tests_cant": "The exact value differs from the argument (or from 1) by less than any representable amount; the tests use a few samples in round-to-even, where the direction of the correction does not matter.", "anchors": ["astro-float-num/src/ops/util.rs:54-67", "astro-float-num/src/num.rs:1539-1545", "astro-float-num/src/ops/pow.rs:96-114", "astro-float-num/src/ops/sin.rs:110-120"]}
{"id": "C78", "title": "Elementary functions at zero, at the ends of their domain and outside it", "statement": "At zero the elementary functions return exactly zero (with the sign of the argument) or exactly one; acos(1) = acosh(1) = ln(1) = 0; asin(1), asin(-1) are pi/2, -pi/2 correctly rounded; arguments outside the domain of ln, log2, log, asin, acos, acosh, atanh are InvalidArgument and only those, atanh(1), atanh(-1) overflow with the sign of the argument.", "quantifier": "all well-formed numbers, all precisions, all rounding modes", "why_tests_cant": "Domain tests compare mantissas of any length with one; tests try a handful of points.", "anchors": ["astro-float-num/src/ops/asin.rs:23-49", "astro-float-num/src/ops/acos.rs:24-32", "astro-float-num/src/ops/acosh.rs:24-32", "astro-float-num/src/ops/atanh.rs:23-43", "astro-float-num/src/ops/log.rs:94-127"]}
{"id": "C79", "title": "log2 of powers of two is exact", "statement": "log2(2^k) is exactly k for every representable power of two, subnormal ones included, and is not marked inexact unless the argument was. Refuted for log2(1) alone: the result is a zero with exponent 64, which breaks the representation invariant.", "quantifier": "all powers of two in the exponent range, all precisions, all rounding modes", "why_tests_cant": "The exponent range has 2^32 members at each precision, and the subnormal powers depend on the length of the mantissa.", "anchors": ["astro-float-num/src/ops/log.rs:222-249"]}
{"id": "C80", "title": "tanh of the largest arguments is correctly rounded", "statement": "For arguments with the maximal exponent tanh returns plus or minus one, or the neighbour towards zero, exactly as correct rounding of the true value demands.", "quantifier": "all well-formed numbers with exponent EXPONENT_MAX, all precisions, all rounding modes", "why_tests_cant": "The true value differs from one by less than 2^-(2^31); no reference value can be computed.", "anchors": ["astro-float-num/src/ops/tanh.rs:24-42"]}
{"id": "C81", "title": "Elementary functions of infinities and NaN", "statement": "NaN in, NaN out with the same error; at the infinities exp, ln, log2, log10, sinh, cosh, asinh, acosh, tanh take their limits, sin, cos, tan, asin, acos, atanh return NaN, and atan returns plus or minus pi/2 correctly rounded. Refuted in two places: atan(-inf) rounds in the wrong direction (the rounding mode is not mirrored), and tanh of an infinity with a precision below 8 bits is NaN; the rest is proved.", "quantifier": "all extended numbers, all precisions, all rounding modes", "why_tests_cant": "The limits at infinity with a rounding direction are not sampled by the tests.", "anchors": ["astro-float-num/src/ext.rs:757-789", "astro-float-num/src/ext.rs:1200-1232", "astro-float-num/src/ext.rs:1294-1450"]}
{"id": "C82", "title": "Logarithm to an arbitrary base respects the domain", "statement": "log(x, n) of extended numbers is NaN when x is negative, when n is negative, or when n is 1, and minus infinity when x is zero and n > 1. Refuted: log(0, n) is NaN, a zero base gives minus infinity for every x, a negative number to the base infinity gives zero, and infinity to a negative base or to the base 1 gives infinity; only the domain check of finite operands with a nonzero base is proved.", "quantifier": "all pairs of extended numbers, all precisions, all rounding modes", "why_tests_cant": "The table has infinities, zeros and signs in both arguments; the tests cover a few pairs.", "anchors": ["astro-float-num/src/ext.rs:462-505"]}
{"id": "C83", "title": "exp of large negative arguments", "statement": "When e^x is below the range of positive numbers, exp(x) is a correctly signed zero or the smallest positive number, as rounding demands. Refuted: arguments with an exponent above 64 give minus zero in every mode, the zero is not marked inexact, and e^-1488522236, which is a normal number, comes out as zero even when rounding up.", "quantifier": "all well-formed negative numbers, all precisions, all rounding modes", "why_tests_cant": "Needs arguments whose exponential underflows, combined with each rounding mode.", "anchors": ["astro-float-num/src/ops/pow.rs:120-140", "astro-float-num/src/ops/pow.rs:156-160"]}
{"id": "C84", "title": "exp is correctly rounded", "statement": "Whenever exp(x) returns and its working precision stayed within 2^20 bits, the result is e^x with the requested precision, positive and marked inexact: correctly rounded in the directed modes, and in the other modes the rounding of a number that agrees with e^x to 64 bits beyond the precision. Overflow is reported only if such a number overflows, a zero is returned only if such a number for e^-x overflows, and nothing else fails. The cache of e may be in any state that earlier calls leave. exp(0) is exactly 1.", "quantifier": "all well-formed numbers, precisions, rounding modes, cache histories, numbers of retries", "why_tests_cant": "The claim bounds the error of a truncated series, repeated squarings and a power of e for every argument; tests sample arguments.", "anchors": ["astro-float-num/src/ops/pow.rs:95-285", "astro-float-num/src/ops/series.rs"]}
{"id": "C85", "title": "sinh is correctly rounded", "statement": "Whenever sinh(x) returns and its working precisions stayed within 2^20 bits, the result is the hyperbolic sine of x with the requested precision and the sign of x, marked inexact: correctly rounded in the directed modes, and in the other modes the rounding of a number that agrees with sinh(x) to 64 bits beyond the precision; tiny arguments are correctly rounded in every mode, with gradual underflow. Overflow, with the sign of x, is reported only if such a number reaches half of the range, and nothing else fails. The cache of e may be in any state that earlier calls leave. sinh of a zero is that zero.", "quantifier": "all well-formed numbers, precisions, rounding modes, cache histories, numbers of retries", "why_tests_cant": "The claim bounds the error of a truncated series and of the difference of two exponentials for every argument; tests sample arguments.", "anchors": ["astro-float-num/src/ops/sinh.rs:19-89", "astro-float-num/src/ops/series.rs"]}
{"id": "C86", "title": "cosh is correctly rounded", "statement": "Whenever cosh(x) returns and its working precisions stayed within 2^20 bits, the result is the hyperbolic cosine of x with the requested precision, positive and marked inexact: correctly rounded in the directed modes, and in the other modes the rounding of a number that agrees with cosh(x) to 64 bits beyond the precision. Overflow is reported only if such a number reaches half of the range, and nothing else fails. The cache of e may be in any state that earlier calls leave. cosh(0) is exactly 1.", "quantifier": "all well-formed numbers, precisions, rounding modes, cache histories, numbers of retries", "why_tests_cant": "The claim bounds the error of a sum of two exponentials for every argument; tests sample arguments.", "anchors": ["astro-float-num/src/ops/cosh.rs:19-76"]}
{"id": "C87", "title": "tanh is correctly rounded", "statement": "Whenever tanh(x) returns and its working precisions stayed within 2^20 bits, the result is the hyperbolic tangent of x with the requested precision and the sign of x, marked inexact: correctly rounded in the directed modes, and in the other modes the rounding of a number that agrees with tanh(x) to 64 bits beyond the precision; tiny and huge arguments are correctly rounded in every mode. It never fails. The cache of e may be in any state that earlier calls leave. tanh of a zero is that zero.", "quantifier": "all well-formed numbers, precisions, rounding modes, cache histories, numbers of retries", "why_tests_cant": "The subtraction e^2x - 1 cancels for small x and the quotient approaches 1 for large x; that the extra precision suffices for every argument is not testable.", "anchors": ["astro-float-num/src/ops/tanh.rs:20-118"]}
{"id": "C88", "title": "sinh and cosh overflow only when the result does", "statement": "sinh(x) and cosh(x) report an overflow only if the correctly rounded result exceeds the largest number. Refuted: at -1488522235.5 both values are below 4/5 of 2^EMAX in magnitude, but both functions report an overflow, also when rounding toward zero, because e^|x| overflows.", "quantifier": "all well-formed numbers, precisions and rounding modes", "why_tests_cant": "The arguments lie in a window of width ln 2 near 1.49e9.", "anchors": ["astro-float-num/src/ops/sinh.rs:44-74", "astro-float-num/src/ops/cosh.rs:47-64"]}
{"id": "C89", "title": "FFT multiplication of large operands is the integer product", "statement": "The multiplication of two word sequences by the fast Fourier transform modulo 2^n1+1 (splitting, weights, forward transforms, products of the parts, inverse transform, recombination) gives exactly the integer product, in a buffer of any sufficient length, and never fails: no coefficient of the convolution exceeds the modulus, every normalisation loop ends, and the bit-reversed order of the forward and the inverse transform agree.", "quantifier": "all operands of 1024 to 2^26 words together with any contents (the code uses the FFT from 5622 words on), all buffer lengths", "why_tests_cant": "A wrong coefficient appears only for operands whose parts are close to all ones in the right positions, and each test of this size takes millions of word operations.", "anchors": ["astro-float-num/src/mantissa/fft.rs:1-492", "astro-float-num/src/mantissa/mul.rs:32-45"]}
{"id": "C90", "title": "ln is correctly rounded", "statement": "Whenever ln(x) of a positive x other than 1 returns and its working precisions stayed within 2^14 bits, it returns the natural logarithm of x with the requested precision and its sign, marked inexact: correctly rounded in the directed modes, and in the other modes the rounding of a number that agrees with ln(x) to 64 bits beyond the precision. This includes the arguments next to 1, where the logarithm of the mantissa cancels with the multiple of ln 2. It never fails, and the cache of ln 2 stays in a state that calls leave. ln(1) is zero; a zero or negative argument is rejected.", "quantifier": "all well-formed numbers, precisions, rounding modes, states of the cache of ln 2, numbers of retries", "why_tests_cant": "The error budget depends on the argument: next to 1 the leading bits cancel, and five spare bits must cover the errors of the reduction by square roots, of the series and of the constant.", "anchors": ["astro-float-num/src/ops/log.rs:24-212", "astro-float-num/src/ops/series.rs:1-444", "astro-float-num/src/ops/consts/ln2.rs:1-239"]}
{"id": "C91", "title": "log2 is correctly rounded", "statement": "Whenever log2(x) of a positive x that is not a power of two returns and its working precisions stayed within 2^14 bits, it returns the binary logarithm of x with the requested precision and its sign, marked inexact: correctly rounded in the directed modes, and in the other modes the rounding of a number that agrees with log2(x) to 64 bits beyond the precision. It never fails. The logarithm of a power of two other than 1 is the exact integer; a zero or negative argument is rejected.", "quantifier": "all well-formed numbers, precisions, rounding modes, states of the cache of ln 2, numbers of retries", "why_tests_cant": "As for ln, with one more division and an exponent added to a number that nearly cancels it.", "anchors": ["astro-float-num/src/ops/log.rs:214-291"]}
{"id": "C92", "title": "atanh is correctly rounded", "statement": "Whenever atanh(x) of a nonzero x in (-1, 1) returns and the working precisions, including those of ln, stayed within 2^14 bits, it returns the inverse hyperbolic tangent of x with the requested precision and the sign of x, marked inexact: correctly rounded in the directed modes, and in the other modes the rounding of a number that agrees with atanh(x) to 64 bits beyond the precision; tiny arguments are correctly rounded in every mode. This includes arguments next to 1 and -1. It never fails. atanh of a zero is that zero, of 1 and -1 an overflow of that sign, and arguments outside are rejected.", "quantifier": "all well-formed numbers, precisions, rounding modes and states of the cache of ln 2", "why_tests_cant": "The quotient (1 + x)/(1 - x) loses all its digits near 0 and its denominator near 1; only inputs with long runs of equal bits show it.", "anchors": ["astro-float-num/src/ops/atanh.rs:23-84"]}
{"id": "C93", "title": "acosh is correctly rounded", "statement": "Whenever acosh(x) of an x above 1 returns and the working precisions, including those of ln, stayed within 2^14 bits, it returns the inverse hyperbolic cosine of x with the requested precision, positive and marked inexact: correctly rounded in the directed modes, and in the other modes the rounding of a number that agrees with acosh(x) to 64 bits beyond the precision. This includes arguments next to 1, large arguments, where ln(2 x) is used, and the largest exponent, where 2 x overflows. It never fails. acosh(1) is exactly 0 and smaller arguments are rejected.", "quantifier": "all well-formed numbers, precisions, rounding modes and states of the cache of ln 2", "why_tests_cant": "Cancellation next to 1, the switch to ln(2 x) and the largest exponent are corners of the input space; the agreement of ln(2 x) with acosh x is to within half a unit of the working precision.", "anchors": ["astro-float-num/src/ops/acosh.rs:24-93"]}
{"id": "C94", "title": "asinh is correctly rounded", "statement": "Whenever asinh(x) of a nonzero x returns and the working precisions, including those of ln, stayed within 2^14 bits, it returns the inverse hyperbolic sine of x with the requested precision and the sign of x, marked inexact: correctly rounded in the directed modes, mirrored for negative x, and in the other modes the rounding of a number that agrees with asinh(x) to 64 bits beyond the precision; tiny arguments are correctly rounded in every mode. This includes large arguments and the largest exponent. It never fails. asinh of a zero is that zero.", "quantifier": "all well-formed numbers, precisions, rounding modes and states of the cache of ln 2", "why_tests_cant": "The argument of ln is next to 1 for small x, and ln(2 x) replaces the formula for large x; errors appear only in the last digits or at the switch.", "anchors": ["astro-float-num/src/ops/asinh.rs:25-95"]}
{"id": "C95", "title": "pow is correctly rounded", "statement": "Whenever pow(x, n) of nonzero operands other than 1 and -1 returns and the working precisions, including those of ln and exp, stayed within 2^14 bits, it returns x to the power n with the requested precision and the sign of the power (negative exactly for a negative base and an odd integer exponent), marked inexact: correctly rounded in the directed modes, mirrored for negative powers, and in the other modes the rounding of a number that agrees with the power to 64 bits beyond the precision. It fails only with an overflow of the right sign when such a number is too large, and answers with a zero only when the reciprocal of the power is too large. The remaining operands give the results of C48 (negative base and fractional exponent: invalid).", "quantifier": "all well-formed numbers with an exponent n of magnitude at least 2^(EMIN+2^15), precisions, rounding modes and states of the caches of ln 2 and e", "why_tests_cant": "The error of n ln x is amplified by the size of the exponent, up to 2^32 times; wrong last digits show only for large exponents and rare bit patterns.", "anchors": ["astro-float-num/src/ops/pow.rs:446-601"]}
{"id": "C96", "title": "pow returns on exact powers, and does not mark them", "statement": "pow(x, n) returns the exact power, not marked inexact, when it is representable with the requested precision. Refuted: in the directed rounding modes such a call (for example 2^3 rounded up to 64 bits) never returns, since the retry loop waits for digits that decide the rounding and there are none; to nearest, 2^3 is returned as 8 but marked inexact.", "quantifier": "all well-formed operands whose power is representable and between 2^(EMIN+8) and 2^(EMAX-2), all directed modes, any number of retries with working precisions up to 2^14 bits", "why_tests_cant": "A test that hangs tells nothing about larger numbers of retries; that no retry count suffices needs a proof.", "anchors": ["astro-float-num/src/ops/pow.rs:525-585"]}
{"id": "C97", "title": "log10 is correctly rounded", "statement": "Whenever log10(x) of a positive x other than 1 returns and the working precisions, including those of ln, stayed within 2^14 bits, it returns the decimal logarithm of x with the requested precision, marked inexact: correctly rounded in the directed modes, mirrored for x below 1, and in the other modes the rounding of a number that agrees with log10(x) to 64 bits beyond the precision. The only exceptions are numbers x that agree with a power of ten to more than 64 bits beyond the precision without being it: there the exponent of that power may be returned in any mode, or the overflow of the power. log10(1) is exactly 0, and zero and negative numbers are rejected.", "quantifier": "all well-formed numbers, precisions, rounding modes and states of the caches of ln 2 and ln 10", "why_tests_cant": "The quotient of two rounded logarithms is compared with the rounding boundary; the test for powers of ten uses a truncated power, and which numbers can fool it follows only from error bounds.", "anchors": ["astro-float-num/src/ops/log.rs:301-342"]}
{"id": "C98", "title": "log10 marks exactly the inexact results", "statement": "log10 of an exact power of ten is not marked inexact, and log10 of a number that is marked inexact is marked inexact. Refuted in both parts: the logarithm of every power of ten other than 1 is marked inexact, although the code recognises the power (log10(100) is 2, marked inexact); and an operand 1 that is marked inexact gives a zero without the mark.", "quantifier": "all powers of ten that are well-formed numbers, precisions, rounding modes and cache states with working precisions up to 2^14 bits; the operand 1 marked inexact, all numbers of retries and cache states", "why_tests_cant": "That no power of ten and no cache state gives an unmarked result needs a proof over all of them.", "anchors": ["astro-float-num/src/ops/log.rs:323-336"]}
{"id": "C99", "title": "log to an arbitrary base is correctly rounded", "statement": "Whenever log(x, n) of positive x and n, both other than 1, returns and the working precisions, including those of ln, pow and exp, stayed within 2^14 bits, it returns ln x / ln n with the requested precision, marked inexact: correctly rounded in the directed modes, and in the other modes the rounding of a number that agrees with the logarithm to 64 bits beyond the precision. The only exceptions are operands for which n raised to the computed quotient agrees with x to 64 bits beyond the precision: there the rounding of a number agreeing with the logarithm to 64 bits beyond the precision is returned in any mode, or the overflow of that power. log(1, n) is an exact zero with the sign of ln n; the base 1 gives a division by zero, or an invalid argument for x = 1; zero and negative operands are rejected.", "quantifier": "all well-formed pairs of numbers, precisions, rounding modes and states of the caches of ln 2 and e", "why_tests_cant": "The quotient of two rounded logarithms is compared with the rounding boundary and the exit test raises the base to that quotient in working precision; which operands can pass it follows only from error bounds.", "anchors": ["astro-float-num/src/ops/log.rs:344-409"]}
{"id": "C100", "title": "log marks exactly the inexact results", "statement": "log(n^m, n) for an integer m is not marked inexact. Refuted: for every base and every m other than 0, a result that is returned is marked inexact (log of 6 to the base 6 is 1, marked inexact).", "quantifier": "all well-formed bases, all powers of them that are well-formed numbers, precisions, rounding modes and cache states with working precisions up to 2^14 bits", "why_tests_cant": "That no power, base and cache state gives an unmarked result needs a proof over all of them.", "anchors": ["astro-float-num/src/ops/log.rs:386-401"]}
{"id": "C101", "title": "sin below one is correctly rounded", "statement": "For a number with exponent 0 or less (magnitude below one), whenever sin returns and the working precisions stayed within 2^20 bits, it returns the sine with the requested precision and leaves the cache of pi unchanged: correctly rounded in the directed modes, and in the other modes the rounding of a number that agrees with the sine to 64 bits beyond the precision. There is no error. The sine of zero is a zero with the same sign and inexact flag.", "quantifier": "all well-formed numbers with exponent at most 0, precisions, rounding modes and states of the cache of pi; no rounding only with an exponent above the least", "why_tests_cant": "The alternating series cancels, and each of the unbounded number of tripling steps of the restoration multiplies the error; that the extra precision always covers both follows only from an error bound over all arguments and precisions.", "anchors": ["astro-float-num/src/ops/sin.rs:23-221", "astro-float-num/src/ops/util.rs:7-51"]}
{"id": "C102", "title": "atan below one is correctly rounded", "statement": "For a number with exponent 0 or less (magnitude below one), whenever atan returns and the working precisions stayed within 2^20 bits, it returns the arctangent with the requested precision and leaves the cache of pi unchanged: correctly rounded in the directed modes, and in the other modes the rounding of a number that agrees with the arctangent to 64 bits beyond the precision. There is no error. The arctangent of zero is a zero with the same sign and inexact flag.", "quantifier": "all well-formed numbers with exponent at most 0, precisions, rounding modes and states of the cache of pi; no rounding only with an exponent above the least", "why_tests_cant": "The alternating series is summed with rounded divisions by an unbounded number of odd integers after an unbounded number of half-angle steps, and is cut off by comparing exponents; that the omitted tail and all rounding errors stay below the margin of the exit test follows only from an error bound over all arguments and precisions.", "anchors": ["astro-float-num/src/ops/atan.rs:22-190", "astro-float-num/src/ops/series.rs:141-303"]}
{"id": "C103", "title": "asin up to 7/10 is correctly rounded", "statement": "For a number of magnitude at most 7/10, whenever asin returns and the working precisions stayed within 2^20 bits, it returns the arcsine with the requested precision and leaves the cache of pi unchanged: correctly rounded in the directed modes, and in the other modes the rounding of a number that agrees with the arcsine to 64 bits beyond the precision. There is no error. The arcsine of zero is a zero with the same sign and inexact flag. A number of magnitude above one is an invalid argument.", "quantifier": "all well-formed numbers of magnitude at most 7/10, precisions, rounding modes and states of the cache of pi; no rounding only with an exponent above the least", "why_tests_cant": "The arcsine is taken as the arctangent of a rounded quotient and the inner arctangent is rounded in the caller's mode before the final rounding in the same mode; that this double rounding never changes a result needs an error bound for every argument and precision.", "anchors": ["astro-float-num/src/ops/asin.rs:23-81", "astro-float-num/src/ops/atan.rs:22-190"]}
{"id": "C104", "title": "cos below one is correctly rounded", "statement": "For a number with exponent 0 or less (magnitude below one), whenever cos returns and the working precisions stayed within 2^15 bits, it returns the cosine with the requested precision and leaves the cache of pi unchanged: correctly rounded in the directed modes, and in the other modes the rounding of a number that agrees with the cosine to 64 bits beyond the precision. There is no error. The cosine of zero is one with the inexact flag of the argument.", "quantifier": "all well-formed numbers with exponent at most 0, precisions, rounding modes and states of the cache of pi", "why_tests_cant": "The argument is halved n times, the series is summed without its leading one, and the doubling formula then amplifies every rounding error by four per step; that the extra precision computed by the cost optimiser and the retry margin cover this amplification for every argument, precision and number of halvings needs an induction over the restoration steps.", "anchors": ["astro-float-num/src/ops/cos.rs:22-230", "astro-float-num/src/ops/series.rs:20-303"]}
{"id": "C105", "title": "tan below one is correctly rounded", "statement": "For a number with exponent 0 or less (magnitude below one), whenever tan returns and the working precisions stayed within 8000 bits, it returns the tangent with the requested precision and leaves the cache of pi unchanged: correctly rounded in the directed modes, and in the other modes the rounding of a number that agrees with the tangent to 64 bits beyond the precision. There is no error. The tangent of zero is the zero of the same sign.", "quantifier": "all well-formed numbers with exponent at most 0, precisions, rounding modes and states of the cache of pi", "why_tests_cant": "The argument is halved n times, the quotient of the sine and cosine series is summed as two fractions with growing integer denominators, and the double-angle formula is applied n times to the result; that every intermediate product stays in the exponent range and that the accumulated relative error stays within the retry margin for every argument, precision and number of halvings needs an induction over the terms and over the restoration steps.", "anchors": ["astro-float-num/src/ops/tan.rs:22-237", "astro-float-num/src/ops/series.rs:50-83", "astro-float-num/src/ops/util.rs"]}
{"id": "C106", "title": "pi is correctly rounded up to 2048 bits", "statement": "For every reachable cache of pi, every precision up to 2048 bits and every rounding mode the delivered number has the requested precision, is positive and marked inexact, and is pi correctly rounded, never pi itself (the other outcome is an exponent overflow in an oversized cache). The value of the Chudnovsky series used by the code differs from pi by at most 2^-2183.", "quantifier": "all reachable caches (any history of calls of any precision), precisions 1..2048, all rounding modes", "why_tests_cant": "A test fixes the history of the cache; here any earlier sequence of calls is allowed, and the comparison is with the real number pi, not with another program. It needs an error bound for the fixed-point sums and a proof that no rounding boundary lies between pi and what the code accepts.", "anchors": ["astro-float-num/src/ops/consts/pi.rs:78-153", "astro-float-num/src/ops/consts/mod.rs"]}
{"id": "C107", "title": "atan of arguments of magnitude one and more is correctly rounded", "statement": "For every argument of magnitude one or more with an exponent up to 2^21, whenever atan returns: the cache of pi stays reachable, and the outcome is either the rounding to the requested precision of a number within 2^-(p+64) relatively of the arctangent, with the sign of the argument, marked inexact, and exactly the directed rounding of the arctangent in the directed modes; or an exponent overflow from an oversized cache of pi.", "quantifier": "all reachable caches of pi, all well-formed arguments of magnitude one or more (exponent up to 2^21), all precisions whose working precisions stay within 2048 bits, all rounding modes", "why_tests_cant": "The arctangent is transcendental: a test compares with another approximation. The proof bounds the error of the reciprocal, of the series, of pi and of the subtraction for every argument and cache history.", "anchors": ["astro-float-num/src/ops/atan.rs:90-132", "astro-float-num/src/ops/consts/pi.rs:78-153"]}
{"id": "C108", "title": "acos of arguments up to 7/10 is correctly rounded", "statement": "For every nonzero normal argument of magnitude up to 7/10, whenever acos returns: the cache of pi stays reachable, and the outcome is either the rounding to the requested precision of a number within 2^-(p+64) relatively of the arccosine, positive, marked inexact, and exactly the directed rounding in the directed modes; or an exponent overflow from an oversized cache of pi. The arccosine of one is plus zero of the requested precision, and arguments of magnitude above one give InvalidArgument.", "quantifier": "all reachable caches of pi, all well-formed normal arguments of magnitude up to 7/10 (one, above one), all precisions whose working precisions stay within 2048 bits, all rounding modes", "why_tests_cant": "The arccosine is transcendental: a test compares with another approximation. The proof bounds the error of the arcsine, of pi and of the difference for every argument, and shows that the precision added for cancellation is never too small there.", "anchors": ["astro-float-num/src/ops/acos.rs:24-71", "astro-float-num/src/ops/asin.rs:23-81", "astro-float-num/src/ops/consts/pi.rs:78-153"]}
{"id": "C109", "title": "asin of arguments above 7/10 is correctly rounded", "statement": "For every argument of magnitude above 7/10 and below one, whenever asin returns: the cache of pi stays reachable, and the outcome is either the rounding to the requested precision of a number within 2^-(p+64) relatively of the arcsine, with its sign, marked inexact, and exactly the directed rounding in the directed modes; or an exponent overflow from an oversized cache of pi. For plus and minus one asin always returns, and gives the exact rounding of plus or minus half of pi in every mode.", "quantifier": "all reachable caches of pi, all well-formed arguments of magnitude above 7/10 up to one, all precisions whose working precisions stay within 2048 bits, all rounding modes", "why_tests_cant": "Near one the difference 1 - x^2 loses as many bits as x has leading ones, and a test only hits a few such arguments. The proof shows for every one of them that the added precision covers the loss, through the square root, the quotient and the arctangent.", "anchors": ["astro-float-num/src/ops/asin.rs:23-81", "astro-float-num/src/ops/atan.rs:25-118", "astro-float-num/src/ops/consts/pi.rs:78-153"]}
{"id": "C110", "title": "acos of zero, minus one and arguments above 7/10 is correctly rounded", "statement": "For every argument of magnitude above 7/10 and at most 1 - 2^-62, whenever acos returns: the cache of pi stays reachable, and the outcome is either the rounding to the requested precision of a number within 2^-(p+64) relatively of the arccosine, positive, marked inexact, and exactly the directed rounding in the directed modes; or an exponent overflow from an oversized cache of pi. The same holds for zero, with half of pi, and for minus one, with pi.", "quantifier": "all reachable caches of pi, all well-formed arguments of magnitude above 7/10 up to 1 - 2^-62, zeros and minus ones, all precisions whose working precisions stay within 2048 bits, all rounding modes", "why_tests_cant": "Pi/2 minus the arcsine cancels near one, and the sum near minus one; a test only hits a few such arguments. The proof bounds the cancellation for every argument and shows that the added precision covers it; for minus one the sum vanishes exactly because both halves of pi are the same number.", "anchors": ["astro-float-num/src/ops/acos.rs:24-71", "astro-float-num/src/ops/asin.rs:23-81", "astro-float-num/src/ops/consts/pi.rs:78-153"]}
{"id": "C111", "title": "sin of arguments between one and two is correctly rounded", "statement": "For every argument of magnitude at least one and below two, whenever sin returns: the cache of pi stays reachable, and the outcome is either the rounding to the requested precision of a number within 2^-(p+64) relatively of the sine, with its sign, marked inexact, and exactly the directed rounding in the directed modes; or an exponent overflow from an oversized cache of pi.", "quantifier": "all reachable caches of pi, all well-formed arguments with 1 <= |x| < 2, all precisions whose working precisions stay within 2048 bits, all rounding modes", "why_tests_cant": "The triple angle formula applied last starts beyond the point where it amplifies no error, and the distance to half of pi, which decides whether precision is added, cancels arbitrarily; a test meets neither the worst argument nor every precision. The proof bounds the amplification on the whole interval and shows that the distance never asks for another round.", "anchors": ["astro-float-num/src/ops/sin.rs:110-221", "astro-float-num/src/ops/util.rs:20-51", "astro-float-num/src/ops/consts/pi.rs:78-153"]}
{"id": "C112", "title": "cos of arguments between one and two is correctly rounded", "statement": "For every argument of magnitude at least one and below two, and at least 2^-60 away from half of pi, whenever cos returns: the cache of pi stays reachable, and the outcome is either the rounding to the requested precision of a number within 2^-(p+64) relatively of the cosine, with its sign, marked inexact, and exactly the directed rounding in the directed modes; or an exponent overflow from an oversized cache of pi.", "quantifier": "all reachable caches of pi, all well-formed arguments with 1 <= |x| < 2 and ||x| - pi/2| >= 2^-60, all precisions whose working precisions stay within 2048 bits, all rounding modes", "why_tests_cant": "The last doubling subtracts one from a number near one when the argument is near half of pi, and up to sixty bits cancel there; a test meets few such arguments and no worst case. The proof bounds the relative error of every argument through the cancellation, and shows that the distance computed from pi never asks for another round.", "anchors": ["astro-float-num/src/ops/cos.rs:110-219", "astro-float-num/src/ops/util.rs:20-51", "astro-float-num/src/ops/consts/pi.rs:78-153"]}
{"id": "C113", "title": "sin of arguments between two and four is correctly rounded", "statement": "For every argument of magnitude at least two and below four, and at least 2^-60 away from pi, whenever sin returns: the cache of pi stays reachable, and the outcome is either the rounding to the requested precision of a number within 2^-(p+64) relatively of the sine, with its sign, marked inexact, and exactly the directed rounding in the directed modes; or an exponent overflow from an oversized cache of pi.", "quantifier": "all reachable caches of pi, all well-formed arguments with 2 <= |x| < 4 and ||x| - pi| >= 2^-60, all precisions whose working precisions stay within 2048 bits, all rounding modes", "why_tests_cant": "The sine changes sign at pi in the middle of the range, and the last tripling there subtracts two nearly equal numbers, cancelling up to sixty bits; a test meets few such arguments. The proof bounds the relative error of every argument through the cancellation, and shows that the distance to pi never asks for another round nor for a second subtraction.", "anchors": ["astro-float-num/src/ops/sin.rs:110-221", "astro-float-num/src/ops/util.rs:20-51", "astro-float-num/src/ops/consts/pi.rs:78-153"]}
{"id": "C114", "title": "cos of arguments between two and four is correctly rounded", "statement": "For every argument of magnitude at least two and below four, and at least 2^-60 away from pi, whenever cos returns: the cache of pi stays reachable, and the outcome is either the rounding to the requested precision of a number within 2^-(p+64) relatively of the cosine, with its sign, marked inexact, and exactly the directed rounding in the directed modes; or an exponent overflow from an oversized cache of pi.", "quantifier": "all reachable caches of pi, all well-formed arguments with 2 <= |x| < 4 and ||x| - pi| >= 2^-60, all precisions whose working precisions stay within 2048 bits, all rounding modes", "why_tests_cant": "The code doubles the cosine of half the argument, which passes through zero at pi although the result does not; the intermediate number may lose sixty bits of relative accuracy and change its sign. The proof shows for every argument that the absolute error which remains is harmless to the result.", "anchors": ["astro-float-num/src/ops/cos.rs:110-219", "astro-float-num/src/ops/util.rs:20-51", "astro-float-num/src/ops/consts/pi.rs:78-153"]}
{"id": "C115", "title": "tan of arguments between one and two is correctly rounded", "statement": "For every argument of magnitude at least one and below two, and at least 2^-60 away from half of pi, whenever tan returns: the cache of pi stays reachable, and the outcome is either the rounding to the requested precision of a number within 2^-(p+64) relatively of the tangent, with its sign, marked inexact, and exactly the directed rounding in the directed modes; or an exponent overflow from an oversized cache of pi.", "quantifier": "all reachable caches of pi, all well-formed arguments with 1 <= |x| < 2 and ||x| - pi/2| >= 2^-60, all precisions whose working precisions stay within 2048 bits, all rounding modes", "why_tests_cant": "The tangent has its pole inside the range, and the last double-angle step subtracts the square of the tangent of half the argument from one, which may cancel sixty bits and decides the sign. That the precision added by the code covers the loss for every argument, precision and number of halvings needs a proof about the distance of the argument from half of pi.", "anchors": ["astro-float-num/src/ops/tan.rs:73-237", "astro-float-num/src/ops/util.rs:20-51", "astro-float-num/src/ops/consts/pi.rs:78-153"]}
{"id": "C116", "title": "tan of arguments between two and four is correctly rounded", "statement": "For every argument of magnitude at least two and below four, and at least 2^-60 away from pi, whenever tan returns: the cache of pi stays reachable, and the outcome is either the rounding to the requested precision of a number within 2^-(p+64) relatively of the tangent, with its sign, marked inexact, and exactly the directed rounding in the directed modes; or an exponent overflow from an oversized cache of pi.", "quantifier": "all reachable caches of pi, all well-formed arguments with 2 <= |x| < 4 and ||x| - pi| >= 2^-60, all precisions whose working precisions stay within 2048 bits, all rounding modes", "why_tests_cant": "The last but one double-angle step computes the tangent of half the argument, which has its pole at pi, where the result is zero: a number up to 2^62 in magnitude and of either sign, with sixty bits lost, is doubled into a small one. That the relative error survives this for every argument and precision needs a proof about the double-angle formula on both sides of the pole.", "anchors": ["astro-float-num/src/ops/tan.rs:73-237", "astro-float-num/src/ops/util.rs:20-51", "astro-float-num/src/ops/consts/pi.rs:78-153"]}
{"id": "C117", "title": "sin of arguments from four to 2^64 is correctly rounded", "statement": "For every argument of magnitude at least four and below 2^64 whose sine is at least 2^-59 in magnitude, whenever sin returns: the cache of pi stays reachable, and the outcome is either the rounding to the requested precision of a number within 2^-(p+64) relatively of the sine, with its sign, marked inexact, and exactly the directed rounding in the directed modes; or an exponent overflow from an oversized cache of pi.", "quantifier": "all reachable caches of pi, all well-formed arguments with 4 <= |x| < 2^64 and |sin x| >= 2^-59, all precisions whose working precisions stay within 1792 bits, all rounding modes", "why_tests_cant": "The argument is replaced by its remainder by twice a rounded pi, so the error of pi is multiplied by the number of turns, up to 2^62; whether the extra bits of pi, as many as the exponent, make up for it depends on the argument, the working precision and the length the remainder has after its leading zeros are cut, and the error shows only in the last bits for arguments many turns away.", "anchors": ["astro-float-num/src/ops/sin.rs:110-221", "astro-float-num/src/ops/util.rs:7-51", "astro-float-num/src/num.rs:437-547", "astro-float-num/src/ops/consts/pi.rs:78-153"]}
{"id": "C118", "title": "cos of arguments from four to 2^64 is correctly rounded", "statement": "For every argument of magnitude at least four and below 2^64 whose sine and cosine are at least 2^-59 in magnitude, whenever cos returns: the cache of pi stays reachable, and the outcome is either the rounding to the requested precision of a number within 2^-(p+64) relatively of the cosine, with its sign, marked inexact, and exactly the directed rounding in the directed modes; or an exponent overflow from an oversized cache of pi.", "quantifier": "all reachable caches of pi, all well-formed arguments with 4 <= |x| < 2^64, |sin x| >= 2^-59 and |cos x| >= 2^-59, all precisions whose working precisions stay within 1792 bits, all rounding modes", "why_tests_cant": "As for C117 the error of the rounded pi grows with the number of turns, up to 2^62. The remainder lies anywhere in a turn, and the doublings that undo the division of the argument by a power of two pass near the zeros of the cosine at a quarter, a half and three quarters of the turn; the loss of bits there depends on the argument, the precision and the number of doublings.", "anchors": ["astro-float-num/src/ops/cos.rs:110-219", "astro-float-num/src/ops/util.rs:7-51", "astro-float-num/src/num.rs:437-547", "astro-float-num/src/ops/consts/pi.rs:78-153"]}
{"id": "C119", "title": "tan of arguments from four to 2^64 is correctly rounded", "statement": "For every argument of magnitude at least four and below 2^64 whose sine and cosine are at least 2^-59 in magnitude, whenever tan returns: the cache of pi stays reachable, and the outcome is either the rounding to the requested precision of a number within 2^-(p+64) relatively of the tangent, with its sign, marked inexact, and exactly the directed rounding in the directed modes; or an exponent overflow from an oversized cache of pi.", "quantifier": "all reachable caches of pi, all well-formed arguments with 4 <= |x| < 2^64, |sin x| >= 2^-59 and |cos x| >= 2^-59, all precisions whose working precisions stay within 1792 bits, all rounding modes", "why_tests_cant": "The error of the rounded pi grows with the number of turns, up to 2^62, and near a pole or a zero of the tangent it is magnified again. The remainder lies anywhere in a turn, and the doublings that undo the division of the argument by a power of two pass near up to four poles on the way; where they do depends on the argument, and the loss of bits on the precision and the number of doublings.", "anchors": ["astro-float-num/src/ops/tan.rs:73-237", "astro-float-num/src/ops/util.rs:7-51", "astro-float-num/src/num.rs:437-547", "astro-float-num/src/ops/consts/pi.rs:78-153"]}
