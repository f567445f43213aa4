# Formal model of astro-float (Rocq/Coq 8.16.1)

This document is written before the proofs and updated as they land.
Every property id refers to `properties.jsonl`; the status of each claim is in `MANIFEST.json`.

## 1. What is modelled

Target: x86_64, `Word = u64`, `Exponent = i32`, `isize/usize` 64 bit, feature `std`.

| Layer | Coq file(s) | Rust source |
|---|---|---|
| word slices: carry/borrow, shifts, leading-zero counting | `Words.v` | `common/util.rs`, `common/buf.rs`, `mantissa/util.rs` |
| signed slices | `IntModel.v` | `common/int.rs` |
| integer kernels: mul (schoolbook, Toom-2, Toom-3, FFT, balancing), div, sqrt, cbrt on word lists | `MulModel.v`, `Fft.v`, `DivModel.v`, `RootModel.v` | `mantissa/{mul,toom2,toom3,fft,div,sqrt,cbrt}.rs` |
| mantissa | `Mantissa.v` | `mantissa/mantissa.rs` |
| finite number | `Num.v` | `num.rs`, `ops/sqrt.rs`, `ops/cbrt.rs` |
| NaN/Inf layer | `Ext.v` | `ext.rs` |
| integer powers, special cases of pow | `Pow.v` | `ops/pow.rs`, `ext.rs` |
| radix conversion (2, 8, 16), parser, formatter | `Conv.v`, `Parser.v` | `conv.rs`, `parser.rs`, `strop.rs`, `ext.rs` |
| decimal conversion | `Dec.v`, `DecConv.v` | `mantissa/conv.rs`, `conv.rs` |
| contexts, macro run-time support | `Ctx.v` | `ctx.rs`, `macro_util.rs` |
| constants by binary splitting and their caches | `Consts.v` | `ops/consts/*.rs` |
| elementary functions up to their retry loops: zero, domain, tiny arguments; wrappers | `Elem.v` | `ops/*.rs`, `ext.rs` |
| power series and cost estimates | `Series.v` | `ops/series.rs`, `common/util.rs` |
| exp | `Exp.v` | `ops/pow.rs` |
| sinh, cosh, tanh | `Hyp.v` | `ops/{sinh,cosh,tanh}.rs` |
| ln, log2 | `Ln.v` | `ops/log.rs` |
| asinh, acosh, atanh | `InvHyp.v` | `ops/{asinh,acosh,atanh}.rs` |
| pow | `RealPow.v` | `ops/pow.rs` |
| log10 | `Log10.v` | `ops/log.rs` |
| log to an arbitrary base | `Log.v` | `ops/log.rs` |
| sin | `Sin.v` | `ops/{sin,util}.rs` |
| atan | `Atan.v` | `ops/atan.rs` |
| asin | `Asin.v` | `ops/asin.rs` |
| acos | `Acos.v` | `ops/acos.rs` |
| cos | `Cos.v` | `ops/{cos,util,series}.rs` |
| tan | `Tan.v` | `ops/{tan,util,series}.rs` |

Representation choices.

* A word is a `Z` in `[0, 2^64)`; a mantissa buffer is a little-endian `list Z`
  (`m[0]` least significant), exactly the Rust `WordBuf`.
* `usize`/`isize` quantities are unbounded `Z`. No wrap-around is modelled for them: `p_assertion`
  keeps every precision below 2^62, so on accepted inputs none of the sums leaves 64 bits.
  Word arithmetic wraps explicitly (`mod 2^64`). `i32` exponents are `Z`, with the range checks of the code.
* `Result` is an inductive with `Ok`, `Err` (the crate's `Error`) and a separate `Panic`
  constructor for index errors, `unwrap` on `None` and length underflow.
* `&mut` arguments are returned. Loops are structural recursion over word lists, or recursion on
  explicit fuel with a `Panic` result when fuel runs out; the theorems exclude that result.
* Memory allocation is assumed to succeed (`Error::MemoryAllocation` never occurs in the model).
  Uninitialised words of a fresh buffer are modelled as zero; every such buffer is overwritten before it is read.
* `debug_assert!` is not modelled (release semantics).

## 2. Specification side

`Spec.v` does not mention the model's algorithms. It defines

* `value : num -> R`, the real number `±M·2^(e-64·len)`;
* `rnd rm : R -> Z`, the rounding to integers of each mode, taken from Flocq
  (`Zfloor`, `Zceil`, `Ztrunc`, `Zaway`, `Znearest`);
* correct rounding as Flocq's `round radix2 (FLX_exp p) (rnd rm)` and, with gradual underflow,
  `round radix2 (FLT_exp (EMIN-p) p) (rnd rm)`;
* `wf : num -> Prop`, the representation invariant.

The doc comments of `RoundingMode` call `Up/Down/ToZero/FromZero` "round half ..."; the code implements
directed rounding in those modes, and the specification follows the code. `None` truncates, which is what
the code does in all operations which shorten the mantissa by whole words.

Proofs go through an integer specification (`IntRound.v`): `rndN rm s N d`, the magnitude `N` rounded at
bit `d`, and a bridge lemma to Flocq's `round`.

## 3. Per-property plan

| Id | Plan |
|---|---|
| C01, C02 | `add_sub` word level: aligned addition/subtraction is exact on `Z`; the far-apart branch is handled by a "same half-cell" lemma; then `round_mantissa` = `rndN`; then bridge. |
| C03 | integer product (C42), `maximize`, `round_mantissa`, bridge. |
| C04 | division with remainder (C43), sticky handling per mode, bridge. |
| C05, C06 | C44 plus sticky handling; bridge to real roots. |
| C07 | flag equation carried through the same lemmas. |
| C08 | exponent case split in the same theorems. |
| C09 | `subnormalize` on the rounded value; directed roundings compose on nested grids. |
| C10 | refutation by `vm_compute` witness; positive characterisation as two-step rounding. |
| C11, C12 | `full_prec` branch: no rounding; refutation witness for a zero operand. |
| C13, C56 | modular arithmetic on `Z` with `pow_mod` by fuel-free recursion on the bit count; refutation witness in the subnormal range. |
| C14, C15 | `abs_cmp` by lexicographic comparison lemma; refutation witness for a zero operand. |
| C16, C54 | `wf` closure is a conjunct of every operation theorem; `Ok` result shows absence of `Panic`. |
| C17, C18, C19 | `round_mantissa`, `mask_bits`, `find_one_from` lemmas. |
| C20-C24, C34, C35 | direct computation of the value. |
| C22 | refutation witness plus general statement "half the value". |
| C25-C27, C30-C33 | `Ext.v` case analysis on top of number-level theorems. |
| C28, C29 | corollaries of C01, C03 (uniqueness and monotonicity of `round`). |
| C36 | corollary of C04. |
| C37-C39 | digit list value lemma, bit regrouping, inverse. |
| C40, C41 | parser as a function on `list` of characters; grammar as an inductive/independent reader. |
| C42 | `mul_basic` by induction; Toom-2, Toom-3 by ring identities on `Z`; FFT: C89. |
| C43 | Knuth D invariant; recursive division by strong induction on length. |
| C44 | Newton iteration: decreasing sequence bounded below by the root. |
| C45, C46 | case analysis, induction over setter sequences. |
| C47, C48 | special-case tables; loop invariant for the square-and-multiply loop over exact arithmetic. |
| C49, C50 | interval argument on `round_mantissa` with the roundability check; witness for nearest modes. |
| C51, C52 | induction over index ranges using exactness of `*_full_prec` (C11). |
| C53 | digits-value lemma by induction on the split depth. |
| C55 | witness. |
| C56-C68 | witnesses, most of them for whole families of inputs. |
| C69-C72 | binary splitting as exact rational sums (induction over index ranges), truncation error, cache invariant; the identity of the Chudnovsky series with pi is not proved (C72 partial). |
| C75-C82 | real analysis of the first terms for tiny arguments; case analysis for domains and infinities. |
| C84 | `e^x`: relative error calculus (`lc`, `apx`) through argument reduction, Horner and rectangular summation, restoration, then the soundness of `try_set_precision` (C49, C60). |
| C85-C87 | the same calculus on top of C84. |
| C90, C91 | the calculus with exact unit counts (`near`, `eta`) through the square roots and the series; next to 1 the absolute errors of both summands against the first terms of the logarithm. |
| C92-C94 | on top of C90: the relative error of the argument of ln, amplified by the size of the logarithm; for large arguments `ln(2 x)` and the true value truncate to the same cell. |
| C95, C96 | the error of `n ln x`, amplified by its size at most 2^32 (a larger power overflows), through exp; a value accepted in a directed mode is never the exact one, so exact powers are never accepted. |
| C97, C98 | C90 and C71 through the division; the test for powers of ten: an integer quotient within the error bound is the exponent of a power next to x. |
| C99, C100 | C90 through the quotient of the logarithms, C95 through the test that raises the base to it. |
| C101 | Alternating series in absolute error (`AltNum.v`): every partial sum stays above half of its first term, so the absolute error is a relative one; Taylor remainder; one error step per tripling of the restoration (`SinTop.v`). |
| C102 | The same with divisions (`AltDiv.v`): terms decrease by 16; the half-angle steps change the arctangent by the relative error of one step (`AtanR.v`, `AtanTop.v`). |
| C103 | C102 on the quotient `x / sqrt(1 - x^2)`; the rounded arctangent is one more unit of error before the exit test (`AsinTop.v`). |
| C104 | The series in absolute error; the numbers of terms and halvings chosen by the cost optimiser bound the errors lost in the restoration by 2^56 units of the margin (`CosTop.v`). |
| C105 | The two fractions by induction over the terms; the restoration in the scale of the angle: `atan` of the result doubles with a fixed number of ulps per step (`TanTop.v`). |
| C106 | Machin's formula and the Chudnovsky series evaluated in fixed point (`PiCheck.v`, by `vm_compute`), error bounds for both by induction over the terms, distance of pi from the rounding boundaries of the 32 word precisions (`PiNum.v`). |
| C107 | The reciprocal is at most one and has one rounding; series as in C102; pi from C106; the difference from pi/2 keeps the absolute error (`AtanBig.v`). |
| C108 | C103 gives the arcsine within one ulp, C106 pi; the difference is at least 3/4, so that the absolute errors suffice; the exponents of sum and difference stay below the added precision (`AcosTop.v`). |
| C109 | The leading ones of the mantissa bound the distance from one (`gap_one`), hence the loss in 1 - x^2; the tangent is within 16 units of the reduced precision, and C102 and C107 give its arctangent; at one, half of pi by C106 (`AsinBig.v`). |
| C110 | 1 - cos y <= y^2/2 bounds the arccosine below by 2^-31, so that the 33 added bits cover the cancellation and are never raised; C109 gives the arcsine; at minus one the arcsine is the same half of pi (`AcosBig.v`). |
| C111 | The proximity subtracts an odd multiple of half of pi and leaves less than one, so that no precision is added; all triplings but the last are as in C101, and the last, from at most two thirds, amplifies the relative error at most eightfold since the sine stays above 4/5 (`SinBig.v`). |
| C112 | As C111 for the proximity, whose exponent is at least -61 away from the zero; all doublings but the last are as in C104, the last has an absolute error of 2^54 units of the working precision, which is below 2^-61 relatively by the 128 bits above the target (`CosBig.v`). |
| C113 | As C111, with pi not halved: the difference from pi is above -7/4 and below 15/16 towards larger magnitudes, so a positive exponent means the opposite sign and no second subtraction; all triplings but the last two are as in C111, the last two are followed with an absolute error, 2^58 units of the working precision in the end (`SinFour.v`). |
| C114 | As C112 and C113: the last but one doubling may end near zero, the last one begin there; both are followed with an absolute error, and the cosine itself is above 1/16 in magnitude on the whole range (`CosFour.v`). |
| C115 | All doublings but the last as in C105, in the scale of the angle; the last subtracts from one with an absolute error, which is compared with the cosine of twice the computed angle; the quotient is then related to the tangent by `tan a - tan b = sin (a - b) / (cos a cos b)` (`TanBig.v`). |
| C116 | C115 for the last but one doubling, whose result may be near the pole; the last one multiplies the relative error by at most four, because the tangent of half the argument is at least 4/3 in magnitude (`TanFour.v`). |
| C117 | The remainder by twice the rounded pi is exact (`RemNum.v`), so its sine differs from that of the argument by at most the number of turns times the error of pi; the lengths of the remainder, the proximity for every exponent up to three, and one more tripling chain for exponent three (`SinEight.v`) give the loop (`SinHuge.v`). |
| C118 | The reduction as in C117, with the cosine; the proximity to three halves of pi; three doublings followed with an absolute error for exponent three (`CosEight.v`). The sine of the reduced argument is a multiple of the cosines of its half and its quarter, which keeps these away from zero (`CosHuge.v`). |
| C119 | The reduction as in C117; the sine and the cosine of the remainder are both close to those of the argument, hence the tangent is relatively close (`tan_close`); the proximity to any multiple of half of pi; one more doubling past the pole for exponent three (`TanEight.v`, `TanHuge.v`). |
| C89 | invariants of the parts (canonical residues modulo `2^n1+1`), forward and inverse transform by induction on the number of levels with bit-reversed indices, Cauchy product, bound of the coefficients, recombination loop. |

## 4. Not expressible / out of scope

* Accuracy of `acos` within 2^-62 of one and of minus one: modelled, nothing claimed. There the code raises the
  added precision to one more than the exponent of the difference. When that sum is a multiple of 64 no bits
  remain for the errors of the arcsine and of pi, and the acceptance test is not covered by the bound.
* Accuracy of `tan` with working precisions above 8000 bits: the bound of the common denominators of the two
  fractions, which must stay in the exponent range, is not carried further.
* Accuracy of `cos` with working precisions above 2^15 bits. The doubling formula loses two bits per step, and
  the precision added for it subtracts the exponent gained by the halvings; from about 10^5 bits on the loss is
  not bounded by the 64 bits of the margin, so C104 is not expected to extend.
* Accuracy of `sin`, `cos` and `tan` for arguments of 2^64 and more (the remainder by twice pi may then lose
  words of its mantissa), of `sin` below 2^-59 in magnitude at arguments from two on, of `cos` and `tan` within
  2^-60 of half of pi (as for acos) or of pi, and from four on where the sine or the cosine is below 2^-59; of `sin`, `cos` and `tan` from one on, `asin` above
  7/10, `acos` and `atan` of arguments of one and more with working precisions above 2048 bits. It rests on the value of pi, which is
  known here to 2048 bits (C106).
* That the retry loops ("increase the precision until the result can be rounded") end: needs
  transcendence results. The theorems speak about calls that return. For pow it is false (C96).
* Execution time, memory consumption, allocation failure.
* Products of 2^32 bits and more. There the code computes the FFT parameters from the size cut to 32 bits.
  The model multiplies such operands by schoolbook.
* 32-bit x86 build, `serde`, random number generation.

## 5. Trusted base

* The Coq kernel (8.16.1) and `vm_compute` for the concrete witnesses. The examples named `*_run_is` compare a
  value computed by `Eval vm_compute` when the file is compiled; they are illustrations, no theorem depends on them.
* `Print Assumptions` output per theorem: see section 6. Theorems stated over
  `R` use the axioms of the Coq standard library reals
  (`ClassicalDedekindReals.sig_forall_dec`, `ClassicalDedekindReals.sig_not_dec`,
  `FunctionalExtensionality.functional_extensionality_dep`, `Classical_Prop.classic`), no others.
* The reading of the Rust source: each definition cites file and lines.

## 6. Print Assumptions per theorem

`ASSUMPTIONS.md` lists the axioms of every theorem named in `MANIFEST.json` (written by `tools/assumptions.sh`).
They are at most the four axioms of the standard library named in section 5. Theorems over integers and word
lists (for example C42, C89) are closed under the global context. Each `Props*.v` file ends with a
`Print Assumptions` of its theorems.

## 7. Claims refuted of the model

Each has a theorem with a concrete witness or a whole family of inputs; the details are in `properties.jsonl`.

| Id | Claim | Theorems |
|---|---|---|
| C10 | Nearest rounding in the subnormal range is not a single rounding (documented correct rounding fails) | `C10_nearest_subnormal_refuted` |
| C12 | Full-precision add with a zero operand loses the other operand | `C12_full_prec_zero_refuted` |
| C15 | Comparison with zero follows the sign | `C15_cmp_zero_refuted` |
| C16 | Every operation returns a well-formed number | `C16_mode_none_refuted` |
| C22 | Conversion from subnormal doubles is exact | `C22_f64_subnormal_refuted` |
| C32 | abs_cmp compares magnitudes | `C32_abs_cmp_refuted` |
| C33 | Classification and signum of zero | `C33_classify_zero_refuted`, `C33_signum_zero_refuted` |
| C41 | Zero with a huge exponent parses to zero | `C41_zero_exponent_refuted` |
| C50 | Roundability test is sound for nearest modes | `C50_nearest_refuted` |
| C53 | Decimal conversion of integers: exact from digits, exact to digits exactly when no group of digits has a gap | `C53_refuted` |
| C55 | Formatting a zero-precision zero panics in octal and hexadecimal | `C55_format_empty_refuted` |
| C56 | Remainder in the subnormal range is flushed to zero | `C56_subnormal_remainder_refuted` |
| C57 | round(n, rm) of a subnormal number in the nearest modes | `C57_round_subnormal_refuted` |
| C58 | Quotient by an infinity keeps sign and precision | `C58_div_by_inf_refuted` |
| C59 | Roundability test for any number of correct bits | `C59_unaligned_refuted` |
| C62 | Finite base and negative infinite exponent | `C62_negative_infinity_refuted` |
| C63 | Even integer power of negative zero is positive zero | `C63_negative_zero_refuted` |
| C64 | Base-2 digits with leading zeros | `C64_leading_zeros_refuted`, `C64_invariant_refuted` |
| C65 | Far underflow of octal and hexadecimal text in outward modes | `C65_far_underflow_refuted` |
| C66 | Automatic precision when reading digits | `C66_auto_subnormal_refuted`, `C66_auto_zero_refuted` |
| C67 | Literals with large exponents | `C67_exponent_cut_refuted`, `C67_adjusted_exponent_refuted` |
| C68 | Sign of zero literals | `C68_negative_zero_refuted` |
| C71 | Accuracy of ln 10 | `C71_ln10_working_precision_refuted` |
| C73 | Decimal output loses zeros inside the number | `C73_output_refuted` |
| C74 | Decimal input of exact midpoints is not rounded to even | `C74_tie_refuted` |
| C79 | log2 of powers of two is exact | `C79_log2_one_refuted` |
| C81 | Elementary functions of infinities and NaN | `C81_tanh_refuted`, `C81_atan_neg_refuted` |
| C82 | Logarithm to an arbitrary base respects the domain | `C82_zero_refuted`, `C82_base_zero_refuted`, `C82_negative_refuted`, `C82_inf_refuted` |
| C83 | exp of large negative arguments | `C83_minus_zero_refuted`, `C83_flushed_refuted` |
| C96 | pow returns on exact powers, and does not mark them | `C96_exact_hangs_refuted`, `C96_two_cubed_refuted`, `C96_flag_refuted` |
| C98 | log10 marks exactly the inexact results | `C98_power_flag_refuted`, `C98_one_flag_refuted`, `C98_hundred_refuted` |
| C100 | log marks exactly the inexact results | `C100_power_flag_refuted`, `C100_six_refuted` |
| C88 | sinh and cosh overflow only when the result does | `C88_cosh_refuted`, `C88_sinh_refuted` |

`C89_small_operands` shows that `fft_mul` on its own is wrong on small operands, on which the code never uses it.
