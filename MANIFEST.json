{
 "claims": [
  {
   "property": "C01",
   "status": "proved",
   "theorems": [
    "C01_add_correctly_rounded"
   ],
   "note": "Zero operands and zero sums included; subnormal results are C09/C10, overflow is C08."
  },
  {
   "property": "C02",
   "status": "proved",
   "theorems": [
    "C02_sub_correctly_rounded"
   ],
   "note": ""
  },
  {
   "property": "C03",
   "status": "proved",
   "theorems": [
    "C03_mul_correctly_rounded"
   ],
   "note": "All multiplication algorithms including the FFT are modelled; products of 2^26 words (2^32 bits) and more are multiplied by schoolbook in the model instead of FFT."
  },
  {
   "property": "C04",
   "status": "proved",
   "theorems": [
    "C04_div_correctly_rounded",
    "C04_div_by_zero"
   ],
   "note": ""
  },
  {
   "property": "C05",
   "status": "proved",
   "theorems": [
    "C05_sqrt_correctly_rounded",
    "C05_sqrt_total"
   ],
   "note": ""
  },
  {
   "property": "C06",
   "status": "proved",
   "theorems": [
    "C06_cbrt_correctly_rounded",
    "C06_cbrt_total"
   ],
   "note": ""
  },
  {
   "property": "C07",
   "status": "proved",
   "theorems": [
    "C07_add_inexact",
    "C07_sub_inexact",
    "C07_mul_inexact",
    "C07_div_inexact",
    "C07_sqrt_inexact",
    "C07_cbrt_inexact"
   ],
   "note": "A marked zero operand does not mark a product or quotient; the statements say so."
  },
  {
   "property": "C08",
   "status": "proved",
   "theorems": [
    "C08_add_overflow",
    "C08_sub_overflow",
    "C08_mul_overflow",
    "C08_div_overflow"
   ],
   "note": ""
  },
  {
   "property": "C09",
   "status": "proved",
   "theorems": [
    "C09_add_directed",
    "C09_sub_directed",
    "C09_mul_directed",
    "C09_div_directed"
   ],
   "note": ""
  },
  {
   "property": "C10",
   "status": "proved",
   "theorems": [
    "C10_nearest_subnormal_refuted",
    "C10_add_two_roundings",
    "C10_mul_two_roundings",
    "C10_div_two_roundings"
   ],
   "note": "Refutation of single rounding plus the characterisation of what is computed."
  },
  {
   "property": "C11",
   "status": "proved",
   "theorems": [
    "C11_add_full_exact",
    "C11_mul_full_exact"
   ],
   "note": ""
  },
  {
   "property": "C12",
   "status": "proved",
   "theorems": [
    "C12_full_prec_zero_refuted"
   ],
   "note": "Refutation, for all operands."
  },
  {
   "property": "C13",
   "status": "proved",
   "theorems": [
    "C13_rem_exact",
    "C13_rem_real_characterised",
    "C13_rem_by_zero"
   ],
   "note": "Remainders in the subnormal range are C56."
  },
  {
   "property": "C14",
   "status": "proved",
   "theorems": [
    "C14_cmp_nonzero",
    "C14_abs_cmp_nonzero"
   ],
   "note": ""
  },
  {
   "property": "C15",
   "status": "proved",
   "theorems": [
    "C15_cmp_zero_refuted",
    "C15_cmp_zero_when_large",
    "C15_cmp_zero_left"
   ],
   "note": "Refutation for all small x, and the range where the claim holds."
  },
  {
   "property": "C16",
   "status": "proved",
   "theorems": [
    "C16_add_wf",
    "C16_sub_wf",
    "C16_mul_wf",
    "C16_div_wf",
    "C16_reciprocal_wf",
    "C16_sqrt_wf",
    "C16_cbrt_wf",
    "C16_set_precision_wf",
    "C16_round_wf",
    "C16_rem_wf",
    "C16_mode_none_refuted",
    "C19_int",
    "C19_fract",
    "C19_floor",
    "C19_ceil",
    "C20_unsigned",
    "C20_signed",
    "C20_u128",
    "C20_i128",
    "C20_word",
    "C21_f64_normal_exact",
    "C22_f64_subnormal_half",
    "C23_raw_accepts_exactly",
    "C24_from_words",
    "C34_set_exponent",
    "C35_max_min_value",
    "C35_min_positive",
    "C35_min_positive_normal"
   ],
   "note": "Mode None with a zero operand or in set_precision is excluded and refuted (C16_mode_none_refuted)."
  },
  {
   "property": "C17",
   "status": "proved",
   "theorems": [
    "C17_set_precision",
    "C17_set_precision_extends"
   ],
   "note": "Mode None cuts whole words only, hence the side condition for that mode."
  },
  {
   "property": "C18",
   "status": "proved",
   "theorems": [
    "C18_round",
    "C18_round_limit"
   ],
   "note": ""
  },
  {
   "property": "C19",
   "status": "proved",
   "theorems": [
    "C19_int",
    "C19_fract",
    "C19_floor",
    "C19_ceil",
    "C19_is_int"
   ],
   "note": ""
  },
  {
   "property": "C20",
   "status": "proved",
   "theorems": [
    "C20_unsigned",
    "C20_signed",
    "C20_u128",
    "C20_i128",
    "C20_word"
   ],
   "note": ""
  },
  {
   "property": "C21",
   "status": "proved",
   "theorems": [
    "C21_f64_normal_exact",
    "C21_f64_special",
    "C21_f64_zero"
   ],
   "note": ""
  },
  {
   "property": "C22",
   "status": "proved",
   "theorems": [
    "C22_f64_subnormal_half",
    "C22_f64_subnormal_refuted"
   ],
   "note": "Refutation, for all subnormal doubles."
  },
  {
   "property": "C23",
   "status": "proved",
   "theorems": [
    "C23_raw_round_trip",
    "C23_raw_accepts_exactly"
   ],
   "note": ""
  },
  {
   "property": "C24",
   "status": "proved",
   "theorems": [
    "C24_from_words"
   ],
   "note": ""
  },
  {
   "property": "C25",
   "status": "proved",
   "theorems": [
    "C25_neg",
    "C25_abs",
    "C25_set_sign",
    "C25_bigfloat"
   ],
   "note": ""
  },
  {
   "property": "C26",
   "status": "proved",
   "theorems": [
    "C26_add_table",
    "C26_sub_table",
    "C26_mul_table",
    "C26_div_table",
    "C26_rem_table",
    "C26_sqrt_table",
    "C26_div_by_inf",
    "C26_rem_by_inf",
    "C26_nan_left",
    "C26_nan_right"
   ],
   "note": "The sign and precision of finite/inf are C58."
  },
  {
   "property": "C27",
   "status": "proved",
   "theorems": [
    "C27_result_mapping",
    "C27_add",
    "C27_sub",
    "C27_mul",
    "C27_div",
    "C27_reciprocal",
    "C26_div_table"
   ],
   "note": "Mode None with a zero operand is excluded for sums (see C16_mode_none_refuted)."
  },
  {
   "property": "C28",
   "status": "proved",
   "theorems": [
    "C28_add_comm",
    "C28_mul_comm"
   ],
   "note": ""
  },
  {
   "property": "C29",
   "status": "proved",
   "theorems": [
    "C29_add_monotone",
    "C29_sub_monotone",
    "C29_mul_monotone"
   ],
   "note": ""
  },
  {
   "property": "C30",
   "status": "proved",
   "theorems": [
    "C30_eq_iff_cmp_zero",
    "C30_partial_cmp_is_cmp",
    "C30_nan_unordered",
    "C30_order_of_values",
    "C30_eq_is_equality_of_values",
    "C30_total",
    "C30_transitive",
    "C30_antisymmetric",
    "C30_reversed"
   ],
   "note": ""
  },
  {
   "property": "C31",
   "status": "proved",
   "theorems": [
    "C31_max",
    "C31_min",
    "C31_clamp",
    "C31_nan"
   ],
   "note": ""
  },
  {
   "property": "C32",
   "status": "proved",
   "theorems": [
    "C32_abs_cmp_refuted",
    "C32_abs_cmp_positive",
    "C32_abs_cmp_special"
   ],
   "note": "Refutation for every pair of negative values, plus the cases where the claim holds."
  },
  {
   "property": "C33",
   "status": "proved",
   "theorems": [
    "C33_classify_zero_refuted",
    "C33_signum_zero_refuted",
    "C33_classify_nonzero",
    "C33_classify_special",
    "C33_signum_nonzero",
    "C33_signum_inf"
   ],
   "note": "Refutation for zero, and the claim for nonzero values."
  },
  {
   "property": "C34",
   "status": "proved",
   "theorems": [
    "C34_set_exponent"
   ],
   "note": ""
  },
  {
   "property": "C35",
   "status": "proved",
   "theorems": [
    "C35_max_min_value",
    "C35_min_positive",
    "C35_min_positive_normal"
   ],
   "note": ""
  },
  {
   "property": "C36",
   "status": "proved",
   "theorems": [
    "C36_reciprocal",
    "C36_reciprocal_zero"
   ],
   "note": ""
  },
  {
   "property": "C37",
   "status": "proved",
   "theorems": [
    "C37_to_digits",
    "C37_first_digit"
   ],
   "note": ""
  },
  {
   "property": "C38",
   "status": "proved",
   "theorems": [
    "C38_from_digits",
    "C38_rejects",
    "C38_precision_zero"
   ],
   "note": "Under the conditions in the statement; outside them see C64, C65. The length limits keep word counts below the allocation limit."
  },
  {
   "property": "C39",
   "status": "proved",
   "theorems": [
    "C39_round_trip",
    "C39_special",
    "C39_format"
   ],
   "note": "Numbers with at least one mantissa word (see C55); mode None needs a normal number or zero."
  },
  {
   "property": "C40",
   "status": "proved",
   "theorems": [
    "C40_literal",
    "C40_same_number",
    "C40_total",
    "C40_words",
    "C40_literal_value"
   ],
   "note": "Exponent fields below 2^32 in magnitude (see C67)."
  },
  {
   "property": "C41",
   "status": "proved",
   "theorems": [
    "C41_zero_exponent_refuted"
   ],
   "note": "Refutation."
  },
  {
   "property": "C42",
   "status": "proved",
   "theorems": [
    "C42_multiplication_is_product"
   ],
   "note": "Schoolbook, Toom-2, Toom-3, balancing and FFT (C89); products of 2^26 words and more are modelled by schoolbook instead of FFT."
  },
  {
   "property": "C43",
   "status": "proved",
   "theorems": [
    "C43_division_quotient_remainder"
   ],
   "note": ""
  },
  {
   "property": "C44",
   "status": "proved",
   "theorems": [
    "C44_sqrt_remainder",
    "C44_cbrt_remainder"
   ],
   "note": "Top word nonzero; cube root for lengths divisible by three, as the callers arrange."
  },
  {
   "property": "C45",
   "status": "proved",
   "theorems": [
    "C45_range_invariant",
    "C45_fields",
    "C45_clone",
    "C45_tuples"
   ],
   "note": "A clone gets a fresh constant cache, as in the code; all other fields are equal."
  },
  {
   "property": "C46",
   "status": "proved",
   "theorems": [
    "C46_exponent_range"
   ],
   "note": "The zero returned below emin is positive whatever the sign of the argument, as in the code."
  },
  {
   "property": "C47",
   "status": "proved",
   "theorems": [
    "C47_exponent_zero",
    "C47_exponent_one",
    "C47_base_zero",
    "C47_base_inf",
    "C47_nan",
    "C47_exact"
   ],
   "note": "n = 0, n = 1, zero, infinities, NaN, and exactness when the flag is clear. The sign of an even power of -0 is C63; n >= 2 is C61."
  },
  {
   "property": "C48",
   "status": "proved",
   "theorems": [
    "C48_exponent_zero",
    "C48_base_zero",
    "C48_base_unit",
    "C48_negative_base",
    "C48_exponent_one",
    "C48_exponent_minus_one",
    "C48_sign",
    "C48_odd_int",
    "C48_base_inf",
    "C48_inf_inf",
    "C48_nan",
    "C48_exponent_inf"
   ],
   "note": "For every possible result of the transcendental part (the argument general). pow(v, -inf) is C62."
  },
  {
   "property": "C49",
   "status": "proved",
   "theorems": [
    "C49_directed_sound",
    "C49_accepts"
   ],
   "note": "Error bounds that are whole words (the code's debug assertion); other bounds are C59."
  },
  {
   "property": "C50",
   "status": "proved",
   "theorems": [
    "C50_nearest_refuted",
    "C50_nearest_sound_all_words",
    "C50_accepts"
   ],
   "note": "Refutation, and soundness in the case where all words are correct."
  },
  {
   "property": "C51",
   "status": "proved",
   "theorems": [
    "C51_e_series",
    "C51_e_extend"
   ],
   "note": "Index ranges within 0..2^63."
  },
  {
   "property": "C52",
   "status": "proved",
   "theorems": [
    "C52_ln2_series",
    "C52_ln10_series",
    "C52_pi_series",
    "C52_extend"
   ],
   "note": "Index ranges within 0..2^55 (ln 2, ln 10) and 0..2^33 (pi), where the u64 leaf arithmetic cannot overflow."
  },
  {
   "property": "C53",
   "status": "proved",
   "theorems": [
    "C53_powers",
    "C53_from_digits",
    "C53_rejects",
    "C53_to_digits",
    "C53_short",
    "C53_round_trip",
    "C53_refuted"
   ],
   "note": "The round trip on all word sequences is refuted; the exact condition is proved."
  },
  {
   "property": "C54",
   "status": "proved",
   "theorems": [
    "C54_add_no_panic",
    "C54_sub_no_panic",
    "C54_arith_no_panic",
    "C54_rem_no_panic",
    "C54_floor_ceil_no_panic",
    "C18_round",
    "C19_int",
    "C19_fract"
   ],
   "note": "Panics are explicit values in the model where the code indexes with computed offsets, unwraps or underflows lengths."
  },
  {
   "property": "C55",
   "status": "proved",
   "theorems": [
    "C55_format_empty_refuted"
   ],
   "note": "Refutation."
  },
  {
   "property": "C56",
   "status": "proved",
   "theorems": [
    "C56_subnormal_remainder_refuted",
    "C13_rem_exact"
   ],
   "note": "Refutation; C13_rem_exact says when the flush happens."
  },
  {
   "property": "C57",
   "status": "proved",
   "theorems": [
    "C57_round_subnormal_refuted"
   ],
   "note": ""
  },
  {
   "property": "C58",
   "status": "proved",
   "theorems": [
    "C58_div_by_inf_refuted"
   ],
   "note": "Refutation, for all finite dividends."
  },
  {
   "property": "C59",
   "status": "proved",
   "theorems": [
    "C59_unaligned_refuted"
   ],
   "note": "Refutation."
  },
  {
   "property": "C60",
   "status": "proved",
   "theorems": [
    "C60_distance_to_one",
    "C60_counts"
   ],
   "note": ""
  },
  {
   "property": "C61",
   "status": "proved",
   "theorems": [
    "C61_powi"
   ],
   "note": "In the nearest modes a result is the rounding of a number close to x^n: the roundability test does not decide ties (C50)."
  },
  {
   "property": "C62",
   "status": "proved",
   "theorems": [
    "C62_negative_infinity_refuted"
   ],
   "note": "Refutation, for all finite v."
  },
  {
   "property": "C63",
   "status": "proved",
   "theorems": [
    "C63_negative_zero_refuted"
   ],
   "note": "Refutation, for all even n."
  },
  {
   "property": "C64",
   "status": "proved",
   "theorems": [
    "C64_leading_zeros_refuted",
    "C64_invariant_refuted"
   ],
   "note": "Refutation."
  },
  {
   "property": "C65",
   "status": "proved",
   "theorems": [
    "C65_far_underflow_refuted"
   ],
   "note": "Refutation."
  },
  {
   "property": "C66",
   "status": "proved",
   "theorems": [
    "C66_auto_subnormal_refuted",
    "C66_auto_zero_refuted"
   ],
   "note": "Refutation."
  },
  {
   "property": "C67",
   "status": "proved",
   "theorems": [
    "C67_exponent_cut_refuted",
    "C67_adjusted_exponent_refuted"
   ],
   "note": "Refutation."
  },
  {
   "property": "C68",
   "status": "proved",
   "theorems": [
    "C68_negative_zero_refuted"
   ],
   "note": "Refutation."
  },
  {
   "property": "C69",
   "status": "proved",
   "theorems": [
    "C69_e"
   ],
   "note": "Caches reached by calls with 0 < p <= P_LIM."
  },
  {
   "property": "C70",
   "status": "proved",
   "theorems": [
    "C70_ln2"
   ],
   "note": "Caches reached by calls with 0 < p <= P_LIM."
  },
  {
   "property": "C71",
   "status": "proved",
   "theorems": [
    "C71_ln10",
    "C71_ln10_working_precision_refuted"
   ],
   "note": "The promised working precision is refuted; the weaker accuracy is proved."
  },
  {
   "property": "C72",
   "status": "partial",
   "theorems": [
    "C72_pi_partial"
   ],
   "note": "The Chudnovsky identity (the value of the series is pi) is not proved; up to 2048 bits it is not needed, see C106."
  },
  {
   "property": "C73",
   "status": "proved",
   "theorems": [
    "C73_output_refuted"
   ],
   "note": "Refutation."
  },
  {
   "property": "C74",
   "status": "proved",
   "theorems": [
    "C74_tie_refuted"
   ],
   "note": "Refutation."
  },
  {
   "property": "C75",
   "status": "proved",
   "theorems": [
    "C75_digits",
    "C75_literal"
   ],
   "note": "Values not below 2^EMIN; smaller ones are outside the statement."
  },
  {
   "property": "C76",
   "status": "proved",
   "theorems": [
    "C76_exact",
    "C76_integer"
   ],
   "note": "Modes other than None; magnitudes up to 2^(EMAX-2)."
  },
  {
   "property": "C77",
   "status": "proved",
   "theorems": [
    "C77_sin",
    "C77_tan",
    "C77_asin",
    "C77_atan",
    "C77_sinh",
    "C77_tanh",
    "C77_asinh",
    "C77_atanh",
    "C77_cos",
    "C77_cosh",
    "C77_exp"
   ],
   "note": "The thresholds are those of the code. Mode None needs an exponent above the minimum for the odd functions."
  },
  {
   "property": "C78",
   "status": "proved",
   "theorems": [
    "C78_odd_at_zero",
    "C78_even_at_zero",
    "C78_acos",
    "C78_acosh",
    "C78_atanh",
    "C78_asin",
    "C78_asin_one",
    "C78_pi_range",
    "C78_ln",
    "C78_log2",
    "C78_log"
   ],
   "note": "The constant halved by asin(1) is the one pi_num delivers (C72)."
  },
  {
   "property": "C79",
   "status": "proved",
   "theorems": [
    "C79_log2_power",
    "C79_log2_one_refuted"
   ],
   "note": "Exponents other than 0 are proved; log2(1) is a zero that breaks the invariant (refutation)."
  },
  {
   "property": "C80",
   "status": "proved",
   "theorems": [
    "C80_tanh_max"
   ],
   "note": ""
  },
  {
   "property": "C81",
   "status": "proved",
   "theorems": [
    "C81_nan",
    "C81_limits",
    "C81_exp",
    "C81_tanh",
    "C81_tanh_refuted",
    "C81_atan_pos",
    "C81_atan_neg_refuted"
   ],
   "note": "The direction of rounding at minus infinity (atan) and tanh below 8 bits are refuted; the rest is proved."
  },
  {
   "property": "C82",
   "status": "proved",
   "theorems": [
    "C82_outside",
    "C82_zero_refuted",
    "C82_base_zero_refuted",
    "C82_negative_refuted",
    "C82_inf_refuted"
   ],
   "note": "Refutation; the domain check of finite operands with a nonzero base is proved."
  },
  {
   "property": "C83",
   "status": "proved",
   "theorems": [
    "C83_minus_zero_refuted",
    "C83_flushed_refuted"
   ],
   "note": "Refutation. Arguments with an exponent above 64 give minus zero in every mode, not marked inexact; e^-1488522236 is a normal number and comes out as zero when rounding up, not marked inexact."
  },
  {
   "property": "C84",
   "status": "proved",
   "theorems": [
    "C84_exp",
    "C84_exp_zero"
   ],
   "note": "Whenever the call returns; the working precision of the last retry is bounded by 2^20 bits. That the retries end is not claimed."
  },
  {
   "property": "C85",
   "status": "proved",
   "theorems": [
    "C85_sinh",
    "C85_sinh_zero"
   ],
   "note": "Whenever the call returns; the working precisions, including those of exp, are bounded by 2^20 bits. Mode None needs an exponent above the minimum. That the retries end is not claimed."
  },
  {
   "property": "C86",
   "status": "proved",
   "theorems": [
    "C86_cosh",
    "C86_cosh_zero"
   ],
   "note": "Whenever the call returns; the working precisions, including those of exp, are bounded by 2^20 bits. That the retries end is not claimed."
  },
  {
   "property": "C87",
   "status": "proved",
   "theorems": [
    "C87_tanh",
    "C87_tanh_zero"
   ],
   "note": "Whenever the call returns; the working precisions, including those of exp, are bounded by 2^20 bits. Mode None needs an exponent above the minimum. That the retries end is not claimed."
  },
  {
   "property": "C88",
   "status": "proved",
   "theorems": [
    "C88_cosh_refuted",
    "C88_sinh_refuted"
   ],
   "note": "Refutation."
  },
  {
   "property": "C89",
   "status": "proved",
   "theorems": [
    "C89_fft_is_product"
   ],
   "note": "For 1024 to 2^26 words together; the FFT on its own is wrong on small operands (C89_small_operands), on which the code does not use it. For 2^32 bits and more the code cuts the size to 32 bits when it chooses the parameters; not covered."
  },
  {
   "property": "C90",
   "status": "proved",
   "theorems": [
    "C90_ln",
    "C90_ln_one",
    "C90_ln_domain"
   ],
   "note": "Whenever the call returns; the working precision of the last retry is bounded by 2^14 bits (the error of the reduction by square roots grows with the precision). That the retries end is not claimed."
  },
  {
   "property": "C91",
   "status": "proved",
   "theorems": [
    "C91_log2",
    "C91_log2_power",
    "C91_log2_domain"
   ],
   "note": "Whenever the call returns; the working precision of the last retry is bounded by 2^14 bits. log2(1) is C79."
  },
  {
   "property": "C92",
   "status": "proved",
   "theorems": [
    "C92_atanh",
    "C92_atanh_zero",
    "C92_atanh_domain"
   ],
   "note": "Whenever the call returns; the working precisions, including those of ln, are bounded by 2^14 bits. Mode None needs an exponent above the minimum. That the retries end is not claimed."
  },
  {
   "property": "C93",
   "status": "proved",
   "theorems": [
    "C93_acosh",
    "C93_acosh_value",
    "C93_acosh_one",
    "C93_acosh_domain"
   ],
   "note": "Whenever the call returns; the working precisions, including those of ln, are bounded by 2^14 bits. That the retries end is not claimed."
  },
  {
   "property": "C94",
   "status": "proved",
   "theorems": [
    "C94_asinh",
    "C94_asinh_zero"
   ],
   "note": "Whenever the call returns; the working precisions, including those of ln, are bounded by 2^14 bits. Mode None needs an exponent above the minimum. That the retries end is not claimed."
  },
  {
   "property": "C95",
   "status": "proved",
   "theorems": [
    "C95_pow",
    "C95_special"
   ],
   "note": "Whenever the call returns; the working precisions, including those of ln and exp, are bounded by 2^14 bits. Exponents n below 2^(EMIN+2^15) in magnitude are outside the statement, their products with ln x underflow."
  },
  {
   "property": "C96",
   "status": "proved",
   "theorems": [
    "C96_exact_hangs_refuted",
    "C96_two_cubed_refuted",
    "C96_flag_refuted"
   ],
   "note": "Refutation."
  },
  {
   "property": "C97",
   "status": "proved",
   "theorems": [
    "C97_log10",
    "C97_log10_one",
    "C97_log10_domain"
   ],
   "note": "Whenever the call returns; the working precisions, including those of ln, are bounded by 2^14 bits. That the retries end is not claimed."
  },
  {
   "property": "C98",
   "status": "proved",
   "theorems": [
    "C98_power_flag_refuted",
    "C98_one_flag_refuted",
    "C98_hundred_refuted"
   ],
   "note": "Refutation."
  },
  {
   "property": "C99",
   "status": "proved",
   "theorems": [
    "C99_log",
    "C99_log_one",
    "C99_log_base_one",
    "C99_log_domain"
   ],
   "note": "Whenever the call returns; the working precisions, including those of ln, pow and exp, are bounded by 2^14 bits. That the retries end is not claimed."
  },
  {
   "property": "C100",
   "status": "proved",
   "theorems": [
    "C100_power_flag_refuted",
    "C100_six_refuted"
   ],
   "note": "Refutation."
  },
  {
   "property": "C101",
   "status": "proved",
   "theorems": [
    "C101_sin",
    "C101_sin_zero"
   ],
   "note": "Whenever the call returns; exponents up to 0; the working precisions are bounded by 2^20 bits. That the retries end is not claimed. C111, C113 and C117 go on to 2^64; nothing is claimed beyond."
  },
  {
   "property": "C102",
   "status": "proved",
   "theorems": [
    "C102_atan",
    "C102_atan_zero"
   ],
   "note": "Whenever the call returns; exponents up to 0; the working precisions are bounded by 2^20 bits. That the retries end is not claimed. The branch for larger arguments, which subtracts from pi/2, is modelled but nothing is claimed about it."
  },
  {
   "property": "C103",
   "status": "proved",
   "theorems": [
    "C103_asin",
    "C103_asin_zero",
    "C103_asin_outside"
   ],
   "note": "Whenever the call returns; magnitudes up to 7/10; the working precisions are bounded by 2^20 bits. That the retries end is not claimed. The branches for larger arguments are modelled, but nothing is claimed about their accuracy: they use pi."
  },
  {
   "property": "C104",
   "status": "proved",
   "theorems": [
    "C104_cos",
    "C104_cos_zero"
   ],
   "note": "Whenever the call returns; exponents up to 0; the working precisions are bounded by 2^15 bits. That the retries end is not claimed. C112, C114 and C118 go on to 2^64; nothing is claimed beyond."
  },
  {
   "property": "C105",
   "status": "proved",
   "theorems": [
    "C105_tan",
    "C105_tan_zero"
   ],
   "note": "Whenever the call returns; exponents up to 0; the working precisions are bounded by 8000 bits, which keeps the common denominators of the two fractions in the exponent range. That the retries end is not claimed. C115, C116 and C119 go on to 2^64; nothing is claimed beyond."
  },
  {
   "property": "C106",
   "status": "proved",
   "theorems": [
    "C106_pi",
    "C106_chudnovsky"
   ],
   "note": "Precisions up to 2048 bits. The Chudnovsky identity is replaced by an evaluation of Machin's formula and of the series in fixed point with proved error bounds."
  },
  {
   "property": "C107",
   "status": "proved",
   "theorems": [
    "C107_atan"
   ],
   "note": "Whenever the call returns; exponents up to 2^21; the working precisions are bounded by 2048 bits, to which pi is known (C106). That the retries end is not claimed."
  },
  {
   "property": "C108",
   "status": "proved",
   "theorems": [
    "C108_acos",
    "C108_acos_one",
    "C108_acos_domain"
   ],
   "note": "Whenever the call returns; nonzero normal arguments up to 7/10 in magnitude, one, and above one; the working precisions are bounded by 2048 bits, to which pi is known (C106). That the retries end is not claimed."
  },
  {
   "property": "C109",
   "status": "proved",
   "theorems": [
    "C109_asin",
    "C109_asin_one"
   ],
   "note": "Whenever the call returns between 7/10 and one; at plus and minus one the call always returns. The working precisions are bounded by 2048 bits, to which pi is known (C106)."
  },
  {
   "property": "C110",
   "status": "proved",
   "theorems": [
    "C110_acos",
    "C110_acos_zero",
    "C110_acos_minus_one"
   ],
   "note": "Whenever the call returns; at a distance of at least 2^-62 from one and minus one, minus one itself, and zero; the working precisions are bounded by 2048 bits, to which pi is known (C106). That the retries end is not claimed."
  },
  {
   "property": "C111",
   "status": "proved",
   "theorems": [
    "C111_sin"
   ],
   "note": "Whenever the call returns; magnitudes from one to below two; the working precisions, with pi 64 bits longer, are bounded by 2048 bits, to which pi is known (C106). That the retries end is not claimed."
  },
  {
   "property": "C112",
   "status": "proved",
   "theorems": [
    "C112_cos"
   ],
   "note": "Whenever the call returns; magnitudes from one to below two, at least 2^-60 away from half of pi; the working precisions, with pi 64 bits longer, are bounded by 2048 bits, to which pi is known (C106). That the retries end is not claimed."
  },
  {
   "property": "C113",
   "status": "proved",
   "theorems": [
    "C113_sin"
   ],
   "note": "Whenever the call returns; magnitudes from two to below four, at least 2^-60 away from pi; the working precisions, with pi 64 bits longer, are bounded by 2048 bits, to which pi is known (C106). That the retries end is not claimed. C117 goes on from four."
  },
  {
   "property": "C114",
   "status": "proved",
   "theorems": [
    "C114_cos"
   ],
   "note": "Whenever the call returns; magnitudes from two to below four, at least 2^-60 away from pi; the working precisions, with pi 64 bits longer, are bounded by 2048 bits, to which pi is known (C106). That the retries end is not claimed. C118 goes on from four."
  },
  {
   "property": "C115",
   "status": "proved",
   "theorems": [
    "C115_tan"
   ],
   "note": "Whenever the call returns; magnitudes from one to below two, at least 2^-60 away from half of pi; the working precisions, with pi 64 bits longer, are bounded by 2048 bits, to which pi is known (C106). That the retries end is not claimed."
  },
  {
   "property": "C116",
   "status": "proved",
   "theorems": [
    "C116_tan"
   ],
   "note": "Whenever the call returns; magnitudes from two to below four, at least 2^-60 away from pi; the working precisions, with pi 64 bits longer, are bounded by 2048 bits, to which pi is known (C106). That the retries end is not claimed. C119 goes on from four."
  },
  {
   "property": "C117",
   "status": "proved",
   "theorems": [
    "C117_sin"
   ],
   "note": "Whenever the call returns; magnitudes from four to below 2^64 with a sine of at least 2^-59 in magnitude; the working precisions are bounded by 1792 bits, which leaves pi, up to 256 bits longer, within the 2048 bits to which it is known (C106). That the retries end is not claimed."
  },
  {
   "property": "C118",
   "status": "proved",
   "theorems": [
    "C118_cos"
   ],
   "note": "Whenever the call returns; magnitudes from four to below 2^64 with a sine and a cosine of at least 2^-59 in magnitude; the working precisions are bounded by 1792 bits, which leaves pi, up to 256 bits longer, within the 2048 bits to which it is known (C106). That the retries end is not claimed."
  },
  {
   "property": "C119",
   "status": "proved",
   "theorems": [
    "C119_tan"
   ],
   "note": "Whenever the call returns; magnitudes from four to below 2^64 with a sine and a cosine of at least 2^-59 in magnitude; the working precisions are bounded by 1792 bits, which leaves pi, up to 256 bits longer, within the 2048 bits to which it is known (C106). That the retries end is not claimed."
  }
 ]
}