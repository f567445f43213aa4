# claim(id, status, theorem names, note)
claim("C01", "proved", "C01_add_correctly_rounded", "Zero operands and zero sums included; subnormal results are C09/C10, overflow is C08.")
claim("C02", "proved", "C02_sub_correctly_rounded")
claim("C03", "proved", "C03_mul_correctly_rounded", "All multiplication algorithms including the FFT are modelled; products of 2^26 words (2^32 bits) and more are multiplied by schoolbook in the model instead of FFT.")
claim("C04", "proved", "C04_div_correctly_rounded C04_div_by_zero")
claim("C05", "proved", "C05_sqrt_correctly_rounded C05_sqrt_total")
claim("C06", "proved", "C06_cbrt_correctly_rounded C06_cbrt_total")
claim("C07", "proved", "C07_add_inexact C07_sub_inexact C07_mul_inexact C07_div_inexact C07_sqrt_inexact C07_cbrt_inexact", "A marked zero operand does not mark a product or quotient; the statements say so.")
claim("C08", "proved", "C08_add_overflow C08_sub_overflow C08_mul_overflow C08_div_overflow")
claim("C09", "proved", "C09_add_directed C09_sub_directed C09_mul_directed C09_div_directed")
claim("C10", "proved", "C10_nearest_subnormal_refuted C10_add_two_roundings C10_mul_two_roundings C10_div_two_roundings", "Refutation of single rounding plus the characterisation of what is computed.")
claim("C11", "proved", "C11_add_full_exact C11_mul_full_exact")
claim("C12", "proved", "C12_full_prec_zero_refuted", "Refutation, for all operands.")
claim("C14", "proved", "C14_cmp_nonzero C14_abs_cmp_nonzero")
claim("C15", "proved", "C15_cmp_zero_refuted C15_cmp_zero_when_large C15_cmp_zero_left", "Refutation for all small x, and the range where the claim holds.")
claim("C17", "proved", "C17_set_precision C17_set_precision_extends", "Mode None cuts whole words only, hence the side condition for that mode.")
claim("C28", "proved", "C28_add_comm C28_mul_comm")
claim("C29", "proved", "C29_add_monotone C29_sub_monotone C29_mul_monotone")
claim("C36", "proved", "C36_reciprocal C36_reciprocal_zero")
claim("C42", "proved", "C42_multiplication_is_product", "Schoolbook, Toom-2, Toom-3, balancing and FFT (C89); products of 2^26 words and more are modelled by schoolbook instead of FFT.")
claim("C43", "proved", "C43_division_quotient_remainder")
claim("C44", "proved", "C44_sqrt_remainder C44_cbrt_remainder", "Top word nonzero; cube root for lengths divisible by three, as the callers arrange.")
claim("C13", "proved", "C13_rem_exact C13_rem_real_characterised C13_rem_by_zero", "Remainders in the subnormal range are C56.")
claim("C16", "proved", "C16_add_wf C16_sub_wf C16_mul_wf C16_div_wf C16_reciprocal_wf C16_sqrt_wf C16_cbrt_wf C16_set_precision_wf C16_round_wf C16_rem_wf C16_mode_none_refuted C19_int C19_fract C19_floor C19_ceil C20_unsigned C20_signed C20_u128 C20_i128 C20_word C21_f64_normal_exact C22_f64_subnormal_half C23_raw_accepts_exactly C24_from_words C34_set_exponent C35_max_min_value C35_min_positive C35_min_positive_normal", "Mode None with a zero operand or in set_precision is excluded and refuted (C16_mode_none_refuted).")
claim("C18", "proved", "C18_round C18_round_limit")
claim("C19", "proved", "C19_int C19_fract C19_floor C19_ceil C19_is_int")
claim("C20", "proved", "C20_unsigned C20_signed C20_u128 C20_i128 C20_word")
claim("C21", "proved", "C21_f64_normal_exact C21_f64_special C21_f64_zero")
claim("C22", "proved", "C22_f64_subnormal_half C22_f64_subnormal_refuted", "Refutation, for all subnormal doubles.")
claim("C23", "proved", "C23_raw_round_trip C23_raw_accepts_exactly")
claim("C24", "proved", "C24_from_words")
claim("C34", "proved", "C34_set_exponent")
claim("C35", "proved", "C35_max_min_value C35_min_positive C35_min_positive_normal")
claim("C54", "proved", "C54_add_no_panic C54_sub_no_panic C54_arith_no_panic C54_rem_no_panic C54_floor_ceil_no_panic C18_round C19_int C19_fract", "Panics are explicit values in the model where the code indexes with computed offsets, unwraps or underflows lengths.")
claim("C56", "proved", "C56_subnormal_remainder_refuted C13_rem_exact", "Refutation; C13_rem_exact says when the flush happens.")
claim("C57", "proved", "C57_round_subnormal_refuted")
claim("C25", "proved", "C25_neg C25_abs C25_set_sign C25_bigfloat")
claim("C26", "proved", "C26_add_table C26_sub_table C26_mul_table C26_div_table C26_rem_table C26_sqrt_table C26_div_by_inf C26_rem_by_inf C26_nan_left C26_nan_right", "The sign and precision of finite/inf are C58.")
claim("C27", "proved", "C27_result_mapping C27_add C27_sub C27_mul C27_div C27_reciprocal C26_div_table", "Mode None with a zero operand is excluded for sums (see C16_mode_none_refuted).")
claim("C30", "proved", "C30_eq_iff_cmp_zero C30_partial_cmp_is_cmp C30_nan_unordered C30_order_of_values C30_eq_is_equality_of_values C30_total C30_transitive C30_antisymmetric C30_reversed")
claim("C31", "proved", "C31_max C31_min C31_clamp C31_nan")
claim("C32", "proved", "C32_abs_cmp_refuted C32_abs_cmp_positive C32_abs_cmp_special", "Refutation for every pair of negative values, plus the cases where the claim holds.")
claim("C33", "proved", "C33_classify_zero_refuted C33_signum_zero_refuted C33_classify_nonzero C33_classify_special C33_signum_nonzero C33_signum_inf", "Refutation for zero, and the claim for nonzero values.")
claim("C58", "proved", "C58_div_by_inf_refuted", "Refutation, for all finite dividends.")
claim("C49", "proved", "C49_directed_sound C49_accepts", "Error bounds that are whole words (the code's debug assertion); other bounds are C59.")
claim("C50", "proved", "C50_nearest_refuted C50_nearest_sound_all_words C50_accepts", "Refutation, and soundness in the case where all words are correct.")
claim("C59", "proved", "C59_unaligned_refuted", "Refutation.")
claim("C45", "proved", "C45_range_invariant C45_fields C45_clone C45_tuples", "A clone gets a fresh constant cache, as in the code; all other fields are equal.")
claim("C46", "proved", "C46_exponent_range", "The zero returned below emin is positive whatever the sign of the argument, as in the code.")
claim("C60", "proved", "C60_distance_to_one C60_counts")
claim("C47", "proved", "C47_exponent_zero C47_exponent_one C47_base_zero C47_base_inf C47_nan C47_exact", "n = 0, n = 1, zero, infinities, NaN, and exactness when the flag is clear. The sign of an even power of -0 is C63; n >= 2 is C61.")
claim("C48", "proved", "C48_exponent_zero C48_base_zero C48_base_unit C48_negative_base C48_exponent_one C48_exponent_minus_one C48_sign C48_odd_int C48_base_inf C48_inf_inf C48_nan C48_exponent_inf", "For every possible result of the transcendental part (the argument general). pow(v, -inf) is C62.")
claim("C61", "proved", "C61_powi", "In the nearest modes a result is the rounding of a number close to x^n: the roundability test does not decide ties (C50).")
claim("C62", "proved", "C62_negative_infinity_refuted", "Refutation, for all finite v.")
claim("C63", "proved", "C63_negative_zero_refuted", "Refutation, for all even n.")
claim("C37", "proved", "C37_to_digits C37_first_digit")
claim("C38", "proved", "C38_from_digits C38_rejects C38_precision_zero", "Under the conditions in the statement; outside them see C64, C65. The length limits keep word counts below the allocation limit.")
claim("C39", "proved", "C39_round_trip C39_special C39_format", "Numbers with at least one mantissa word (see C55); mode None needs a normal number or zero.")
claim("C40", "proved", "C40_literal C40_same_number C40_total C40_words C40_literal_value", "Exponent fields below 2^32 in magnitude (see C67).")
claim("C41", "proved", "C41_zero_exponent_refuted", "Refutation.")
claim("C55", "proved", "C55_format_empty_refuted", "Refutation.")
claim("C64", "proved", "C64_leading_zeros_refuted C64_invariant_refuted", "Refutation.")
claim("C65", "proved", "C65_far_underflow_refuted", "Refutation.")
claim("C66", "proved", "C66_auto_subnormal_refuted C66_auto_zero_refuted", "Refutation.")
claim("C67", "proved", "C67_exponent_cut_refuted C67_adjusted_exponent_refuted", "Refutation.")
claim("C68", "proved", "C68_negative_zero_refuted", "Refutation.")
claim("C51", "proved", "C51_e_series C51_e_extend", "Index ranges within 0..2^63.")
claim("C52", "proved", "C52_ln2_series C52_ln10_series C52_pi_series C52_extend", "Index ranges within 0..2^55 (ln 2, ln 10) and 0..2^33 (pi), where the u64 leaf arithmetic cannot overflow.")
claim("C69", "proved", "C69_e", "Caches reached by calls with 0 < p <= P_LIM.")
claim("C70", "proved", "C70_ln2", "Caches reached by calls with 0 < p <= P_LIM.")
claim("C71", "proved", "C71_ln10 C71_ln10_working_precision_refuted", "The promised working precision is refuted; the weaker accuracy is proved.")
claim("C72", "partial", "C72_pi_partial", "The Chudnovsky identity (the value of the series is pi) is not proved; up to 2048 bits it is not needed, see C106.")
claim("C53", "proved", "C53_powers C53_from_digits C53_rejects C53_to_digits C53_short C53_round_trip C53_refuted", "The round trip on all word sequences is refuted; the exact condition is proved.")
claim("C73", "proved", "C73_output_refuted", "Refutation.")
claim("C74", "proved", "C74_tie_refuted", "Refutation.")
claim("C75", "proved", "C75_digits C75_literal", "Values not below 2^EMIN; smaller ones are outside the statement.")
claim("C76", "proved", "C76_exact C76_integer", "Modes other than None; magnitudes up to 2^(EMAX-2).")
claim("C77", "proved", "C77_sin C77_tan C77_asin C77_atan C77_sinh C77_tanh C77_asinh C77_atanh C77_cos C77_cosh C77_exp", "The thresholds are those of the code. Mode None needs an exponent above the minimum for the odd functions.")
claim("C78", "proved", "C78_odd_at_zero C78_even_at_zero C78_acos C78_acosh C78_atanh C78_asin C78_asin_one C78_pi_range C78_ln C78_log2 C78_log", "The constant halved by asin(1) is the one pi_num delivers (C72).")
claim("C79", "proved", "C79_log2_power C79_log2_one_refuted", "Exponents other than 0 are proved; log2(1) is a zero that breaks the invariant (refutation).")
claim("C80", "proved", "C80_tanh_max", "")
claim("C81", "proved", "C81_nan C81_limits C81_exp C81_tanh C81_tanh_refuted C81_atan_pos C81_atan_neg_refuted", "The direction of rounding at minus infinity (atan) and tanh below 8 bits are refuted; the rest is proved.")
claim("C82", "proved", "C82_outside C82_zero_refuted C82_base_zero_refuted C82_negative_refuted C82_inf_refuted", "Refutation; the domain check of finite operands with a nonzero base is proved.")
claim("C83", "proved", "C83_minus_zero_refuted C83_flushed_refuted", "Refutation. Arguments with an exponent above 64 give minus zero in every mode, not marked inexact; e^-1488522236 is a normal number and comes out as zero when rounding up, not marked inexact.")
claim("C84", "proved", "C84_exp C84_exp_zero", "Whenever the call returns; the working precision of the last retry is bounded by 2^20 bits. That the retries end is not claimed.")
claim("C85", "proved", "C85_sinh C85_sinh_zero", "Whenever the call returns; the working precisions, including those of exp, are bounded by 2^20 bits. Mode None needs an exponent above the minimum. That the retries end is not claimed.")
claim("C86", "proved", "C86_cosh C86_cosh_zero", "Whenever the call returns; the working precisions, including those of exp, are bounded by 2^20 bits. That the retries end is not claimed.")
claim("C87", "proved", "C87_tanh C87_tanh_zero", "Whenever the call returns; the working precisions, including those of exp, are bounded by 2^20 bits. Mode None needs an exponent above the minimum. That the retries end is not claimed.")
claim("C88", "proved", "C88_cosh_refuted C88_sinh_refuted", "Refutation.")
claim("C89", "proved", "C89_fft_is_product", "For 1024 to 2^26 words together; the FFT on its own is wrong on small operands (C89_small_operands), on which the code does not use it. For 2^32 bits and more the code cuts the size to 32 bits when it chooses the parameters; not covered.")
claim("C90", "proved", "C90_ln C90_ln_one C90_ln_domain", "Whenever the call returns; the working precision of the last retry is bounded by 2^14 bits (the error of the reduction by square roots grows with the precision). That the retries end is not claimed.")
claim("C91", "proved", "C91_log2 C91_log2_power C91_log2_domain", "Whenever the call returns; the working precision of the last retry is bounded by 2^14 bits. log2(1) is C79.")
claim("C92", "proved", "C92_atanh C92_atanh_zero C92_atanh_domain", "Whenever the call returns; the working precisions, including those of ln, are bounded by 2^14 bits. Mode None needs an exponent above the minimum. That the retries end is not claimed.")
claim("C93", "proved", "C93_acosh C93_acosh_value C93_acosh_one C93_acosh_domain", "Whenever the call returns; the working precisions, including those of ln, are bounded by 2^14 bits. That the retries end is not claimed.")
claim("C94", "proved", "C94_asinh C94_asinh_zero", "Whenever the call returns; the working precisions, including those of ln, are bounded by 2^14 bits. Mode None needs an exponent above the minimum. That the retries end is not claimed.")
claim("C95", "proved", "C95_pow C95_special", "Whenever the call returns; the working precisions, including those of ln and exp, are bounded by 2^14 bits. Exponents n below 2^(EMIN+2^15) in magnitude are outside the statement, their products with ln x underflow.")
claim("C96", "proved", "C96_exact_hangs_refuted C96_two_cubed_refuted C96_flag_refuted", "Refutation.")
claim("C97", "proved", "C97_log10 C97_log10_one C97_log10_domain", "Whenever the call returns; the working precisions, including those of ln, are bounded by 2^14 bits. That the retries end is not claimed.")
claim("C98", "proved", "C98_power_flag_refuted C98_one_flag_refuted C98_hundred_refuted", "Refutation.")
claim("C99", "proved", "C99_log C99_log_one C99_log_base_one C99_log_domain", "Whenever the call returns; the working precisions, including those of ln, pow and exp, are bounded by 2^14 bits. That the retries end is not claimed.")
claim("C100", "proved", "C100_power_flag_refuted C100_six_refuted", "Refutation.")
claim("C101", "proved", "C101_sin C101_sin_zero", "Whenever the call returns; exponents up to 0; the working precisions are bounded by 2^20 bits. That the retries end is not claimed. C111, C113 and C117 go on to 2^64; nothing is claimed beyond.")
claim("C102", "proved", "C102_atan C102_atan_zero", "Whenever the call returns; exponents up to 0; the working precisions are bounded by 2^20 bits. That the retries end is not claimed. The branch for larger arguments, which subtracts from pi/2, is modelled but nothing is claimed about it.")
claim("C103", "proved", "C103_asin C103_asin_zero C103_asin_outside", "Whenever the call returns; magnitudes up to 7/10; the working precisions are bounded by 2^20 bits. That the retries end is not claimed. The branches for larger arguments are modelled, but nothing is claimed about their accuracy: they use pi.")
claim("C104", "proved", "C104_cos C104_cos_zero", "Whenever the call returns; exponents up to 0; the working precisions are bounded by 2^15 bits. That the retries end is not claimed. C112, C114 and C118 go on to 2^64; nothing is claimed beyond.")
claim("C105", "proved", "C105_tan C105_tan_zero", "Whenever the call returns; exponents up to 0; the working precisions are bounded by 8000 bits, which keeps the common denominators of the two fractions in the exponent range. That the retries end is not claimed. C115, C116 and C119 go on to 2^64; nothing is claimed beyond.")
claim("C106", "proved", "C106_pi C106_chudnovsky", "Precisions up to 2048 bits. The Chudnovsky identity is replaced by an evaluation of Machin's formula and of the series in fixed point with proved error bounds.")
claim("C107", "proved", "C107_atan", "Whenever the call returns; exponents up to 2^21; the working precisions are bounded by 2048 bits, to which pi is known (C106). That the retries end is not claimed.")
claim("C108", "proved", "C108_acos C108_acos_one C108_acos_domain", "Whenever the call returns; nonzero normal arguments up to 7/10 in magnitude, one, and above one; the working precisions are bounded by 2048 bits, to which pi is known (C106). That the retries end is not claimed.")
claim("C109", "proved", "C109_asin C109_asin_one", "Whenever the call returns between 7/10 and one; at plus and minus one the call always returns. The working precisions are bounded by 2048 bits, to which pi is known (C106).")
claim("C110", "proved", "C110_acos C110_acos_zero C110_acos_minus_one", "Whenever the call returns; at a distance of at least 2^-62 from one and minus one, minus one itself, and zero; the working precisions are bounded by 2048 bits, to which pi is known (C106). That the retries end is not claimed.")
claim("C111", "proved", "C111_sin", "Whenever the call returns; magnitudes from one to below two; the working precisions, with pi 64 bits longer, are bounded by 2048 bits, to which pi is known (C106). That the retries end is not claimed.")
claim("C112", "proved", "C112_cos", "Whenever the call returns; magnitudes from one to below two, at least 2^-60 away from half of pi; the working precisions, with pi 64 bits longer, are bounded by 2048 bits, to which pi is known (C106). That the retries end is not claimed.")
claim("C113", "proved", "C113_sin", "Whenever the call returns; magnitudes from two to below four, at least 2^-60 away from pi; the working precisions, with pi 64 bits longer, are bounded by 2048 bits, to which pi is known (C106). That the retries end is not claimed. C117 goes on from four.")
claim("C114", "proved", "C114_cos", "Whenever the call returns; magnitudes from two to below four, at least 2^-60 away from pi; the working precisions, with pi 64 bits longer, are bounded by 2048 bits, to which pi is known (C106). That the retries end is not claimed. C118 goes on from four.")
claim("C115", "proved", "C115_tan", "Whenever the call returns; magnitudes from one to below two, at least 2^-60 away from half of pi; the working precisions, with pi 64 bits longer, are bounded by 2048 bits, to which pi is known (C106). That the retries end is not claimed.")
claim("C116", "proved", "C116_tan", "Whenever the call returns; magnitudes from two to below four, at least 2^-60 away from pi; the working precisions, with pi 64 bits longer, are bounded by 2048 bits, to which pi is known (C106). That the retries end is not claimed. C119 goes on from four.")
claim("C117", "proved", "C117_sin", "Whenever the call returns; magnitudes from four to below 2^64 with a sine of at least 2^-59 in magnitude; the working precisions are bounded by 1792 bits, which leaves pi, up to 256 bits longer, within the 2048 bits to which it is known (C106). That the retries end is not claimed.")
claim("C118", "proved", "C118_cos", "Whenever the call returns; magnitudes from four to below 2^64 with a sine and a cosine of at least 2^-59 in magnitude; the working precisions are bounded by 1792 bits, which leaves pi, up to 256 bits longer, within the 2048 bits to which it is known (C106). That the retries end is not claimed.")
claim("C119", "proved", "C119_tan", "Whenever the call returns; magnitudes from four to below 2^64 with a sine and a cosine of at least 2^-59 in magnitude; the working precisions are bounded by 1792 bits, which leaves pi, up to 256 bits longer, within the 2048 bits to which it is known (C106). That the retries end is not claimed.")
