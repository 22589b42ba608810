{
 "claims": [
  {
   "property": "C01",
   "status": "proved",
   "theorems": [
    "C01_order_independent",
    "C01_words"
   ],
   "note": ""
  },
  {
   "property": "C02",
   "status": "proved",
   "theorems": [
    "C02_tree_independent",
    "C02_tree_is_sequential",
    "C02_history_independent"
   ],
   "note": "C02_history_independent covers every legal interleaving of all scalar routines on any number of strided accumulators."
  },
  {
   "property": "C03",
   "status": "proved",
   "theorems": [
    "C03_commutative",
    "C03_associative"
   ],
   "note": ""
  },
  {
   "property": "C04",
   "status": "proved",
   "theorems": [
    "C04_slices",
    "C04_slices_of_x"
   ],
   "note": ""
  },
  {
   "property": "C05",
   "status": "proved",
   "theorems": [
    "C05_error",
    "C05_relative"
   ],
   "note": ""
  },
  {
   "property": "C06",
   "status": "proved",
   "theorems": [
    "C06_endurance"
   ],
   "note": ""
  },
  {
   "property": "C07",
   "status": "proved",
   "theorems": [
    "C07_renorm",
    "C07_canonical"
   ],
   "note": ""
  },
  {
   "property": "C08",
   "status": "proved",
   "theorems": [
    "C08_shift",
    "C08_noop",
    "C08_zero",
    "C08_idempotent"
   ],
   "note": ""
  },
  {
   "property": "C09",
   "status": "proved",
   "theorems": [
    "C09_index",
    "C09_zero",
    "C09_range",
    "C09_antitone",
    "C09_dmindex"
   ],
   "note": ""
  },
  {
   "property": "C10",
   "status": "proved",
   "theorems": [
    "C10_bins",
    "C10_bin0",
    "C10_table"
   ],
   "note": ""
  },
  {
   "property": "C11",
   "status": "proved",
   "theorems": [
    "C11_nonfinite",
    "C11_sequential"
   ],
   "note": ""
  },
  {
   "property": "C12",
   "status": "proved",
   "theorems": [
    "C12_conversion",
    "C12_history"
   ],
   "note": ""
  },
  {
   "property": "C13",
   "status": "proved",
   "theorems": [
    "C13_merge_zero",
    "C13_merge_into_zero",
    "C13_add_zero",
    "C13_convert_zero",
    "C13_only_zeros"
   ],
   "note": ""
  },
  {
   "property": "C14",
   "status": "proved",
   "theorems": [
    "C14_set",
    "C14_setzero",
    "C14_negate",
    "C14_cancel"
   ],
   "note": ""
  },
  {
   "property": "C15",
   "status": "proved",
   "theorems": [
    "C15_strided_call",
    "C15_strided_run",
    "C15_strided_convert"
   ],
   "note": "folds >= 2; fold 1 is the subject of C31"
  },
  {
   "property": "C35",
   "status": "proved",
   "theorems": [
    "C35_layout",
    "C35_array"
   ],
   "note": ""
  },
  {
   "property": "C16",
   "status": "proved",
   "theorems": [
    "C16_complex_call",
    "C16_complex_run",
    "C16_deposit",
    "C16_set_real"
   ],
   "note": ""
  },
  {
   "property": "C17",
   "status": "proved",
   "theorems": [
    "C17_order_independent",
    "C17_tree_independent",
    "C17_parts",
    "C17_conversion",
    "C17_history_independent"
   ],
   "note": ""
  },
  {
   "property": "C30",
   "status": "partial",
   "theorems": [
    "C30_unit_stride",
    "C30_refuted"
   ],
   "note": "The property as stated is false of the code: zzmconv_sub/ccmconv_sub pass inccarX + 1 instead of inccarX * 2 for the imaginary carry (C30_refuted gives a concrete witness); it is proved for the contiguous stride used by every zb* entry point."
  },
  {
   "property": "C37",
   "status": "proved",
   "theorems": [
    "C37_unrolled_loop",
    "C37_deposit_kernel",
    "C37_amax_scan"
   ],
   "note": ""
  },
  {
   "property": "C38",
   "status": "proved",
   "theorems": [
    "C38_integer",
    "C38_power_of_two",
    "C38_legal_tuning",
    "C38_space_round_trip",
    "C38_parameter_round_trip",
    "C38_params_pass"
   ],
   "note": ""
  },
  {
   "property": "C18",
   "status": "proved",
   "theorems": [
    "C18_sum_is_adds",
    "C18_sum_on_special",
    "C18_tuning_independent",
    "C18_argument_files"
   ],
   "note": ""
  },
  {
   "property": "C19",
   "status": "proved",
   "theorems": [
    "C19_lanes",
    "C19_kernel"
   ],
   "note": ""
  },
  {
   "property": "C20",
   "status": "proved",
   "theorems": [
    "C20_order_independent",
    "C20_is_scalar_sum"
   ],
   "note": ""
  },
  {
   "property": "C21",
   "status": "proved",
   "theorems": [
    "C21_asum_is_adds",
    "C21_dot_is_adds",
    "C21_rdasum",
    "C21_rddot",
    "C21_dot_permutation"
   ],
   "note": "dbdasum and dbddot (float twins too); the scaled sum of squares is C42"
  },
  {
   "property": "C22",
   "status": "proved",
   "theorems": [
    "C22_pieces",
    "C22_split",
    "C22_tree"
   ],
   "note": ""
  },
  {
   "property": "C28",
   "status": "partial",
   "theorems": [
    "C28_nan",
    "C28_infinity_partial",
    "C28_same_sign",
    "C28_asum",
    "C28_order_refuted"
   ],
   "note": "The property as stated is false of the code (C28_order_refuted: [-MAX,-MAX,+Inf] sums to NaN, [+Inf,-MAX,-MAX] to +Inf). Proved: NaN or infinities of both signs give NaN in every order; one-signed infinities give that infinity or NaN, exactly that infinity if no finite element has the other sign; the absolute sum is order independent for all data."
  },
  {
   "property": "C39",
   "status": "proved",
   "theorems": [
    "C39_amax",
    "C39_amaxm",
    "C39_order_independent",
    "C39_nan_not_forgotten",
    "C39_scan_forgets_nan_refuted"
   ],
   "note": "A NaN can be dropped by the scan itself (C39_scan_forgets_nan_refuted) but never by a reduction using it (C39_nan_not_forgotten)."
  },
  {
   "property": "C23",
   "status": "proved",
   "theorems": [
    "C23_gemv_is_adds",
    "C23_alpha_zero",
    "C23_independent",
    "C23_argument_files"
   ],
   "note": ""
  },
  {
   "property": "C24",
   "status": "proved",
   "theorems": [
    "C24_gemm_is_adds",
    "C24_alpha_zero",
    "C24_independent",
    "C24_argument_files"
   ],
   "note": ""
  },
  {
   "property": "C25",
   "status": "proved",
   "theorems": [
    "C25_gemv",
    "C25_gemv_empty",
    "C25_gemm",
    "C25_gemm_empty"
   ],
   "note": ""
  },
  {
   "property": "C26",
   "status": "proved",
   "theorems": [
    "C26_schedule_independent",
    "C26_is_sequential",
    "C26_operator",
    "C26_operator_maxfold_refuted"
   ],
   "note": "Every reduction schedule over every set of ranks and array length. The operator constructor has no case for fold = MAXFOLD (C26_operator_maxfold_refuted)."
  },
  {
   "property": "C41",
   "status": "partial",
   "theorems": [
    "C41_float",
    "C41_double_refuted"
   ],
   "note": "True of the single precision operator (C41_float); false of the double precision one, which calls the real routine on complex accumulators (C41_double_refuted)."
  },
  {
   "property": "C42",
   "status": "proved",
   "theorems": [
    "C42_ssq_is_adds",
    "C42_ssq_permutation",
    "C42_ssq_pieces",
    "C42_ssq_nonfinite",
    "C42_rdnrm2",
    "C42_rdnrm2_nonfinite",
    "C42_rdnrm2_empty",
    "C42_ssq_large_fold_refuted"
   ],
   "note": "folds 2..22 (float 2..6); beyond that the statement is false at least from fold 13 on for float (C42_ssq_large_fold_refuted); float folds 7..12 and double folds above 22 are not settled"
  },
  {
   "property": "C43",
   "status": "partial",
   "theorems": [
    "C43_merge",
    "C43_tree",
    "C43_distributed_norm",
    "C43_nan",
    "C43_inf_partial",
    "C43_inf_refuted"
   ],
   "note": "Everything but the last clause is proved; an infinity becomes NaN when the squared ratio of the two scales overflows (C43_inf_refuted), C43_inf_partial is the statement with that hypothesis."
  },
  {
   "property": "C27",
   "status": "partial",
   "theorems": [
    "C27_larger_scale_kept_partial",
    "C27_refuted"
   ],
   "note": "The property is false of the code: the operator discards the new scale (C27_refuted). Proved when no incoming scale exceeds the stored one."
  },
  {
   "property": "C31",
   "status": "partial",
   "theorems": [
    "C31_two_and_up_partial",
    "C31_fold_one_refuted",
    "C31_fold_one_value_refuted"
   ],
   "note": "True for folds from 2 on, in every state; false for fold 1, which the interface does not exclude."
  },
  {
   "property": "C32",
   "status": "proved",
   "theorems": [
    "C32_power_of_two",
    "C32_bracket",
    "C32_documented_bound",
    "C32_documented_bound_refuted",
    "C32_monotone"
   ],
   "note": "the documented lower bound holds exactly for |X| above 2^-1054 (float 2^-142)"
  },
  {
   "property": "C33",
   "status": "proved",
   "theorems": [
    "C33_rescale",
    "C33_overflow_refuted"
   ],
   "note": "C33_overflow_refuted: the hypothesis on (X/s)^2 is needed"
  },
  {
   "property": "C34",
   "status": "partial",
   "theorems": [
    "C34_ufpf",
    "C34_ufp_partial",
    "C34_ufp_refuted",
    "C34_ufpf_subnormal_refuted"
   ],
   "note": "False for doubles outside the range of float (the helper returns float) and for subnormals; proved otherwise."
  },
  {
   "property": "C36",
   "status": "proved",
   "theorems": [
    "C36_accumulator",
    "C36_round_trip",
    "C36_zero",
    "C36_special",
    "C36_three_bins",
    "C36_tiny_refuted"
   ],
   "note": "round trip exactly when the last bin reaches the last bit (always for three bins above the clamped range); C36_tiny_refuted shows the condition is needed"
  },
  {
   "property": "C44",
   "status": "proved",
   "theorems": [
    "C44_conversion",
    "C44_sum",
    "C44_rdsum"
   ],
   "note": ""
  },
  {
   "property": "C45",
   "status": "partial",
   "theorems": [
    "C45_double_partial",
    "C45_float_partial",
    "C45_tiny_refuted",
    "C45_large_fold_refuted"
   ],
   "note": "Proved for double folds 2..27 and N < 2^31, float folds 2..21 and N <= 2^24 (the float bound may be +Inf), as long as the last bin exists (k+fold-1 <= jmax) and the sum fits the format. False for data so small that the last bins are missing and for double folds from 28 on (the _refuted theorems)."
  },
  {
   "property": "C46",
   "status": "proved",
   "theorems": [
    "C46_sum_is_adds",
    "C46_rzsum",
    "C46_order_independent"
   ],
   "note": "a part with infinities or NaN gives their sum or NaN (the vector routines may turn an infinity into NaN, see C28)"
  },
  {
   "property": "C29",
   "status": "partial",
   "theorems": [
    "C29_dotc_partial",
    "C29_dotu_partial",
    "C29_rzdotc_partial",
    "C29_rzdotu_partial",
    "C29_order_independent_partial",
    "C29_refuted"
   ],
   "note": "False with the committed block sizes: a block of ENDURANCE complex pairs makes 2*ENDURANCE deposits without renormalisation (C29_refuted, negative result from positive products). Proved when no block holds more than ENDURANCE/2 pairs: tuned block size or N at most ENDURANCE/2."
  },
  {
   "property": "C40",
   "status": "partial",
   "theorems": [
    "C40_gemv_is_adds_partial",
    "C40_alpha_zero",
    "C40_independent_partial",
    "C40_rzgemv_partial",
    "C40_rzgemv_empty",
    "C40_refuted",
    "C40_reads_beyond_refuted"
   ],
   "note": "False for column major conjugate transposes with M <> N: the dot products have length MIN(X_BLOCK, N - j) instead of M - j (C40_refuted: terms missing when M > N; C40_reads_beyond_refuted: reads past A and x when M < N). Proved for every other call whose dot products have at most ENDURANCE/2 elements (see C29)."
  },
  {
   "property": "C47",
   "status": "partial",
   "theorems": [
    "C47_gemm_is_adds_partial",
    "C47_alpha_zero",
    "C47_independent_partial",
    "C47_rzgemm_partial",
    "C47_rzgemm_empty",
    "C47_refuted"
   ],
   "note": "False for column major with A transposed or conjugate transposed and alpha <> 1: both terms of the imaginary part of alpha * a use alpha[1] (C47_refuted). Proved for every other call whose dot products have at most ENDURANCE/2 elements (see C29)."
  },
  {
   "property": "C48",
   "status": "proved",
   "theorems": [
    "C48_asum_is_adds",
    "C48_permutation",
    "C48_rdzasum",
    "C48_order_independent",
    "C48_nonfinite"
   ],
   "note": ""
  },
  {
   "property": "C49",
   "status": "proved",
   "theorems": [
    "C49_ssq_is_adds",
    "C49_ssq_accumulates",
    "C49_ssq_permutation",
    "C49_ssq_is_real",
    "C49_ssq_nonfinite",
    "C49_rdznrm2",
    "C49_order_independent",
    "C49_rdznrm2_nonfinite"
   ],
   "note": ""
  },
  {
   "property": "C50",
   "status": "partial",
   "theorems": [
    "C50_nan_partial",
    "C50_inf_refuted"
   ],
   "note": "The NaN clause is proved; an infinity can become NaN depending on the block size (C50_inf_refuted), because the final merge divides the infinite word by an overflowed factor."
  },
  {
   "property": "C51",
   "status": "partial",
   "theorems": [
    "C51_rescale_partial",
    "C51_refuted",
    "C51_underflow_refuted"
   ],
   "note": "False: the test reads priY[i*incpriY] instead of word i (C51_refuted: wrong value; C51_underflow_refuted: words left zero). Proved when no word is rescaled to zero. Inside dmzssq the routine is harmless (C49)."
  },
  {
   "property": "C52",
   "status": "proved",
   "theorems": [
    "C52_registry",
    "C52_element_size",
    "C52_operator_cases_refuted"
   ],
   "note": "the operator getters have no case for folds 0, 1 and MAXFOLD although their tables do (C52_operator_cases_refuted)"
  },
  {
   "property": "C53",
   "status": "proved",
   "theorems": [
    "C53_sum",
    "C53_dot",
    "C53_nrm2",
    "C53_complex",
    "C53_values",
    "C53_complex_values",
    "C53_dzasum",
    "C53_gemv",
    "C53_gemm",
    "C53_zgemv",
    "C53_zgemm"
   ],
   "note": "the hypotheses of the complex theorems are those of C29, C40 and C47 (Example C53_case; C29_case, C40_case, C46_case, C47_case, C48_case)"
  },
  {
   "property": "C54",
   "status": "proved",
   "theorems": [
    "C54_gemv_is_dot",
    "C54_gemm_is_dot",
    "C54_asum_is_sum",
    "C54_dot_ones",
    "C54_zsum_parts",
    "C54_zasum_is_asum"
   ],
   "note": ""
  },
  {
   "property": "C55",
   "status": "proved",
   "theorems": [
    "C55_sum",
    "C55_dsum",
    "C55_ssum",
    "C55_asum",
    "C55_dasum",
    "C55_dot",
    "C55_gemv",
    "C55_gemm"
   ],
   "note": ""
  },
  {
   "property": "C56",
   "status": "proved",
   "theorems": [
    "C56_nrm2",
    "C56_dnrm2",
    "C56_snrm2",
    "C56_znrm2"
   ],
   "note": ""
  },
  {
   "property": "C57",
   "status": "proved",
   "theorems": [
    "C57_shuffle",
    "C57_sum_sine",
    "C57_mpi_sum_sine"
   ],
   "note": ""
  },
  {
   "property": "C58",
   "status": "proved",
   "theorems": [
    "C58_threads",
    "C58_interleavings",
    "C58_parallel_sum"
   ],
   "note": ""
  },
  {
   "property": "C59",
   "status": "proved",
   "theorems": [
    "C59_deposits",
    "C59_is_kernel_model",
    "C59_no_uninitialised_reads",
    "C59_argument_files"
   ],
   "note": "emitted instructions with a lane-by-lane semantics; complex kernels by equality with the kernel models of C46-C50"
  },
  {
   "property": "C60",
   "status": "proved",
   "theorems": [
    "C60_amax",
    "C60_amaxm",
    "C60_is_scan_model"
   ],
   "note": ""
  },
  {
   "property": "C61",
   "status": "proved",
   "theorems": [
    "C61_real",
    "C61_is_scalar_sum",
    "C61_complex",
    "C61_complex_magnitudes"
   ],
   "note": ""
  },
  {
   "property": "C62",
   "status": "proved",
   "theorems": [
    "C62_deposit",
    "C62_scan"
   ],
   "note": "accesses of the emitted statements; 1 <= fold <= MAXFOLD"
  },
  {
   "property": "C63",
   "status": "proved",
   "theorems": [
    "C63_is_gemv_model",
    "C63_gemv",
    "C63_gemm"
   ],
   "note": ""
  },
  {
   "property": "C64",
   "status": "partial",
   "theorems": [
    "C64_is_gemv_model",
    "C64_gemv_partial",
    "C64_gemm_partial",
    "C64_refuted"
   ],
   "note": "false as stated (C64_refuted); proved with the exceptions of C29, C40, C47 as hypotheses"
  },
  {
   "property": "C65",
   "status": "proved",
   "theorems": [
    "C65_cluster"
   ],
   "note": "real sum, absolute sum, dot product"
  },
  {
   "property": "C66",
   "status": "partial",
   "theorems": [
    "C66_print",
    "C66_print_complex",
    "C66_float_exact",
    "C66_double_range_refuted",
    "C66_print_refuted",
    "C66_stride_refuted"
   ],
   "note": "True for every float accumulator and for double bins 23..29; refuted for every other double bin (C66_double_range_refuted is for all contents), for empty accumulators, for the scale of bin 0. %g formatting not modelled."
  },
  {
   "property": "C67",
   "status": "proved",
   "theorems": [
    "C67_self_merge",
    "C67_self_merge_complex",
    "C67_self_copy",
    "C67_vector",
    "C67_vector_self",
    "C67_vector_reduce",
    "C67_vector_complex"
   ],
   "note": "Case: C67_case. Partially overlapping source and target elements are excluded."
  },
  {
   "property": "C68",
   "status": "proved",
   "theorems": [
    "C68_deposits",
    "C68_ieee",
    "C68_daz_ftz",
    "C68_test",
    "C68_test_complex"
   ],
   "note": "Cases: C68_case, C68_needed (the words can differ when the test answers 1). The scalar deposit is covered; the emitted kernels of this commit never set the mode (the call is commented out)."
  },
  {
   "property": "C69",
   "status": "proved",
   "theorems": [
    "C69_cancel_accumulator",
    "C69_cancel"
   ],
   "note": "Case: C69_cancel_case."
  },
  {
   "property": "C70",
   "status": "partial",
   "theorems": [
    "C70_accumulator",
    "C70_near",
    "C70_partial",
    "C70_float_partial",
    "C70_refuted"
   ],
   "note": "The returned sum is not odd in general (C70_refuted: three doubles, fold 3). Proved: bins exactly negated, results within two conversion errors, exactly negated when the sum is below 2^53(1-2^-10) units of the last bin; float folds 2, 3 with N <= 2^14 always qualify. Case: C70_case."
  },
  {
   "property": "C71",
   "status": "proved",
   "theorems": [
    "C71_accumulator",
    "C71_sum",
    "C71_other_factors_refuted"
   ],
   "note": "Cases: C71_case, scaled_fmul (multiplying by the power of two meets the hypothesis)."
  },
  {
   "property": "C72",
   "status": "proved",
   "theorems": [
    "C72_capacity",
    "C72_complex_products",
    "C72_two_calls_refuted",
    "C72_nonpositive",
    "C72_rdsum",
    "C72_rdasum",
    "C72_rddot",
    "C72_rdnrm2"
   ],
   "note": "Case: C72_case."
  },
  {
   "property": "C73",
   "status": "proved",
   "theorems": [
    "C73_sum",
    "C73_sum_integers",
    "C73_asum_integers",
    "C73_dot_integers",
    "C73_gemv_integers",
    "C73_gemm_integers"
   ],
   "note": "Cases: C73_sum_case, C73_integers_case, C73_gemm_case."
  },
  {
   "property": "C74",
   "status": "proved",
   "theorems": [
    "C74_accumulator",
    "C74_sum",
    "C74_asum",
    "C74_dot",
    "C74_nrm2",
    "C74_zsum",
    "C74_gemm"
   ],
   "note": "Case: C74_case. nonzeros is a filter on feq x 0."
  },
  {
   "property": "C75",
   "status": "proved",
   "theorems": [
    "C75_sum",
    "C75_asum",
    "C75_dot",
    "C75_nrm2",
    "C75_zero",
    "C75_signs",
    "C75_tiny_refuted"
   ],
   "note": "Cases: C75_case, C56_case. The tiny exclusion is part of the statement and C75_tiny_refuted shows it is needed."
  },
  {
   "property": "C76",
   "status": "proved",
   "theorems": [
    "C76_vector",
    "C76_strides",
    "C76_tuning",
    "C76_scan",
    "C76_gemv",
    "C76_gemm",
    "C76_scan_refuted",
    "C76_gemm_refuted"
   ],
   "note": "Cases: C76_case, C76_gemv_case. Real matrix products; complex vectors as well as real ones. The two _refuted theorems show the stated limits are needed."
  },
  {
   "property": "C77",
   "status": "proved",
   "theorems": [
    "C77_dot",
    "C77_accumulator",
    "C77_zdotu",
    "C77_zdotc",
    "C77_gemm",
    "C77_gemv_gemm",
    "C77_zdotc_refuted",
    "C77_alpha_refuted"
   ],
   "note": "Cases: C77_case, C77_gemm_case, C77_gemv_case. The two _refuted theorems show the stated limits are needed."
  },
  {
   "property": "C78",
   "status": "proved",
   "theorems": [
    "C78_accepted",
    "C78_untouched",
    "C78_best",
    "C78_results"
   ],
   "note": "Case: C78_case. OpenTuner is an arbitrary source of proposals within the ranges it is given."
  },
  {
   "property": "C79",
   "status": "proved",
   "theorems": [
    "C79_accumulates",
    "C79_real",
    "C79_bounds",
    "C79_zaccumulates",
    "C79_complex",
    "C79_real_bound",
    "C79_zbounds",
    "C79_bound_needed"
   ],
   "note": "Cases: C79_case, C79_zcase. C79_bound_needed shows a value beyond its bound is lost."
  },
  {
   "property": "C80",
   "status": "proved",
   "theorems": [
    "C80_words",
    "C80_convert",
    "C80_set",
    "C80_merge",
    "C80_sum",
    "C80_zconvert",
    "C80_contiguous_refuted"
   ],
   "note": "Case: C80_case."
  },
  {
   "property": "C81",
   "status": "proved",
   "theorems": [
    "C81_gemm",
    "C81_gemm_merge",
    "C81_gemv"
   ],
   "note": "Cases: C81_case (layouts), C23_case, C24_case. Real products."
  },
  {
   "property": "C82",
   "status": "proved",
   "theorems": [
    "C82_restart",
    "C82_midway",
    "C82_carries_needed"
   ],
   "note": "Case: C82_case. histories are an inductive relation: adds, blocks, foreign writes, copies, crashes"
  },
  {
   "property": "C83",
   "status": "proved",
   "theorems": [
    "C83_gemm",
    "C83_gemv"
   ],
   "note": "Cases: C83_case (reversed inner dimension, exchanged rows), C24_case, C25_case. Real products."
  },
  {
   "property": "C84",
   "status": "proved",
   "theorems": [
    "C84_gemm"
   ],
   "note": "Case: C84_case (three processes, uneven cyclic distribution). Real products."
  },
  {
   "property": "C85",
   "status": "proved",
   "theorems": [
    "C85_real_part",
    "C85_imag_part",
    "C85_self"
   ],
   "note": "Case: C85_case. Blocks of at most half the endurance (C29)."
  },
  {
   "property": "C86",
   "status": "proved",
   "theorems": [
    "C86_sum",
    "C86_dotc",
    "C86_dotu"
   ],
   "note": "Case: C86_case. Dot products: blocks of at most half the endurance (C29)."
  },
  {
   "property": "C87",
   "status": "proved",
   "theorems": [
    "C87_gemm",
    "C87_gemm_merge",
    "C87_gemv"
   ],
   "note": "Case: C87_case (layouts and block conditions). Outside of the exceptions C40, C47, C29, as stated."
  },
  {
   "property": "C88",
   "status": "proved",
   "theorems": [
    "C88_gemm",
    "C88_gemv"
   ],
   "note": "Case: C88_case (reversed inner dimension, exchanged rows, conjugate transpose against a conjugated matrix)."
  },
  {
   "property": "C89",
   "status": "proved",
   "theorems": [
    "C89_gemm"
   ],
   "note": "Case: C89_case (three processes, uneven cyclic distribution), C89_case_value. Single precision (C41)."
  },
  {
   "property": "C90",
   "status": "proved",
   "theorems": [
    "C90_zsum",
    "C90_zdotc",
    "C90_zdotu",
    "C90_dzasum"
   ],
   "note": "Case: C90_case. Inner products for blocks of at most ENDURANCE/2 elements (C29)."
  },
  {
   "property": "C91",
   "status": "proved",
   "theorems": [
    "C91_nrm2",
    "C91_znrm2",
    "C91_turned_norm",
    "C91_turned_asum",
    "C91_turned_self"
   ],
   "note": "Case: C91_case."
  },
  {
   "property": "C92",
   "status": "proved",
   "theorems": [
    "C92_gemm_is_dot",
    "C92_gemm_accurate",
    "C92_gemm_integers",
    "C92_gemv_is_dot",
    "C92_gemv_accurate",
    "C92_gemv_integers"
   ],
   "note": "Case: C92_case. Blocks of at most half the endurance (C29); gemv calls of right length (C40). Both operands conjugated: no equality is claimed (the imaginary part is a sum of negated terms, cf. C70)."
  },
  {
   "property": "C93",
   "status": "proved",
   "theorems": [
    "C93_gemm",
    "C93_gemv",
    "C93_zgemm",
    "C93_zgemv"
   ],
   "note": "Case: C93_case. The complex theorems take alpha * op(A)_ik and beta * c_ij as computed; blocks of at most half the endurance (C29), calls within C40 and C47."
  },
  {
   "property": "C94",
   "status": "proved",
   "theorems": [
    "C94_gemm",
    "C94_gemv"
   ],
   "note": "Case: C94_case. Blocks of at most half the endurance (C29), calls within C40 and C47."
  },
  {
   "property": "C95",
   "status": "proved",
   "theorems": [
    "C95_dot",
    "C95_gemv",
    "C95_gemm"
   ],
   "note": "Cases: C95_case, C95_gemv_case. No product underflows, the sums stay in range (converts), alpha 1 and beta 0 for the matrix products."
  },
  {
   "property": "C96",
   "status": "proved",
   "theorems": [
    "C96_dotu",
    "C96_dotc",
    "C96_gemv",
    "C96_gemm"
   ],
   "note": "Case: C96_case. No product underflows, the sums stay in range (zconverts), alpha 1 and beta 0 for the matrix products, blocks of at most half the endurance (C29), calls within C40 and C47."
  },
  {
   "property": "C97",
   "status": "proved",
   "theorems": [
    "C97_nrm2",
    "C97_znrm2"
   ],
   "note": "Case: C97_case. Folds up to ssq_fold, the largest magnitude not tiny and not moved across 1, norms normal and finite (see the quantifier)."
  },
  {
   "property": "C98",
   "status": "proved",
   "theorems": [
    "C98_asum",
    "C98_zasum",
    "C98_zsum"
   ],
   "note": "Case: C98_case. Leading bins exist and no overflow (see the quantifier)."
  },
  {
   "property": "C99",
   "status": "proved",
   "theorems": [
    "C99_sum",
    "C99_dot",
    "C99_nrm2",
    "C99_complex"
   ],
   "note": "Case: C99_case. Leading bins exist and no overflow (see the quantifier)."
  }
 ]
}