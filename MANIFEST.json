{
 "claims": [
  {
   "property": "C01",
   "status": "proved",
   "theorems": [
    "C01_ecdf2_direct_exact"
   ],
   "note": "Exact arithmetic (reals with infinities and NaN). Hypothesis sort_ok: std::sort meets its contract. With live assertions the excluded inputs abort (C18)."
  },
  {
   "property": "C02",
   "status": "proved",
   "theorems": [
    "C02_ecdf2_fft_exact"
   ],
   "note": "Exact arithmetic (reals with infinities and NaN). Hypotheses sort_ok and fft_ok (FFTW computes the DFT)."
  },
  {
   "property": "C03",
   "status": "proved",
   "theorems": [
    "C03_ecdf1_new_B_exact"
   ],
   "note": "Exact arithmetic (reals with infinities and NaN). Hypothesis fft_ok; n fits in an int."
  },
  {
   "property": "C04",
   "status": "proved",
   "theorems": [
    "C04_ecdf1_new_b_exact"
   ],
   "note": "Exact arithmetic (reals with infinities and NaN). Hypothesis fft_ok; n fits in an int."
  },
  {
   "property": "C05",
   "status": "proved",
   "theorems": [
    "C05_ecdf1_mns2016_b_exact"
   ],
   "note": "Exact arithmetic (reals with infinities and NaN). No hypothesis on the environment; frexp arbitrary."
  },
  {
   "property": "C06",
   "status": "proved",
   "theorems": [
    "C06_ecdf1_mns2016_B_exact"
   ],
   "note": "Exact arithmetic (reals with infinities and NaN). No hypothesis on the environment; frexp arbitrary."
  },
  {
   "property": "C07",
   "status": "proved",
   "theorems": [
    "C07_algorithms_agree_B",
    "C07_algorithms_agree_b"
   ],
   "note": "Exact arithmetic (reals with infinities and NaN)."
  },
  {
   "property": "C08",
   "status": "proved",
   "theorems": [
    "C08_results_are_probabilities"
   ],
   "note": "Exact arithmetic (reals with infinities and NaN)."
  },
  {
   "property": "C09",
   "status": "proved",
   "theorems": [
    "C09_widening_is_monotone"
   ],
   "note": "Exact arithmetic (reals with infinities and NaN)."
  },
  {
   "property": "C10",
   "status": "proved",
   "theorems": [
    "C10_reflection"
   ],
   "note": "Exact arithmetic (reals with infinities and NaN)."
  },
  {
   "property": "C11",
   "status": "proved",
   "theorems": [
    "C11_trivial_boundaries",
    "C11_touching_boundaries",
    "C11_separated_boundaries"
   ],
   "note": "Exact arithmetic (reals with infinities and NaN)."
  },
  {
   "property": "C12",
   "status": "proved",
   "theorems": [
    "C12_environment_independence"
   ],
   "note": "Exact arithmetic (reals with infinities and NaN)."
  },
  {
   "property": "C13",
   "status": "proved",
   "theorems": [
    "C13_validation",
    "C13_accepted_vectors"
   ],
   "note": "Reals with both infinities; NaN is C14."
  },
  {
   "property": "C14",
   "status": "proved",
   "theorems": [
    "C14_nan_accepted_refuted",
    "C14_accepted"
   ],
   "note": "The expected property is refuted: a vector with a NaN passes validation and std::sort is then called outside its contract."
  },
  {
   "property": "C15",
   "status": "proved",
   "theorems": [
    "C15_ecdf2_memory_safe"
   ],
   "note": "Every floating-point type, libm, FFTW and memory contents."
  },
  {
   "property": "C16",
   "status": "proved",
   "theorems": [
    "C16_ecdf1_new_memory_safe"
   ],
   "note": "Every floating-point type, libm, FFTW and memory contents."
  },
  {
   "property": "C17",
   "status": "proved",
   "theorems": [
    "C17_ecdf1_mns2016_memory_safe"
   ],
   "note": "Every floating-point type; no hypothesis at all."
  },
  {
   "property": "C18",
   "status": "proved",
   "theorems": [
    "C18_when_ecdf2_aborts"
   ],
   "note": "Exact arithmetic (reals with infinities and NaN)."
  },
  {
   "property": "C19",
   "status": "proved",
   "theorems": [
    "C19_single_sample_refuted",
    "C19_single_sample_aborts",
    "C19_empty_sample_aborts",
    "C19_empty_sample_undefined"
   ],
   "note": "The expected property is refuted for n = 1 with live assertions; C03/C04 prove every other case."
  },
  {
   "property": "C20",
   "status": "proved",
   "theorems": [
    "C20_validation_exact",
    "C20_reflected_accepted",
    "C20_ecdf2_returns",
    "C20_ecdf1_new_returns",
    "C20_ecdf1_new_one_aborts",
    "C20_ecdf1_mns2016_returns"
   ],
   "note": "Strict IEEE-754 binary64 (Flocq); -ffast-math is not modelled; long double is double."
  },
  {
   "property": "C21",
   "status": "proved",
   "theorems": [
    "C21_convolution",
    "C21_nothing_for_negative_sizes"
   ],
   "note": "Exact arithmetic (reals with infinities and NaN)."
  },
  {
   "property": "C22",
   "status": "proved",
   "theorems": [
    "C22_fft_convolver"
   ],
   "note": "Exact arithmetic (reals with infinities and NaN). History of calls as an inductive predicate."
  },
  {
   "property": "C23",
   "status": "proved",
   "theorems": [
    "C23_guard_refuted",
    "C23_what_the_guard_refuses"
   ],
   "note": "The expected property is refuted; the second theorem states what the guard does refuse."
  },
  {
   "property": "C24",
   "status": "proved",
   "theorems": [
    "C24_poisson_pmf",
    "C24_evaluate_pmf",
    "C24_compute_array",
    "C24_compute_array_throws_iff_negative"
   ],
   "note": "Exact arithmetic (reals with infinities and NaN). The error behaviour is proved for every floating-point type."
  },
  {
   "property": "C25",
   "status": "proved",
   "theorems": [
    "C25_split"
   ],
   "note": "No hypothesis."
  },
  {
   "property": "C26",
   "status": "proved",
   "theorems": [
    "C26_line",
    "C26_fields"
   ],
   "note": "Every floating-point type; numbers are recognised as in the C standard's strtod, C locale."
  },
  {
   "property": "C27",
   "status": "proved",
   "theorems": [
    "C27_rejects_malformed_refuted",
    "C27_tail_ignored"
   ],
   "note": "The expected property is refuted; the second theorem says what happens to every number followed by other text."
  },
  {
   "property": "C28",
   "status": "proved",
   "theorems": [
    "C28_string_to_long",
    "C28_otherwise_throws"
   ],
   "note": "NUL-free strings (strtol stops at a NUL)."
  },
  {
   "property": "C29",
   "status": "proved",
   "theorems": [
    "C29_files",
    "C29_contents",
    "C29_rest_ignored"
   ],
   "note": "Every file system (a function from names to contents)."
  },
  {
   "property": "C30",
   "status": "proved",
   "theorems": [
    "C30_argument_count",
    "C30_exit_status"
   ],
   "note": "Every floating-point type. Non-exit outcomes are exactly those of the library call."
  },
  {
   "property": "C31",
   "status": "proved",
   "theorems": [
    "C31_two_sided",
    "C31_two_sided_without_lower",
    "C31_two_sided_without_upper",
    "C31_mns2016",
    "C31_new",
    "C31_refuses"
   ],
   "note": "Exact arithmetic (reals with infinities and NaN). Hypotheses sort_ok, fft_ok where used."
  },
  {
   "property": "C32",
   "status": "proved",
   "theorems": [
    "C32_crossing_test",
    "C32_same_event",
    "C32_same_event_lower_only",
    "C32_same_event_upper_only",
    "C32_poisson"
   ],
   "note": "Exact arithmetic (reals with infinities and NaN). The Poisson theorem is for a non-empty b (C36 otherwise) and uniforms other than 0."
  },
  {
   "property": "C33",
   "status": "proved",
   "theorems": [
    "C33_sample",
    "C33_length",
    "C33_simulation"
   ],
   "note": "Exact arithmetic (reals with infinities and NaN). The uniforms drawn must not be 0; the length is proved for every floating-point type."
  },
  {
   "property": "C34",
   "status": "proved",
   "theorems": [
    "C34_ecdf",
    "C34_poisson",
    "C34_frequency"
   ],
   "note": "Every floating-point type; the value of the quotient in exact arithmetic."
  },
  {
   "property": "C35",
   "status": "proved",
   "theorems": [
    "C35_terminates_refuted",
    "C35_poisson_hangs_refuted"
   ],
   "note": "The expected property is refuted. Signed overflow wraps (-fwrapv in the Makefile)."
  },
  {
   "property": "C36",
   "status": "proved",
   "theorems": [
    "C36_missing_b_refuted",
    "C36_always_crosses",
    "C36_estimate_is_one"
   ],
   "note": "The expected property is refuted, for every floating-point type."
  },
  {
   "property": "C37",
   "status": "proved",
   "theorems": [
    "C37_ranges"
   ],
   "note": "The conversion of bit patterns to doubles is exact; state words in their C ranges."
  },
  {
   "property": "C38",
   "status": "proved",
   "theorems": [
    "C38_init",
    "C38_init_by_array",
    "C38_never_zero",
    "C38_injective",
    "C38_recurs"
   ],
   "note": "No hypothesis beyond the C ranges of the fields."
  },
  {
   "property": "C39",
   "status": "proved",
   "theorems": [
    "C39_function_of_seed_refuted",
    "C39_parameters_and_seed"
   ],
   "note": "The expected property is refuted."
  },
  {
   "property": "C40",
   "status": "proved",
   "theorems": [
    "C40_ecdf2",
    "C40_ecdf1_new",
    "C40_ecdf1_mns2016"
   ],
   "note": "Exact arithmetic (reals with infinities and NaN). Lists of reals and infinities (NaN: C14). SWIG's conversions are not modelled."
  },
  {
   "property": "C41",
   "status": "proved",
   "theorems": [
    "C41_documented_example_refuted",
    "C41_repaired_example"
   ],
   "note": "The expected property is refuted; the repaired call is proved to return the described probability."
  },
  {
   "property": "C42",
   "status": "proved",
   "theorems": [
    "C42_seeding_refuted",
    "C42_small_n"
   ],
   "note": "The expected property is refuted."
  },
  {
   "property": "C43",
   "status": "proved",
   "theorems": [
    "C43_not_monotone"
   ],
   "note": "Exact arithmetic (reals with infinities and NaN)."
  },
  {
   "property": "C44",
   "status": "proved",
   "theorems": [
    "C44_argument_count",
    "C44_bad_count",
    "C44_bad_file",
    "C44_unknown_command",
    "C44_ecdf",
    "C44_poisson",
    "C44_short_first_line"
   ],
   "note": "Exact arithmetic (reals with infinities and NaN). Argument and file errors for every floating-point type. time(NULL) and memory content are arbitrary."
  },
  {
   "property": "C45",
   "status": "proved",
   "theorems": [
    "C45_period",
    "C45_unset_parameters_refuted",
    "C45_short_cycle_refuted"
   ],
   "note": "Proved for the published parameters (2^127-1 is proved prime, the transition is linear over GF(2) and its powers are computed modulo its characteristic polynomial); refuted for parameters left at zero."
  },
  {
   "property": "C46",
   "status": "proved",
   "theorems": [
    "C46_sample_refuted",
    "C46_every_seed_refuted",
    "C46_what_a_zero_does",
    "C46_never_crosses"
   ],
   "note": "The expected property is refuted. Exact arithmetic (reals with infinities and NaN)."
  },
  {
   "property": "C47",
   "status": "proved",
   "theorems": [
    "C47_no_simulations_refuted"
   ],
   "note": "The expected property is refuted. Exact arithmetic (reals with infinities and NaN)."
  },
  {
   "property": "C48",
   "status": "proved",
   "theorems": [
    "C48_no_boundaries_refuted"
   ],
   "note": "The expected property is refuted. Exact arithmetic (reals with infinities and NaN)."
  },
  {
   "property": "C49",
   "status": "proved",
   "theorems": [
    "C49_ecdf2_accurate",
    "C49_up_to_1000_points"
   ],
   "note": "Strict IEEE-754 binary64 (Flocq); -ffast-math is not modelled. The direct convolution only; the error of the C library is a hypothesis, met by a correctly rounded library."
  },
  {
   "property": "C50",
   "status": "proved",
   "theorems": [
    "C50_ecdf2_fft_accurate",
    "C50_up_to_1000_points"
   ],
   "note": "Strict IEEE-754 binary64 (Flocq); -ffast-math is not modelled. The errors of the C library and of FFTW are hypotheses, met by correctly rounded ones."
  },
  {
   "property": "C51",
   "status": "proved",
   "theorems": [
    "C51_every_state"
   ],
   "note": "Published parameters only; follows from the full period (C45) by counting."
  },
  {
   "property": "C52",
   "status": "proved",
   "theorems": [
    "C52_ranges",
    "C52_double_exact",
    "C52_double",
    "C52_double_below_1_refuted"
   ],
   "note": "Refuted for tinymt64_generate_double (not called by the programs), proved for the other four outputs. Strict IEEE-754 binary64 (Flocq)."
  },
  {
   "property": "C53",
   "status": "proved",
   "theorems": [
    "C53_few_seeds_share_a_state",
    "C53_few_clock_values_share_a_state"
   ],
   "note": "Stated on the masked state, which determines all outputs."
  },
  {
   "property": "C54",
   "status": "proved",
   "theorems": [
    "C54_decides",
    "C54_probability"
   ],
   "note": "Exact arithmetic (reals with infinities and NaN). The uniforms are taken as independent; the generator itself is deterministic (C37, C45, C51, C53)."
  },
  {
   "property": "C55",
   "status": "proved",
   "theorems": [
    "C55_decides",
    "C55_probability",
    "C55_probability_missing_entries",
    "C55_same_as_ecdf2",
    "C55_has_prob_meaning"
   ],
   "note": "Exact arithmetic (reals with infinities and NaN). The uniforms are taken as independent. The probability is a limit of iterated Riemann integrals (has_prob), shown to be unique and to agree with is_prob."
  },
  {
   "property": "C56",
   "status": "proved",
   "theorems": [
    "C56_estimate",
    "C56_binomial",
    "C56_accuracy",
    "C56_exponential"
   ],
   "note": "Exact arithmetic (reals with infinities and NaN). As C55; equal lengths of b and B for the binomial law, also missing lines for the exponential bound."
  },
  {
   "property": "C57",
   "status": "proved",
   "theorems": [
    "C57_ecdf1_new_B_accurate",
    "C57_below_127_points",
    "C57_up_to_1000_points"
   ],
   "note": "Strict IEEE-754 binary64 (Flocq); -ffast-math is not modelled. The errors of the C library and of FFTW are hypotheses, met by correctly rounded ones."
  },
  {
   "property": "C58",
   "status": "proved",
   "theorems": [
    "C58_ecdf1_new_b_accurate",
    "C58_below_127_points",
    "C58_up_to_1000_points"
   ],
   "note": "As C57."
  },
  {
   "property": "C59",
   "status": "proved",
   "theorems": [
    "C59_ecdf2_stable",
    "C59_one_sided_stable"
   ],
   "note": "Exact arithmetic (reals with infinities and NaN). Hypotheses sort_ok, fft_ok where used."
  },
  {
   "property": "C60",
   "status": "proved",
   "theorems": [
    "C60_ecdf1_mns2016_b_number_refuted",
    "C60_ecdf1_mns2016_b_returns_nan"
   ],
   "note": "The expected property is refuted. Strict x87/IEEE-754 semantics (Flocq); -ffast-math is not modelled."
  },
  {
   "property": "C61",
   "status": "proved",
   "theorems": [
    "C61_ecdf1_mns2016_b_accurate",
    "C61_ecdf1_mns2016_b_nan_or_accurate",
    "C61_ecdf1_mns2016_B_nan_or_accurate",
    "C61_up_to_1000_points",
    "C61_upper_up_to_1000_points"
   ],
   "note": "Strict x87/IEEE-754 semantics (Flocq); -ffast-math is not modelled. The errors of the C library are hypotheses, met by a correctly rounded one."
  },
  {
   "property": "C62",
   "status": "proved",
   "theorems": [
    "C62_ecdf2",
    "C62_ecdf2_missing_b",
    "C62_ecdf2_missing_B",
    "C62_ecdf1_new",
    "C62_ecdf1_mns2016"
   ],
   "note": "Strict IEEE-754 binary64 (Flocq); -ffast-math is not modelled. A correctly rounding strtod and the errors of the C library and of FFTW are hypotheses, met by a concrete library. The decimal rounding of the printed number is not modelled (show_double is a parameter)."
  },
  {
   "property": "C63",
   "status": "proved",
   "theorems": [
    "C63_first_example_refuted",
    "C63_second_example",
    "C63_second_example_as_printed_refuted"
   ],
   "note": "Exact arithmetic (reals with infinities and NaN). The expected property is refuted for the first example and for the second as printed."
  },
  {
   "property": "C64",
   "status": "proved",
   "theorems": [
    "C64_blank_line",
    "C64_carriage_return",
    "C64_windows_line_endings",
    "C64_documented_files_refuted"
   ],
   "note": "For every arithmetic. The expected property is refuted; lines end at \\n as getline does on Linux."
  },
  {
   "property": "C65",
   "status": "proved",
   "theorems": [
    "C65_simulation",
    "C65_estimate",
    "C65_binomial",
    "C65_accuracy",
    "C65_exponential"
   ],
   "note": "Exact arithmetic (reals with infinities and NaN). The uniforms are taken as independent."
  },
  {
   "property": "C66",
   "status": "proved",
   "theorems": [
    "C66_reads_back",
    "C66_determined",
    "C66_two_sided",
    "C66_one_sided_new",
    "C66_one_sided_mns2016",
    "C66_two_sided_binary64",
    "C66_one_sided_new_binary64",
    "C66_small_probability_refuted",
    "C66_mc_ecdf",
    "C66_mc_poisson"
   ],
   "note": "Contract of operator<< (show_ok) from the C++ and C standards; the expectation about small crossing probabilities is refuted. The binary64 part covers ecdf2-ks2001, ecdf2-mn2017, ecdf1-new and crossprob_mc, not ecdf1-mns2016, whose result may be NaN (C61)."
  },
  {
   "property": "C67",
   "status": "proved",
   "theorems": [
    "C67_ks2001",
    "C67_mn2017",
    "C67_mns2016",
    "C67_new",
    "C67_new_exact",
    "C67_new_binary64",
    "C67_convolution"
   ],
   "note": "Counts the steps of the model (Cost.v); the prices of FFTW and std::sort are hypotheses (fair), sort_ok for ecdf2. Memory traffic, caches and the vectorisation done by the compiler are not modelled."
  },
  {
   "property": "C68",
   "status": "proved",
   "theorems": [
    "C68_expected_values",
    "C68_exact_values",
    "C68_passes_exact",
    "C68_passes_binary64",
    "C68_mc_failure_is_rare",
    "C68_mc_passes",
    "C68_mc_ones"
   ],
   "note": "TestSpec.v transcribes the test script and its files; RatProb.v computes the probabilities in exact integer arithmetic from the recursion proved in OrderVol/Cells. The crossprob_mc part is in exact arithmetic and takes the uniforms as independent; the commented-out tests are left out."
  },
  {
   "property": "C69",
   "status": "proved",
   "theorems": [
    "C69_boundaries_are_a_band",
    "C69_ks_events",
    "C69_two_sided",
    "C69_one_sided_new",
    "C69_one_sided_mns2016",
    "C69_two_sided_binary64",
    "C69_one_sided_binary64"
   ],
   "note": "Exact arithmetic (reals with infinities and NaN). The binary64 theorems are for strict IEEE-754 and n <= 1000 with the library errors of C50, C57 and C58 as hypotheses; how the caller computes the boundaries is abstracted to an error delta."
  },
  {
   "property": "C70",
   "status": "proved",
   "theorems": [
    "C70_order_statistics",
    "C70_statistic",
    "C70_distribution",
    "C70_distribution_of_the_statistic",
    "C70_search_brackets",
    "C70_search_gives_up",
    "C70_level",
    "C70_level_up_to_1000_points"
   ],
   "note": "benchmarks/exactbj.py:27-104; scipy's betainc and betaincinv are parameters with contracts (exact, or accurate to delta), which concrete functions meet. The first four theorems are in exact arithmetic, the others in strict IEEE-754 binary64. Debug prints, Timer, precalc_* and plot_* are not modelled."
  },
  {
   "property": "C71",
   "status": "proved",
   "theorems": [
    "C71_same_draws",
    "C71_sample",
    "C71_decides",
    "C71_estimate",
    "C71_moved_boundaries",
    "C71_rarely_too_many",
    "C71_rarely_too_few",
    "C71_up_to_1000_points"
   ],
   "note": "Strict IEEE-754 binary64; the accuracy of log is a hypothesis (libm_accurate) that a correctly rounded log meets. A drawn uniform 0 is excluded. The two theorems about rare errors and the one about moved boundaries take the uniforms as independent real numbers."
  },
  {
   "property": "C72",
   "status": "proved",
   "theorems": [
    "C72_same_answer",
    "C72_estimate",
    "C72_rarely_bad",
    "C72_up_to_1000_points"
   ],
   "note": "Strict IEEE-754 binary64; the accuracy of log is a hypothesis (libm_accurate) that a correctly rounded log meets. A drawn uniform 0 is excluded. C72_rarely_bad takes the uniforms as independent real numbers; 'probability at most' means covered by finitely many events whose probabilities add up to that."
  },
  {
   "property": "C73",
   "status": "proved",
   "theorems": [
    "C73_agree_b",
    "C73_agree_B",
    "C73_widening",
    "C73_stable",
    "C73_range"
   ],
   "note": "Strict IEEE-754 binary64 and x87 extended precision; the errors of the C library and of FFTW are hypotheses, met by a concrete library. Follows from C49, C50, C57, C58, C61 and C59."
  },
  {
   "property": "C74",
   "status": "proved",
   "theorems": [
    "C74_accuracy",
    "C74_accuracy_1000",
    "C74_builds_agree",
    "C74_library"
   ],
   "note": "Covers the rewritings of sums, products and quotients listed in FastMath.v, and flushing. Not covered: distributing products over sums, rewriting the arguments of exp and log, and two different evaluations of one source expression. The FFT branch of the convolver is C75. The library's accuracy is a hypothesis that follows from libm_accurate (C74_library). Whether the boundary values are rounded when passed is not an issue: they are doubles."
  },
  {
   "property": "C75",
   "status": "proved",
   "theorems": [
    "C75_accuracy",
    "C75_accuracy_1000",
    "C75_agree"
   ],
   "note": "Error bounds for FFTW are a hypothesis (fast_fft_accurate in FastFftMain.v, of the same form as fft_accurate for C50); the compiler is that of C74, with the same rewritings left out. FFTW itself is a compiled library and not affected by the flags."
  },
  {
   "property": "C76",
   "status": "proved",
   "theorems": [
    "C76_upper",
    "C76_upper_below_127_points",
    "C76_upper_1000",
    "C76_agree",
    "C76_lower",
    "C76_lower_1000"
   ],
   "note": "Compiler model and hypotheses of C74 and C75; besides, FFTW's output consists of stored numbers (fft_stores, met by the example), sqrt(n) is correctly rounded, and for ecdf1_new_b the vector 1-b is evaluated once, when it is stored (ecdf1_new_b_stored in FastNewLower.v)."
  },
  {
   "property": "C77",
   "status": "proved",
   "theorems": [
    "C77_ecdf2",
    "C77_ecdf2_1000",
    "C77_ecdf2_missing_b",
    "C77_ecdf2_missing_B",
    "C77_ecdf1_new_upper"
   ],
   "note": "Hypotheses of C74 to C76 and strtod_correct. The commands ecdf1-new on a lower boundary (whose stored vector the model of the program does not express, see C76_lower) and ecdf1-mns2016 are not covered here; C62 covers them without -ffast-math."
  },
  {
   "property": "C78",
   "status": "proved",
   "theorems": [
    "C78_uniform",
    "C78_sample",
    "C78_decides",
    "C78_estimate",
    "C78_poisson_same_answer",
    "C78_poisson_estimate",
    "C78_up_to_1000_points"
   ],
   "note": "Compiler model of C74, fast_libm_accurate. Streams containing the uniform 0 (whose logarithm is -infinity) are excluded; C46 treats them without -ffast-math. The Poisson theorem says nothing about paths that come too close to a boundary; C72_rarely_bad bounds their probability."
  },
  {
   "property": "C79",
   "status": "proved",
   "theorems": [
    "C79_lower",
    "C79_upper",
    "C79_lower_1000",
    "C79_upper_1000",
    "C79_builds_agree",
    "C79_ieee_agree",
    "C79_program"
   ],
   "note": "Compiler model of C74 for double, FastLong.v for long double. That -ffast-math may expand powl into multiplications is covered only through libml_accurate. Nothing is claimed of the result for smaller probabilities, where C60 gives NaNs and -ffinite-math-only leaves their treatment open."
  },
  {
   "property": "C80",
   "status": "proved",
   "theorems": [
    "C80_ecdf",
    "C80_ecdf_no_less",
    "C80_poisson",
    "C80_poisson_no_less",
    "C80_draws"
   ],
   "note": "Steps are counted as for C67; the constants of CostMc.v are read off the source and trusted. Reading the file and printing are not counted. For more than INT_MAX simulations see C35."
  },
  {
   "property": "C81",
   "status": "proved",
   "theorems": [
    "C81_passes",
    "C81_passes_new_lower"
   ],
   "note": "The rows of crossprob_mc are in C82. ecdf1-new with a lower boundary only is stated for ecdf1_new_b_stored (FastNewLower.v), applied to the boundary read from the file."
  },
  {
   "property": "C82",
   "status": "proved",
   "theorems": [
    "C82_ecdf",
    "C82_poisson",
    "C82_tests_rarely_fail",
    "C82_tests_pass",
    "C82_test_error",
    "C82_tests_ones"
   ],
   "note": "The Poisson half is stated for the doubles read from the file, without a claim about paths that come within the error bound of a boundary; C72_rarely_bad bounds their probability. The rare failures are stated for independent uniform numbers, as in C68."
  },
  {
   "property": "C83",
   "status": "proved",
   "theorems": [
    "C83_ecdf",
    "C83_poisson",
    "C83_trivial_boundaries",
    "C83_tests_pass",
    "C83_test_error",
    "C83_tests_ones"
   ],
   "note": "The probability of the excluded streams is C82_tests_rarely_fail, which holds for every error d up to 10^-7 (C83_test_error). The Poisson half is stated for the doubles read from the file and for paths that keep away from the boundaries; C72_rarely_bad bounds the probability of the others."
  },
  {
   "property": "C84",
   "status": "proved",
   "theorems": [
    "C84_two_sided",
    "C84_one_sided",
    "C84_program"
   ],
   "note": "Composition of C74-C77 with the continuity of the probability in the boundaries (ProbLipschitz) and the events of C69; ecdf1_new_b is the form that writes 1 - b to memory, as in C76."
  },
  {
   "property": "C85",
   "status": "proved",
   "theorems": [
    "C85_ecdf2",
    "C85_ecdf2_one_line",
    "C85_ecdf1_new_upper",
    "C85_ecdf1_mns2016"
   ],
   "note": "ecdf1-new with a lower boundary is left out, as in C77: the program form of ecdf1_new_b keeps 1 - b in memory, which cli_main over unevaluated sums does not express."
  },
  {
   "property": "C86",
   "status": "proved",
   "theorems": [
    "C86_same_probability",
    "C86_largescale",
    "C86_same_up_to_rounding",
    "C86_reported_numbers_are_the_level"
   ],
   "note": "The pickle file is modelled by the lists last saved; the elapsed times are parameters, integers instead of floats. The list of thresholds may be shorter than n_range (precalc_Mn_plus_alpha_level_thresholds interrupted). Python before 3.8 is assumed (Timer calls time.clock), with a module utils that the script imports and the repository lacks."
  }
 ]
}
