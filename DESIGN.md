# Formal model of mosco/crossing-probability in Rocq (Coq 8.16.1)

## Approach
The C++ sources are transcribed function by function into Gallina, generically over a record `num`
(the floating-point type and libm) and a record `env` (assertions on/off, contents of malloc-ed memory,
`std::sort`, FFTW, number printing, the type long double).  Every way a call can end is a constructor of `outcome`
(`Ok`, `Throw`, `Abort` = failed assert, `Undef` = undefined behaviour, `Hang`).

* Memory safety / control flow: proved for *every* `num` and `env`.
* Correctness: proved for `Xnum` (exact real arithmetic with infinities and NaN), against `Spec.v`, where
  the probability is the n-fold iterated Riemann integral over the unit cube of the event on the sorted sample.
* Rounding-related claims: proved for `Bnum`, IEEE binary64 from Flocq.

## Plan per property
| id | model | proof |
|----|-------|-------|
| C01 C02 C12 | Ecdf2, FFTConv, PoissonPmf over Xnum | bin-count decomposition of the cube integral -> binomial DP -> Poisson DP -> loop invariant on the double buffer; convolution theorem for the DFT |
| C03 C04 | Ecdf1New | block decomposition: full convolution minus exits (Chapman-Kolmogorov) |
| C05 C06 | Ecdf1Mns | polynomial = iterated antiderivative; compared with the DP through its derivative |
| C07-C11 | corollaries of C01-C06 and facts about the specification | |
| C13 C14 | Common | direct; C14 refuted |
| C15-C17 | all num | Hoare-style rules for loops, bounds invariants |
| C18 C19 | Xnum | exact characterisation of the aborting inputs; C19 refuted |
| C20 | Bnum | monotonicity of rounding (Flocq) |
| C21-C24 | Common, FFTConv, PoissonPmf | invariants; C23 refuted |
| C25-C31 | StringUtils, Cli | structural induction on strings; C27 refuted |
| C32-C36, C39, C42 | MonteCarlo | invariants; C35, C36, C39, C42 refuted |
| C37 C38 | TinyMT, Bnum | bit-level lemmas |
| C40 C41 C43 | Cli (py_call, crossprob) | corollaries; C41 refuted |
| C44 | Cli (crossprob_mc) | evaluation of the program model, then C32-C34 |
| C45 | TinyMT | the state transition as a linear map over GF(2), powers modulo its characteristic polynomial; primality of 2^127-1 (Pocklington); refuted for unset parameters |
| C46-C48 | MonteCarlo, Cli | evaluation; refuted |
| C49 | Bnum | error propagation: every step of ecdf2 keeps each array element within a factor and an absolute term of the exact one |
| C50 | Bnum | as C49, with the FFT convolution adding an absolute error per element |
| C51 | TinyMT | counting, from C45 |
| C52 | TinyMT, Bnum | bit-level lemmas and Flocq's correctness of conversion and multiplication; tinymt64_generate_double refuted |
| C53 | TinyMT, MonteCarlo | each mixing round is injective |
| C54 | MonteCarlo | the jumps as iterated integrals; the documented probability as n! times a volume of ordered points (OrderVol) |
| C55 | MonteCarlo, Ecdf2 | the sample event squeezed between finite unions of cells of a geometric grid, each with a known probability |
| C56 | MonteCarlo | independent blocks; Chebyshev's inequality |
| C57 C58 | Ecdf1New, Bnum | absolute error per array element through the blocks, divided by the Poisson mass at n (at least 1/(3 sqrt n)) |
| C59 | all four algorithms | union bound over the intervals between old and new boundary |
| C60 | Ecdf1Mns, Lnum | one boundary computed in 64-bit precision; powl replaced by an explicit correctly rounded power |
| C61 | Ecdf1Mns, Lnum | running error of the coefficients against the exact polynomial, scaled by the power of two divided out |
| C62 | Cli, StringUtils, all algorithms, Bnum | the text denotes reals, strtod rounds them, the probability moves by at most n times the change (C59), then C49, C50, C57, C58, C61 |
| C63 | Cli, all algorithms | read the two files, n! D for the three boundaries, monotone envelope of the described event |
| C64 | StringUtils, Cli | one more character that is no part of a number changes no longest numeral prefix |
| C65 | MonteCarlo | the event of each simulation depends on the uniforms it used only: condition on their number, multiply, sum |
| C66 | Cli, MonteCarlo, StringUtils | ShowSpec: %.6g from the standards; the decade and the nearest six-digit integer are unique; digit strings read back as the rounded number |
| C67 | Common, PoissonPmf, FFTConv, Ecdf2, Ecdf1New, Ecdf1Mns | Cost: every function once more with its steps counted, equal to the model by computation; a logic of bounds (CostFacts); sums of squares, of block lengths and of n log n |
| C68 | Cli, Ecdf2, Ecdf1New, Ecdf1Mns, MonteCarlo | TestSpec: the test script and its files as data; RatProb: the probability of rational boundaries as an integer over M^n; TestProb/TestCli: C31 and C62 applied to the files, distance from rounding boundaries; McChernoff: exponential bound for binomial tails |
| C69 | Ecdf2, Ecdf1New, Ecdf1Mns | GofSpec: empirical CDF, Kolmogorov-Smirnov events; GofKs: band around the empirical CDF, the two boundaries; GofAcc: binary64 through C50, C57, C58 and the Lipschitz bound of ProbLipschitz |
| C70 | ExactBj (benchmarks/exactbj.py:27-104), Ecdf1New, Cli (py_call) | GofSpec: beta_cdf, Mn_plus_is; GofBeta: order statistics are Beta distributed; BjFacts: exact arithmetic; BjSearch: bisection in binary64 (dyadic intervals, ties to even); BjMain: level of the threshold (union bound: slope at most n); BjCase: contracts can be met |
| C71 | MonteCarlo, TinyMT in binary64 | McB64Spec: moved boundaries, sandwiched, prob_at_most; McB64: rounding errors of the partial sums and quotients; McB64Est: decision, program, law of the estimate; McB64Case |
| C72 | MonteCarlo, TinyMT in binary64 | McB64Spec: clear_jumps, clear_simulations, covered; McB64Pois: lockstep of the walk in both arithmetics, program; McB64PProb: probability of paths close to the boundaries; McB64PCase |
| C73 | Ecdf2, Ecdf1New, Ecdf1Mns in binary64 | AgreeB64: the accuracy theorems of C49, C50, C57, C58, C61 combined with monotonicity and stability of the probability |
| C74 | Ecdf2, FastMath | FastNum (abstract arithmetic with errors), FastGrow, FastPmf, FastConv, FastStep, FastEcdf2 (error propagation), FastInst (every compiler of FastMath meets it), FastMain |
| C75 | Ecdf2, FFTConv, FastMath | FastFft (FFT convolution in abstract arithmetic), FastFftInst, FastFftMain |
| C76 | Ecdf1New, FFTConv, FastMath, FastNewLower (ecdf1_new_b with a stored vector) | FastNewNum (requirements), FastNewInst, FastNewPmf, FastNewConv, FastNewStep, FastNewLoop, FastNewMain, FastNewFinal |
| C77 | Cli, StringUtils, Ecdf2, Ecdf1New, FFTConv, FastMath | FastCli: reading as for C62, then C74, C75 and C76 |
| C78 | MonteCarlo, TinyMT, FastMath | McFast: the uniforms are exact, the sums of positive terms accurate in any order; McFastEst and McFastPois then follow C71 and C72 |
| C79 | Ecdf1Mns, Cli, FastMath, FastLong | FastMnsSum, FastMnsEval, FastMnsStep, FastMnsTail follow the proof of C61 with sums in any order; FastMnsCli follows C62 |
| C80 | MonteCarlo, TinyMT, Cost, CostMc | CostMc: counted versions of the simulations, which compute what the model computes |
| C81 | Cli, StringUtils, Ecdf2, Ecdf1New, Ecdf1Mns, FastMath, FastLong, FastNewLower | TestSpec (the suite), FastSuite: C77 and C79 on the files of the test suite |
| C82 | MonteCarlo, TinyMT, Cli, StringUtils, FastMath | FastMcCli: C78 with the reading of the file and the printing of the estimate; the error d is added to the margins of C71; FastMcCase |
| C83 | MonteCarlo, TinyMT, Cli, StringUtils, Binary64 | B64McCli: C71 and C72 with the reading of the file and the printing of the estimate; B64McCase |
| C84 | Ecdf2, Ecdf1New, Cli, FastMath | GofFast: C69 on top of C74, C75, C76; FastShow: from a file; case d = 1/2, n = 2 |
| C85 | Cli, StringUtils, FastMath | FastShow: C77 and C79 followed by the printing of C66 |
| C86 | BjBench (benchmarks/exactbj.py:134-230), ExactBj, Ecdf2, Ecdf1New, Ecdf1Mns | BjBenchFacts: the saved columns for any arithmetic, then exact arithmetic; BjBench64: binary64, up to 1000 points; BjPipeline: thresholds of a level (C70), then the measurements |

A property that turned out to be false of the code is recorded as "Expected ... Settled: false", with a
theorem named `..._refuted` exhibiting inputs, and theorems saying what the code does instead.

## Where to read
`Spec.v`, `StringSpec.v`, `CliSpec.v`, `McSpec.v`, `McProbSpec.v`, `accepted64` in `Binary64Facts.v`, `libm_accurate` in
`AccPmf.v`, `fft_accurate` in `AccFft.v`, `libml_accurate` in `AccMnsEval.v`, `libml_special` in `AccMns.v`, `powl_correct`
in `MnsNan.v`, `StrtodSpec.v`, `ShowSpec.v` and `UsageSpec.v` are the specification.
`Base`, `Num`, `Common`, `PoissonPmf`, `FFTConv`, `Ecdf2`, `Ecdf1New`, `Ecdf1Mns`, `StringUtils`, `TinyMT`,
`MonteCarlo`, `Cli` are the model.  `XReal`, `Binary64` and `LongDouble` are the arithmetics.
`Props*.v` hold the property theorems and nothing else; beside each, a concrete case meeting its hypotheses.
`QNum`, `RunTests` run the model on the repository's own test inputs (rational arithmetic), and the generator on its
authors' check values (quoted from memory).
All other files are proofs.

## Trusted base
1. Coq 8.16.1's kernel (including its virtual machine, used by `vm_compute`).
2. The standard-library axioms printed by `Print Assumptions`, listed per theorem below.  No axiom is added.
   Flocq and Coquelicot are used as libraries of definitions and proved lemmas.
3. That the model transcribes the sources; every definition cites the lines it models.
4. The hypotheses of the theorems about things outside the repository:
   `sort_ok` (std::sort meets its contract), `fft_ok` (FFTW computes the DFT; exact-arithmetic theorems),
   `fft_lengths` (FFTW writes as many elements as documented), `libm_accurate` (error of exp, log, lgamma),
   `fft_accurate` (error of FFTW), `libml_accurate`, `libml_special`, `powl_correct` (error and special values of expl, logl,
   lgammal, powl), `strtod_correct` (strtod rounds correctly), `long_double_ok` (exact-arithmetic theorems: long double is exact as well).  `ExactEnv.v`, `Binary64Cases.v`, `AccCases.v`, `AccMnsCase.v` and `AccCliCase.v` exhibit environments satisfying them.
5. The specifications of the C library written as definitions: strtod's and strtol's grammar (C locale),
   number printing of integers, getline.

## Modelled
* src/common.cc, common.hh: everything (DoubleBuffer included).
* src/poisson_pmf.cc/.hh, src/fftwconvolver.cc/.hh: everything; FFTW itself and its plans are the functions
  `fft_r2c`, `fft_c2r` of the environment, aligned memory is an array with unspecified initial contents.
* src/ecdf2.cc, src/ecdf1_new.cc: everything.
* src/ecdf1_mns2016.cc: everything except the unused printing helpers.
* src/string_utils.cc, src/read_boundaries_file.cc: everything; the file system is a function from names to contents.
* src/crossprob.cc, src/crossprob_mc.cc: `main` from argv to exit status and printed text (text of one run is a list of items);
  the usage texts are a token, not reproduced letter by letter.
* src/tinymt64.cc, tinymt64.h: everything (init, init_by_array, next state, tempering, all outputs) without LINEARITY_CHECK.
* python_extension/crossprob.py and src/crossprob.i: which C++ function each Python function calls, and that a
  std::runtime_error becomes a Python RuntimeError.

## Not modelled, or simplified
* The C++ compiler.  In particular the Makefile and setup.py compile with `-ffast-math`, which licenses the compiler to
  reassociate, contract and to assume that no NaN or infinity occurs.  Theorems about NaN (C14) and about binary64
  (C20, C49, C50, C57, C58, C60, C61, C62, C66, C68-C73, C83) describe a compilation that respects IEEE-754; exact-arithmetic theorems are unaffected by reassociation but
  say nothing about rounding error.  C74 (ecdf2, direct convolution), C75 (ecdf2 with FFT) and C76 (ecdf1_new) cover the evaluation orders, contractions, reciprocals and
  flushing of subnormals that `-ffast-math` licenses, C77 the crossprob program on top of them, C78 the simulations of crossprob_mc, C82 its whole program, C85 the digits crossprob prints, C84 Kolmogorov-Smirnov p-values, C79 ecdf1_mns2016 (FastLong.v: long double on the x87 has no contraction and no flushing; if powl becomes a chain of multiplications, that is covered by the eps of `libml_accurate`); the head of FastMath.v lists which rewritings they leave out.
* Rounding error, except for ecdf2 (C49, C50), ecdf1_new (C57, C58) and ecdf1_mns2016 (C61; long double is the 80-bit
  format of x86, rounded to nearest, 64 bits of precision).  All other exactness theorems are in real arithmetic.
  C49, C50, C57 and C58 assume error bounds for the C library's exp, log and lgamma (`libm_accurate`) and for FFTW (`fft_accurate`).
  C62 adds the rounding of the numbers read by the crossprob program; the text written by operator<< is a parameter (`show_double`), for which C66 assumes what the C and C++ standards say (`show_ok` in ShowSpec.v).
* Running time (C67, C80) is the number of steps counted in `Cost.v` and `CostMc.v`: `op c m` charges c steps for the statement m, the loops charge
  one step per iteration, and the c's are read off the source text and are trusted.  What FFTW and std::sort cost is a parameter (`prices`).
* Exact arithmetic has a single zero; binary64 has both.
* Integers are unbounded, except where the code depends on the width: conversion of sqrt(n)+1 to int, string_to_long,
  the Monte-Carlo counters, and all of TinyMT (64/32-bit words).  Theorems that need n to fit in an int say so.
* Memory exhaustion, signals and concurrency.  `extract_exponent`'s static variable is modelled for calls made
  one after another.
* SWIG's conversion of Python lists to std::vector<double> and back; the build system; benchmarks/ except exactbj.py:27-104 (ExactBj.v) and 134-230 (BjBench.v), whose scipy functions and elapsed times are parameters. The script imports a module utils that the repository lacks, and its Timer calls time.clock, which Python removed in 3.8; the model assumes neither stops it.
* Randomness: C54-C56, C65, C68-C72, C82, C83 speak about independent uniform numbers in place of the generator's outputs.
* Real time: C67 and C80 count the steps of the model; the other theorems about termination say that loops end, not how fast.

## Axioms of each theorem (Print Assumptions)
<!-- assumptions -->
* none (closed under the global context):
  C15_ecdf2_memory_safe, C16_ecdf1_new_memory_safe, C17_ecdf1_mns2016_memory_safe, C23_guard_refuted, C23_what_the_guard_refuses, C24_compute_array_throws_iff_negative, C25_split, C26_fields, C26_line, C27_tail_ignored, C28_otherwise_throws, C28_string_to_long, C29_contents, C29_files, C29_rest_ignored, C30_argument_count, C30_exit_status, C31_refuses, C33_length, C34_ecdf, C34_poisson, C35_poisson_hangs_refuted, C35_terminates_refuted, C36_always_crosses, C38_init, C38_init_by_array, C38_injective, C38_never_zero, C38_recurs, C39_parameters_and_seed, C44_argument_count, C44_bad_count, C44_bad_file, C44_unknown_command, C45_period, C45_short_cycle_refuted, C45_unset_parameters_refuted, C51_every_state, C53_few_clock_values_share_a_state, C53_few_seeds_share_a_state, C63_second_example_as_printed_refuted, C64_blank_line, C64_carriage_return, C64_documented_files_refuted, C64_windows_line_endings, C67_convolution, C67_ks2001, C67_mn2017, C67_mns2016, C67_new, C80_draws, C80_ecdf, C80_ecdf_no_less, C80_poisson, C80_poisson_no_less.

* `ClassicalDedekindReals.sig_forall_dec`, `FunctionalExtensionality.functional_extensionality_dep`:
  C55_has_prob_meaning, C66_determined, C66_reads_back, C68_exact_values, C68_expected_values, C69_boundaries_are_a_band, C69_ks_events, C71_up_to_1000_points, C72_up_to_1000_points, C78_up_to_1000_points, C82_test_error, C83_test_error.

* `ClassicalDedekindReals.sig_forall_dec`, `ClassicalDedekindReals.sig_not_dec`, `Classical_Prop.classic`, `FunctionalExtensionality.functional_extensionality_dep`:
  C01_ecdf2_direct_exact, C02_ecdf2_fft_exact, C03_ecdf1_new_B_exact, C04_ecdf1_new_b_exact, C05_ecdf1_mns2016_b_exact, C06_ecdf1_mns2016_B_exact, C07_algorithms_agree_B, C07_algorithms_agree_b, C08_results_are_probabilities, C09_widening_is_monotone, C10_reflection, C11_separated_boundaries, C11_touching_boundaries, C11_trivial_boundaries, C12_environment_independence, C13_accepted_vectors, C13_validation, C14_accepted, C14_nan_accepted_refuted, C18_when_ecdf2_aborts, C19_empty_sample_aborts, C19_empty_sample_undefined, C19_single_sample_aborts, C19_single_sample_refuted, C20_ecdf1_mns2016_returns, C20_ecdf1_new_one_aborts, C20_ecdf1_new_returns, C20_ecdf2_returns, C20_reflected_accepted, C20_validation_exact, C21_convolution, C21_nothing_for_negative_sizes, C22_fft_convolver, C24_compute_array, C24_evaluate_pmf, C24_poisson_pmf, C27_rejects_malformed_refuted, C31_mns2016, C31_new, C31_two_sided, C31_two_sided_without_lower, C31_two_sided_without_upper, C32_crossing_test, C32_poisson, C32_same_event, C32_same_event_lower_only, C32_same_event_upper_only, C33_sample, C33_simulation, C34_frequency, C36_estimate_is_one, C36_missing_b_refuted, C37_ranges, C39_function_of_seed_refuted, C40_ecdf1_mns2016, C40_ecdf1_new, C40_ecdf2, C41_documented_example_refuted, C41_repaired_example, C42_seeding_refuted, C42_small_n, C43_not_monotone, C44_ecdf, C44_poisson, C44_short_first_line, C46_every_seed_refuted, C46_never_crosses, C46_sample_refuted, C46_what_a_zero_does, C47_no_simulations_refuted, C48_no_boundaries_refuted, C49_ecdf2_accurate, C49_up_to_1000_points, C50_ecdf2_fft_accurate, C50_up_to_1000_points, C52_double, C52_double_below_1_refuted, C52_double_exact, C52_ranges, C54_decides, C54_probability, C55_decides, C55_probability, C55_probability_missing_entries, C55_same_as_ecdf2, C56_accuracy, C56_binomial, C56_estimate, C56_exponential, C57_below_127_points, C57_ecdf1_new_B_accurate, C57_up_to_1000_points, C58_below_127_points, C58_ecdf1_new_b_accurate, C58_up_to_1000_points, C59_ecdf2_stable, C59_one_sided_stable, C60_ecdf1_mns2016_b_number_refuted, C60_ecdf1_mns2016_b_returns_nan, C61_ecdf1_mns2016_B_nan_or_accurate, C61_ecdf1_mns2016_b_accurate, C61_ecdf1_mns2016_b_nan_or_accurate, C61_up_to_1000_points, C61_upper_up_to_1000_points, C62_ecdf1_mns2016, C62_ecdf1_new, C62_ecdf2, C62_ecdf2_missing_B, C62_ecdf2_missing_b, C63_first_example_refuted, C63_second_example, C65_accuracy, C65_binomial, C65_estimate, C65_exponential, C65_simulation, C66_mc_ecdf, C66_mc_poisson, C66_one_sided_mns2016, C66_one_sided_new, C66_one_sided_new_binary64, C66_small_probability_refuted, C66_two_sided, C66_two_sided_binary64, C67_new_binary64, C67_new_exact, C68_mc_failure_is_rare, C68_mc_ones, C68_mc_passes, C68_passes_binary64, C68_passes_exact, C69_one_sided_binary64, C69_one_sided_mns2016, C69_one_sided_new, C69_two_sided, C69_two_sided_binary64, C70_distribution, C70_distribution_of_the_statistic, C70_level, C70_level_up_to_1000_points, C70_order_statistics, C70_search_brackets, C70_search_gives_up, C70_statistic, C71_decides, C71_estimate, C71_moved_boundaries, C71_rarely_too_few, C71_rarely_too_many, C71_same_draws, C71_sample, C72_estimate, C72_rarely_bad, C72_same_answer, C73_agree_B, C73_agree_b, C73_range, C73_stable, C73_widening, C74_accuracy, C74_accuracy_1000, C74_builds_agree, C74_library, C75_accuracy, C75_accuracy_1000, C75_agree, C76_agree, C76_lower, C76_lower_1000, C76_upper, C76_upper_1000, C76_upper_below_127_points, C77_ecdf1_new_upper, C77_ecdf2, C77_ecdf2_1000, C77_ecdf2_missing_B, C77_ecdf2_missing_b, C78_decides, C78_estimate, C78_poisson_estimate, C78_poisson_same_answer, C78_sample, C78_uniform, C79_builds_agree, C79_ieee_agree, C79_lower, C79_lower_1000, C79_program, C79_upper, C79_upper_1000, C81_passes, C81_passes_new_lower, C82_ecdf, C82_poisson, C82_tests_ones, C82_tests_pass, C82_tests_rarely_fail, C83_ecdf, C83_poisson, C83_tests_ones, C83_tests_pass, C83_trivial_boundaries, C84_one_sided, C84_program, C84_two_sided, C85_ecdf1_mns2016, C85_ecdf1_new_upper, C85_ecdf2, C85_ecdf2_one_line, C86_largescale, C86_reported_numbers_are_the_level, C86_same_probability, C86_same_up_to_rounding.
<!-- end -->
