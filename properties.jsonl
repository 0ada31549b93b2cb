{"id": "C01", "title": "ecdf2 without FFT computes the exact two-sided probability", "statement": "In exact arithmetic, for any accepted b and B of equal length n (with assertions compiled in: with no B_{i+1} < b_i, see C18), ecdf2(b,B,false) returns Pr[b_i <= X_(i) <= B_i for all i] for n independent uniforms, where the probability is the n-fold iterated integral over the unit cube of the indicator of the event.", "quantifier": "every n >= 0, every pair of accepted boundary vectors of length n (any ties between b and B), every legal result of the unstable std::sort, any content of uninitialised memory", "why_tests_cant": "Tests compare a handful of outputs with stored constants; the claim is about every real boundary vector and every tie order std::sort may choose.", "anchors": ["src/ecdf2.cc:poisson_process_noncrossing_probability", "src/ecdf2.cc:ecdf2", "src/poisson_pmf.cc:compute_array"]}
{"id": "C02", "title": "ecdf2 with FFT computes the exact two-sided probability", "statement": "In exact arithmetic, and with an FFT library whose r2c/c2r transforms are the mathematical (unnormalised) DFT pair, ecdf2(b,B,true) returns the same probability as in C01.", "quantifier": "every n, every accepted b and B, every FFT backend meeting the DFT contract, every sort and memory content", "why_tests_cant": "Tests compare a handful of outputs with stored constants; the FFT path is only taken for windows of 128 or more states, which no test reaches.", "anchors": ["src/ecdf2.cc:ecdf2", "src/fftwconvolver.cc:convolve_same_size"]}
{"id": "C03", "title": "ecdf1_new_B computes the exact one-sided probability", "statement": "In exact arithmetic, for every accepted B of length n >= 2 (n >= 1 when assertions are compiled out), ecdf1_new_B(B) returns Pr[X_(i) <= B_i for all i].", "quantifier": "every n, every accepted B, every FFT backend meeting the DFT contract", "why_tests_cant": "Tests compare a handful of outputs with stored constants; correctness depends on the block size sqrt(n)+1 and on partial last blocks for every n.", "anchors": ["src/ecdf1_new.cc:poisson_B_noncrossing_probability_n2", "src/ecdf1_new.cc:ecdf1_new_B"]}
{"id": "C04", "title": "ecdf1_new_b computes the exact one-sided probability", "statement": "In exact arithmetic, for every accepted b of length n >= 2 (n >= 1 without assertions), ecdf1_new_b(b) returns Pr[b_i <= X_(i) for all i].", "quantifier": "every n, every accepted b", "why_tests_cant": "Tests compare a handful of outputs with stored constants; the reflection 1-b reversed must be right for every vector.", "anchors": ["src/ecdf1_new.cc:ecdf1_new_b"]}
{"id": "C05", "title": "ecdf1_mns2016_b computes the exact one-sided probability", "statement": "In exact arithmetic, for every accepted b, ecdf1_mns2016_b(b) returns Pr[b_i <= X_(i) for all i]; this does not depend on the values frexp reports, i.e. on how often and by how much coefficients are rescaled.", "quantifier": "every n >= 0, every accepted b, every exponent frexp may report", "why_tests_cant": "Tests compare a handful of outputs with stored constants; rescaling happens every 16 iterations and only for some inputs.", "anchors": ["src/ecdf1_mns2016.cc:ecdf1_mns2016_b", "src/ecdf1_mns2016.cc:integrate"]}
{"id": "C06", "title": "ecdf1_mns2016_B computes the exact one-sided probability", "statement": "In exact arithmetic, for every accepted B, ecdf1_mns2016_B(B) returns Pr[X_(i) <= B_i for all i].", "quantifier": "every n >= 0, every accepted B", "why_tests_cant": "Tests compare a handful of outputs with stored constants; see C05.", "anchors": ["src/ecdf1_mns2016.cc:ecdf1_mns2016_B"]}
{"id": "C07", "title": "All algorithms agree", "statement": "In exact arithmetic ecdf1_new_B(B) = ecdf1_mns2016_B(B) = ecdf2(0..0,B,fft) and ecdf1_new_b(b) = ecdf1_mns2016_b(b) = ecdf2(b,1..1,fft), for both values of fft.", "quantifier": "every n >= 2 and every accepted boundary", "why_tests_cant": "Tests compare a handful of outputs with stored constants; agreement has to hold for all inputs, not for two data files.", "anchors": ["src/ecdf2.cc:ecdf2", "src/ecdf1_new.cc", "src/ecdf1_mns2016.cc"]}
{"id": "C08", "title": "Results are probabilities", "statement": "In exact arithmetic every value returned by ecdf2, ecdf1_new_* and ecdf1_mns2016_* lies in [0,1].", "quantifier": "every accepted input", "why_tests_cant": "Tests compare a handful of outputs with stored constants; a range bound over all inputs.", "anchors": ["src/ecdf2.cc:ecdf2", "src/ecdf1_new.cc:ecdf1_new_B", "src/ecdf1_mns2016.cc:ecdf1_mns2016_b"]}
{"id": "C09", "title": "Widening the boundaries never lowers the result", "statement": "In exact arithmetic if b' <= b and B <= B' pointwise then ecdf2(b,B) <= ecdf2(b',B').", "quantifier": "every pair of nested accepted boundaries", "why_tests_cant": "Tests compare a handful of outputs with stored constants; relates two arbitrary runs.", "anchors": ["src/ecdf2.cc:ecdf2"]}
{"id": "C10", "title": "Reflection symmetry", "statement": "In exact arithmetic ecdf2(b,B) = ecdf2(1-reverse(B), 1-reverse(b)).", "quantifier": "every accepted pair", "why_tests_cant": "Tests compare a handful of outputs with stored constants; relates two arbitrary runs.", "anchors": ["src/ecdf2.cc:ecdf2"]}
{"id": "C11", "title": "Degenerate boundaries", "statement": "In exact arithmetic the result of ecdf2 is 1 for b=0..0, B=1..1; it is 0 as soon as some b_i >= B_i; it is strictly positive when b_i < B_i for all i.", "quantifier": "every n and every accepted pair", "why_tests_cant": "Tests compare a handful of outputs with stored constants; a characterisation of the zero set over all inputs.", "anchors": ["src/ecdf2.cc:ecdf2"]}
{"id": "C12", "title": "Results do not depend on tie order, uninitialised memory or the FFT flag", "statement": "In exact arithmetic two runs of ecdf2 on the same b and B return the same value whatever permutation of tied boundary points std::sort produces, whatever malloc-ed memory contains, and whichever convolution is selected.", "quantifier": "every two environments and every accepted input", "why_tests_cant": "Tests compare a handful of outputs with stored constants; one build on one machine shows one tie order and one memory content.", "anchors": ["src/ecdf2.cc:join_all_bounds", "src/aligned_mem.hh"]}
{"id": "C13", "title": "Input validation accepts exactly the documented vectors", "statement": "check_boundary_vector(name,n,v) returns normally iff v has n elements, is non-decreasing and lies in [0,1] (no NaN among the elements); otherwise it throws runtime_error with the documented message, length checked before monotonicity before range.", "quantifier": "every n, every vector of non-NaN doubles (including infinities)", "why_tests_cant": "Tests compare a handful of outputs with stored constants; no test passes an invalid vector.", "anchors": ["src/common.cc:check_boundary_vector", "src/common.cc:is_monotone_increasing"]}
{"id": "C14", "title": "NaN and input validation", "statement": "Expected: no vector containing a NaN passes validation. Settled: false. A vector is accepted iff no element is below its predecessor, the first is not below 0 and the last not above 1, all comparisons with NaN being false; so NaN passes and also hides values outside [0,1], and ecdf2 then calls std::sort outside its contract.", "quantifier": "every vector", "why_tests_cant": "No test passes NaN, and the characterisation covers every vector.", "anchors": ["src/common.cc:is_monotone_increasing", "src/common.cc:check_boundary_vector"]}
{"id": "C15", "title": "ecdf2 is memory safe", "statement": "Whatever the rounding of the floating-point type and whatever libm, FFTW and malloc return, ecdf2 never reads or writes outside its arrays, provided the comparator handed to std::sort is a strict weak ordering of the boundary points (true whenever no element is NaN).", "quantifier": "every floating-point semantics, every n, every pair of vectors, both values of use_fft", "why_tests_cant": "Memory errors show only on some inputs and usually silently.", "anchors": ["src/ecdf2.cc", "src/fftwconvolver.cc", "src/poisson_pmf.cc"]}
{"id": "C16", "title": "ecdf1_new is memory safe for non-empty input and terminates", "statement": "Whatever the floating-point semantics, ecdf1_new_B and ecdf1_new_b never access memory out of bounds and leave their while(true) loop, for every input of length >= 1 for which int(sqrt(n)+1) >= 1.", "quantifier": "every floating-point semantics, every vector of length n >= 1", "why_tests_cant": "Buffer offsets depend on n, the block size and the block index.", "anchors": ["src/ecdf1_new.cc:poisson_B_noncrossing_probability_n2"]}
{"id": "C17", "title": "ecdf1_mns2016 is memory safe and never fails an assertion", "statement": "Whatever the floating-point semantics, ecdf1_mns2016_b and ecdf1_mns2016_B return a value or throw a validation error; they never access memory out of bounds and never abort.", "quantifier": "every floating-point semantics and every vector", "why_tests_cant": "Bounds depend on n.", "anchors": ["src/ecdf1_mns2016.cc"]}
{"id": "C18", "title": "When ecdf2 aborts", "statement": "With assertions enabled, on accepted input in exact arithmetic, ecdf2 aborts the process iff there is an i with B_{i+1} < b_i; in every other case it returns a value. Users expect the probability 0 instead.", "quantifier": "every accepted pair of boundaries", "why_tests_cant": "Tests compare a handful of outputs with stored constants; no test has b_i > B_i.", "anchors": ["src/ecdf2.cc:poisson_process_noncrossing_probability", "src/poisson_pmf.cc:compute_array"]}
{"id": "C19", "title": "ecdf1_new and very small samples", "statement": "Expected: ecdf1_new_B and ecdf1_new_b return the probability for every n (as the other algorithms do, which return 1 for n = 0). Settled: false. With assertions compiled in, n = 1 aborts on every accepted input (the jump size, 2, exceeds n) and so does n = 0; without them n = 0 is undefined behaviour (B[n-1] with n = 0); every other case is C03/C04.", "quantifier": "every environment and accepted input of size 0 or 1", "why_tests_cant": "The smallest tested n is 3.", "anchors": ["src/ecdf1_new.cc:ecdf1_new_B"]}
{"id": "C20", "title": "In binary64 every accepted input returns normally", "statement": "With IEEE binary64 arithmetic (round to nearest even, signed zeros, infinities) and any libm: a NaN-free vector passes validation exactly when its numbers are finite, non-decreasing and in [0,1]; on such vectors of int size ecdf2 returns a value (with assertions compiled in it may instead abort, and then only if some B_{i+1} < b_i), ecdf1_new_b and ecdf1_new_B return a value for n >= 2 (for n = 1 too when assertions are compiled out; with them n = 1 aborts), and ecdf1_mns2016_b/_B return a value. In particular the internal 'lambda<0' errors are never thrown, the block size sqrt(n)+1 stays within 2..n, and the reflected vector 1-b is accepted again.", "quantifier": "every accepted vector of binary64 numbers of every length up to INT_MAX, every libm, FFT and memory content, assertions on and off", "why_tests_cant": "Depends on rounding for every pair of doubles and on sqrt for every n.", "anchors": ["src/common.cc:check_boundary_vector", "src/ecdf2.cc:111", "src/poisson_pmf.cc:37", "src/ecdf1_new.cc:ecdf1_new_B", "src/ecdf1_new.cc:ecdf1_new_b", "src/ecdf1_mns2016.cc:ecdf1_mns2016_B"]}
{"id": "C21", "title": "convolve_same_size is truncated polynomial multiplication", "statement": "In exact arithmetic convolve_same_size(size,a,b,dest) stores sum_{k<=j} a_k b_{j-k} in dest_j for every j < size and changes no other element; negative sizes change nothing.", "quantifier": "every size and every arrays", "why_tests_cant": "Tests compare a handful of outputs with stored constants; no unit test of it exists.", "anchors": ["src/common.cc:convolve_same_size", "src/fftwconvolver.cc:convolve_same_size_naive"]}
{"id": "C22", "title": "The FFT convolver equals the direct convolution, whatever it was used for before", "statement": "In exact arithmetic with a correct DFT, FFTWConvolver::convolve_same_size writes the same values as the direct convolution for every size up to the constructor's maximum, after any earlier sequence of calls on the same object, and touches only the first size output elements.", "quantifier": "every maximum, every history of calls, every size up to the maximum, every input", "why_tests_cant": "Scratch arrays and memoised plans carry state from call to call.", "anchors": ["src/fftwconvolver.cc:convolve_same_size", "src/fftwconvolver.cc:memoized_r2c_plan"]}
{"id": "C23", "title": "The FFT convolver refuses inputs larger than its maximum", "statement": "Expected: convolve_same_size throws whenever size exceeds the maximum_input_size given to the constructor. Settled: false. Sizes beyond maximum+2047 throw; between the two the guard can let a size through for which no scratch buffer exists, which is undefined behaviour.", "quantifier": "every maximum and size", "why_tests_cant": "Never tested; needs a size just above the maximum.", "anchors": ["src/fftwconvolver.cc:FFTWConvolver", "src/fftwconvolver.cc:111"]}
{"id": "C24", "title": "Poisson probabilities", "statement": "In exact arithmetic poisson_pmf(l,k), evaluate_pmf(l,k) and entry k of compute_array all equal e^-l l^k / k! (with 0^0 = 1), for l >= 0 and 0 <= k <= max_k; compute_array changes only entries 0..k and throws iff l < 0.", "quantifier": "every l and k", "why_tests_cant": "Tests compare a handful of outputs with stored constants; no unit test of it exists.", "anchors": ["src/poisson_pmf.hh:poisson_pmf", "src/poisson_pmf.cc:compute_array"]}
{"id": "C25", "title": "split is the inverse of joining", "statement": "split(s,d) returns one more piece than s has delimiters, no piece contains the delimiter, and joining the pieces with the delimiter gives s back; it is the only list with the last two properties.", "quantifier": "every string and delimiter", "why_tests_cant": "Property over all strings.", "anchors": ["src/string_utils.cc:split"]}
{"id": "C26", "title": "Reading a line of numbers", "statement": "read_comma_delimited_doubles returns one number per comma-separated field, in order, ignoring one empty last field (so an empty line gives no numbers), and throws iff some remaining field does not start with a number or is out of range.", "quantifier": "every line", "why_tests_cant": "Property over all strings.", "anchors": ["src/string_utils.cc:read_comma_delimited_doubles"]}
{"id": "C27", "title": "Malformed numbers", "statement": "Expected: a field that is not a number as a whole is rejected. Settled: false. A number followed by any text that cannot continue it is read as that number (0.5 0.7 reads as 0.5); what is rejected is exactly the fields of C26.", "quantifier": "every number and every tail", "why_tests_cant": "No test contains a malformed field.", "anchors": ["src/string_utils.cc:string_to_double"]}
{"id": "C28", "title": "string_to_long accepts exactly the decimal integers of type long", "statement": "string_to_long(s) returns v iff s is optional blanks, an optional sign and decimal digits denoting v, with -2^63 <= v <= 2^63-1 (NUL-free s); otherwise it throws.", "quantifier": "every NUL-free string", "why_tests_cant": "Property over all strings.", "anchors": ["src/string_utils.cc:string_to_long"]}
{"id": "C29", "title": "Boundary files", "statement": "read_and_check_boundaries_file returns the numbers of the first two lines; a missing file gives runtime_error and a file with fewer than two lines gives ifstream::failure; bytes after the second line are ignored.", "quantifier": "every file system and file content", "why_tests_cant": "Property over all files.", "anchors": ["src/read_boundaries_file.cc"]}
{"id": "C30", "title": "crossprob: exit status and output", "statement": "The crossprob program prints the computed probability as its last output and exits with 0 iff there are two arguments, the file is readable, the algorithm name is known and the algorithm returns; otherwise it prints no number and exits with 1 (argument count), 2 (file too short) or 3 (any other error).", "quantifier": "every argument list and file system", "why_tests_cant": "Property over all invocations.", "anchors": ["src/crossprob.cc:main", "src/crossprob.cc:handle_command_line_arguments"]}
{"id": "C31", "title": "crossprob: end-to-end correctness", "statement": "In exact arithmetic, for a file whose two lines parse to accepted boundaries (or one of them is empty), crossprob ecdf2-ks2001 and ecdf2-mn2017 print the two-sided probability (an empty line meaning 0s or 1s), and ecdf1-new / ecdf1-mns2016 print the one-sided probability and refuse files where both or neither line is empty.", "quantifier": "every such file", "why_tests_cant": "Property over all files.", "anchors": ["src/crossprob.cc"]}
{"id": "C32", "title": "crossprob_mc tests the same event as the exact algorithms", "statement": "For a sorted sample x of length n and boundaries b, B of length n, the crossing test of crossprob_mc answers 'crosses' iff not all b_i <= x_i <= B_i; with an empty first line it ignores b, with an empty second line it ignores B.", "quantifier": "every sample, b and B", "why_tests_cant": "The tests only compare averages with tolerance 0.01.", "anchors": ["src/crossprob_mc.cc:does_integer_step_function_cross"]}
{"id": "C33", "title": "crossprob_mc samples are ordered points of [0,1]", "statement": "In exact arithmetic whenever no generated uniform is 0, the simulated sample has n points, non-decreasing, all within [0,1]; whatever the arithmetic it has n points.", "quantifier": "every generator state and n", "why_tests_cant": "Property over all generator states.", "anchors": ["src/crossprob_mc.cc:does_random_ecdf_cross"]}
{"id": "C34", "title": "crossprob_mc estimates are frequencies", "statement": "For 1 <= num_simulations <= 2^31-1, if every simulation returns, the estimate is (number of crossing simulations)/num_simulations, each simulation being run exactly once in sequence on the evolving generator state.", "quantifier": "every seed, boundaries and num_simulations in that range", "why_tests_cant": "Property over all histories of the generator.", "anchors": ["src/crossprob_mc.cc:ecdf_crossing_probability_montecarlo", "src/crossprob_mc.cc:poisson_process_crossing_probability_montecarlo"]}
{"id": "C35", "title": "crossprob_mc terminates", "statement": "Expected: crossprob_mc terminates for every num_simulations it accepts. Settled: false. For num_simulations >= 2^31 the int loop counter wraps and never reaches it: the poisson estimate never returns and the ecdf estimate never returns normally. For num_simulations <= 2^31-1 both terminate (C34).", "quantifier": "every num_simulations, boundaries, seed and memory content", "why_tests_cant": "Would need more than 2^31 simulations to observe, and non-termination cannot be observed at all.", "anchors": ["src/crossprob_mc.cc:115", "src/crossprob_mc.cc:152"]}
{"id": "C36", "title": "crossprob_mc poisson handles a missing b line", "statement": "Expected: with an empty first line (no upper boundary), the poisson simulation tests the lower boundary only. Settled: false. With an empty first and a non-empty second line every simulation is reported as crossing, also those whose path stays inside, so that the estimate of the crossing probability is 1 (n <= 2147, 1 <= num_simulations <= 2^31-1).", "quantifier": "every B, generator state and floating-point type", "why_tests_cant": "The poisson tests are commented out; a random estimate cannot show that no simulation whatever is counted as non-crossing.", "anchors": ["src/crossprob_mc.cc:does_random_poisson_process_cross"]}
{"id": "C37", "title": "Generator outputs stay in their documented ranges", "statement": "tinymt64 double01, double12, doubleOC and doubleOO outputs lie in [0,1), [1,2), (0,1] and (0,1) respectively, and the 64-bit state words stay below 2^64, for every generator state.", "quantifier": "every state and parameters", "why_tests_cant": "2^127 states.", "anchors": ["src/tinymt64.h"]}
{"id": "C38", "title": "The generator never gets stuck at zero", "statement": "After tinymt64_init or tinymt64_init_by_array, with any seed or key and any parameters, the masked 127-bit state is non-zero forever, and the state transition is injective on masked states.", "quantifier": "every seed, every number of steps", "why_tests_cant": "Property over unbounded histories.", "anchors": ["src/tinymt64.cc:period_certification", "src/tinymt64.h:tinymt64_next_state"]}
{"id": "C39", "title": "Simulations depend only on the seed", "statement": "Expected: the random sequence of crossprob_mc is a function of its seed. Settled: false. tinymt64_init reads mat1, mat2 and tmat, which crossprob_mc never assigns; two contents of that memory give different first outputs for the same seed. The sequence is a function of the seed and these three words.", "quantifier": "every seed and memory content", "why_tests_cant": "Shows only as run-to-run differences that depend on what was in memory.", "anchors": ["src/crossprob_mc.cc:RandomNumberGenerator", "src/tinymt64.cc:tinymt64_init"]}
{"id": "C40", "title": "Python callers see RuntimeError exactly for rejected input", "statement": "A call of the Python functions with assertions compiled out raises RuntimeError iff validation rejects the arguments, and otherwise returns a float (ecdf1_new_*: for non-empty input; exact arithmetic).", "quantifier": "every argument lists", "why_tests_cant": "Property over all arguments.", "anchors": ["src/crossprob.i", "src/ecdf2.cc", "src/ecdf1_new.cc", "src/ecdf1_mns2016.cc"]}
{"id": "C41", "title": "The documented Python example", "statement": "Expected: the example of the module documentation, ecdf2([0,0.15,0.5],[0.7,0.9,0.8],True), returns the probability it describes. Settled: false. In every environment it raises RuntimeError because B is not monotone; the probability it describes is what the call with B = [0.7,0.8,0.8] returns.", "quantifier": "that call in every environment", "why_tests_cant": "No test runs it, and a test could not show that the repaired call returns the described probability.", "anchors": ["src/crossprob.i:DOCSTRING", "setup.py"]}
{"id": "C42", "title": "Simulation seeding is defined for every sample size", "statement": "Expected: the poisson simulation seeds its generator without undefined behaviour for every n. Settled: false. For n >= 2148 the conversion (int)(intensity*1000000.0) is out of range, whatever the boundaries (unless the early return is taken); for n <= 2147 it is exact.", "quantifier": "every n, boundaries and number of simulations", "why_tests_cant": "Undefined behaviour need not show in a test; needs n > 2147.", "anchors": ["src/crossprob_mc.cc:148"]}
{"id": "C43", "title": "Boundaries that are not monotone", "statement": "In exact arithmetic, for b and B with values in [0,1] in any order, the probability that b_i <= X_(i) <= B_i for all i is what ecdf2 returns for the running maximum of b and the running minimum (from the right) of B, which it accepts.", "quantifier": "every b, B of equal length with values in [0,1], assertions compiled out", "why_tests_cant": "An identity between a call and a probability, over all vectors.", "anchors": ["src/ecdf2.cc:ecdf2", "src/common.cc:check_boundary_vector"]}
{"id": "C44", "title": "crossprob_mc reports what it simulated", "statement": "crossprob_mc exits with 0 and prints 1 - (number of crossing simulations)/num_simulations when given two readable lines (first line empty or at least as long as the second; not both empty for ecdf; n <= 2147 for poisson) and 1 <= num_simulations <= 2^31-1; it prints 0 when the first line is shorter than the second but not empty; it exits with 2 for a wrong number of arguments, for a num-simulations that is not an integer in [0,2^63), for an unknown command, and with 1 or 2 for a file that does not hold two lines of numbers.", "quantifier": "every argument list, file system, clock value and memory content", "why_tests_cant": "Random output; property over all files and arguments.", "anchors": ["src/crossprob_mc.cc:main", "src/crossprob_mc.cc:handle_command_line_arguments"]}
{"id": "C45", "title": "The generator has the full period", "statement": "With the parameters mat1 = 0xfa051f40, mat2 = 0xffd0fff4 the authors of TinyMT publish, after tinymt64_init with any seed the 127-bit state recurs after i and j steps iff 2^127-1 divides i-j. Expected of crossprob_mc too; settled: false there, since it never sets the parameters: when mat1 = mat2 = 0 every sequence recurs after fewer than 2^116 steps, and some non-zero state recurs after 5.", "quantifier": "every seed, tmat and pair of step numbers", "why_tests_cant": "The period is far beyond what can be run.", "anchors": ["src/tinymt64.cc:tinymt64_init", "src/tinymt64.cc:period_certification", "src/tinymt64.h:tinymt64_next_state", "src/crossprob_mc.cc:RandomNumberGenerator"]}
{"id": "C46", "title": "Simulated samples are points of the unit interval", "statement": "Expected: the sample drawn by does_random_ecdf_cross is n points of [0,1]. Settled: false. When a uniform drawn is 0 (with the published parameters this happens for every seed), the points before it are 0 and all from it on are NaN; when the first one is 0, no boundary is reported as crossed.", "quantifier": "every sequence of uniforms in [0,1) containing a 0", "why_tests_cant": "Probability 2^-52 per draw.", "anchors": ["src/crossprob_mc.cc:does_random_ecdf_cross", "src/crossprob_mc.cc:RandomNumberGenerator", "src/tinymt64.h:tinymt64_generate_double01"]}
{"id": "C47", "title": "A request for no simulations is refused", "statement": "Expected: crossprob_mc with num-simulations 0 reports an error. Settled: false. It prints NaN and exits with 0 (0/0).", "quantifier": "every file of two lines (first empty or not shorter than the second; n <= 2147 for poisson), clock value and memory content", "why_tests_cant": "Property over all files.", "anchors": ["src/crossprob_mc.cc:handle_command_line_arguments", "src/crossprob_mc.cc:ecdf_crossing_probability_montecarlo"]}
{"id": "C48", "title": "Two empty boundary lines", "statement": "Expected: crossprob_mc ecdf on a file with two empty lines prints 1 or reports an error. Settled: false. It takes the address of element 0 of an empty vector, for every positive number of simulations.", "quantifier": "every number of simulations, clock value and memory content", "why_tests_cant": "Undefined behaviour need not show in a test.", "anchors": ["src/crossprob_mc.cc:does_random_ecdf_cross"]}
{"id": "C49", "title": "The returned probability is accurate", "statement": "In IEEE-754 binary64, if log and lgamma of the C library have relative error at most eps >= 2^-53, and exp too up to underflow, then for accepted b and B with 65536 n^2 eps <= 1 ecdf2(b, B, false) returns a finite double r with |r - p| <= 40000 n^2 eps p + 2^-1000, where p is the probability that n uniform points have order statistics between b and B (with live assertions: provided no b_i exceeds B_(i+1)). For n <= 1000 and eps = 2^-52: |r - p| <= p/100000 + 2^-1000.", "quantifier": "every accepted pair of boundaries with n up to the stated limit, every C library within the stated error", "why_tests_cant": "The true value is not available to a test, and rounding errors accumulate over all inputs.", "anchors": ["src/ecdf2.cc:ecdf2", "src/ecdf2.cc:poisson_process_noncrossing_probability", "src/poisson_pmf.cc:compute_array", "src/common.cc:convolve_same_size"]}
{"id": "C50", "title": "The returned probability is accurate with FFTs too", "statement": "In IEEE-754 binary64, if moreover each number written by FFTW is within epsf >= 2^-53 times the sum of the magnitudes of its input of the exact transform (up to underflow) and 16384 n^2 epsf <= 1, then ecdf2(b, B, true) returns a finite double r with |r - p| <= 40000 n^2 eps p + 10000 n^2 epsf. For n <= 1000, eps = 2^-52, epsf = 2^-47: |r - p| <= 1/10000. The bound is absolute, not relative to p.", "quantifier": "every accepted pair of boundaries with n up to the stated limit, every C library and FFTW within the stated errors", "why_tests_cant": "The true value is not available to a test, and rounding errors accumulate over all inputs.", "anchors": ["src/ecdf2.cc:ecdf2", "src/ecdf2.cc:poisson_process_noncrossing_probability", "src/fftwconvolver.cc:convolve_same_size", "src/fftwconvolver.cc:elementwise_complex_product"]}
{"id": "C51", "title": "Every generator state is reachable from every seed", "statement": "With mat1 = 0xfa051f40 and mat2 = 0xffd0fff4, after tinymt64_init with any seed every non-zero 127-bit state occurs within 2^127-1 steps.", "quantifier": "every seed, tmat and target state", "why_tests_cant": "2^127 steps cannot be run.", "anchors": ["src/tinymt64.cc:tinymt64_init", "src/tinymt64.h:tinymt64_next_state"]}
{"id": "C52", "title": "Generator outputs in binary64", "statement": "Expected: in binary64 every floating-point output of tinymt64 lies in its documented range. Settled: true for double01, double12, doubleOC and doubleOO, whose doubles are exactly the numbers the bit patterns stand for; false for tinymt64_generate_double, documented as 0 <= r < 1: it returns exactly 1 iff the 64-bit output is at least 2^64-2^10, which with the published parameters happens for every seed; otherwise 0 <= r < 1.", "quantifier": "every state (refutation: every seed)", "why_tests_cant": "Probability 2^-54 per call.", "anchors": ["src/tinymt64.h:tinymt64_generate_double", "src/tinymt64.h:tinymt64_temper_conv", "src/tinymt64.h:tinymt64_temper_conv_open"]}
{"id": "C53", "title": "Seeds are not wasted", "statement": "For any parameters, at most four different seeds of tinymt64_init lead to the same 127-bit state (at most two unless that state is the replacement of a zero state); hence of the runs of crossprob_mc with the same n and memory content, started at different seconds, at most four use the same random numbers.", "quantifier": "every set of seeds or clock values, every parameters", "why_tests_cant": "2^64 seeds.", "anchors": ["src/tinymt64.cc:tinymt64_init", "src/tinymt64.cc:period_certification", "src/crossprob_mc.cc:RandomNumberGenerator"]}
{"id": "C54", "title": "crossprob_mc poisson simulates a Poisson process", "statement": "In exact arithmetic, for |b|+1 independent uniforms the event that does_random_poisson_process_cross (scale 1/lambda, b non-empty) reports no crossing has probability sum over k = |B|..|b| of exp(-lambda) lambda^k/k! * p_k, where p_k is the probability that k uniform points have order statistics between the first k entries of b and B continued with ones: the law of a homogeneous Poisson process of intensity lambda.", "quantifier": "every pair of valid boundaries with |B| <= |b|, every intensity lambda > 0", "why_tests_cant": "A statement about the distribution of a random result.", "anchors": ["src/crossprob_mc.cc:does_random_poisson_process_cross", "src/crossprob_mc.cc:RandomNumberGenerator"]}
{"id": "C55", "title": "crossprob_mc ecdf simulates the documented event", "statement": "In exact arithmetic, for n+1 independent uniforms the event that does_random_ecdf_cross reports no crossing has as its probability the documented one: that n uniform points have order statistics between b and B (a missing b standing for zeros, missing last entries of B for ones); it is the number ecdf2 returns for the same boundaries. The event is squeezed between events whose probabilities as iterated Riemann integrals are arbitrarily close to that number.", "quantifier": "every pair of valid boundaries", "why_tests_cant": "A statement about the distribution of a random result.", "anchors": ["src/crossprob_mc.cc:does_random_ecdf_cross", "src/crossprob_mc.cc:RandomNumberGenerator", "src/ecdf2.cc:ecdf2"]}
{"id": "C56", "title": "Monte-Carlo estimates are binomial and converge", "statement": "In exact arithmetic, from num*(n+1) uniforms other than 0 ecdf_crossing_probability_montecarlo returns (number of blocks of n+1 uniforms whose sample crosses)/num; when the uniforms are independent that number is binomially distributed with parameters num and 1-p, p being the documented probability, and the estimate differs from 1-p by more than eps with probability at most p(1-p)/(num eps^2) and, for eps <= 1/2, at most 2 exp(-num eps^2/2).", "quantifier": "every pair of valid boundaries, every num and eps > 0", "why_tests_cant": "A statement about the distribution of a random result.", "anchors": ["src/crossprob_mc.cc:ecdf_crossing_probability_montecarlo", "src/crossprob_mc.cc:does_random_ecdf_cross"]}
{"id": "C57", "title": "The returned upper-boundary probability is accurate", "statement": "In IEEE-754 binary64, if log, lgamma and exp of the C library have relative error at most eps >= 2^-53 (exp up to underflow) and each number written by FFTW is within epsf >= 2^-53 times the sum of the magnitudes of its input of the exact transform, then for an accepted B of n >= 1 numbers (n >= 2 with live assertions) with 65536 n^2.5 eps <= 1 and 16384 n^2.5 epsf <= 1, ecdf1_new_B(B) returns a finite double r with |r - p| <= 60000 n^2 eps + 9000 n^2 epsf, p being the probability that n uniform points have order statistics below B. Below 127 points no FFT is used and the second term is absent. For n <= 1000, eps = 2^-52, epsf = 2^-47: |r - p| <= 1/10000. The bound is absolute: the algorithm subtracts.", "quantifier": "every accepted boundary with n up to the stated limit, every C library and FFTW within the stated errors", "why_tests_cant": "The true value is not available to a test, and rounding errors accumulate over all inputs.", "anchors": ["src/ecdf1_new.cc:ecdf1_new_B", "src/ecdf1_new.cc:poisson_B_noncrossing_probability_n2", "src/poisson_pmf.hh:evaluate_pmf", "src/fftwconvolver.cc:convolve_same_size"]}
{"id": "C58", "title": "The returned lower-boundary probability is accurate", "statement": "As the previous property, for ecdf1_new_b(b) and the probability that n uniform points have order statistics above b: |r - p| <= 60001 n^2 eps + 9000 n^2 epsf. The numbers 1 - b_i, which the function computes with rounding, are included.", "quantifier": "every accepted boundary with n up to the stated limit, every C library and FFTW within the stated errors", "why_tests_cant": "The true value is not available to a test, and rounding errors accumulate over all inputs.", "anchors": ["src/ecdf1_new.cc:ecdf1_new_b", "src/ecdf1_new.cc:ecdf1_new_B"]}
{"id": "C59", "title": "Small changes of the boundaries change the result little", "statement": "In exact arithmetic the results of ecdf2 for (b, B) and (b', B') of the same length n differ by at most n (sum |b_i - b'_i| + sum |B_i - B'_i|); those of ecdf1_new_b, ecdf1_new_B, ecdf1_mns2016_b and ecdf1_mns2016_B for v and v' by at most n sum |v_i - v'_i|. So rounding the boundaries in a file to d digits changes a result by at most 2 n^2 10^-d.", "quantifier": "every two pairs of valid boundaries of the same length, all environments", "why_tests_cant": "A modulus of continuity quantifies over all pairs of inputs.", "anchors": ["src/ecdf2.cc:ecdf2", "src/ecdf1_new.cc:ecdf1_new_B", "src/ecdf1_new.cc:ecdf1_new_b", "src/ecdf1_mns2016.cc:ecdf1_mns2016_b"]}
{"id": "C60", "title": "ecdf1_mns2016 returns a number", "statement": "Expected: for every accepted boundary ecdf1_mns2016_b returns a number. Settled: false. With the 80-bit long double of x86 and correctly rounded powl, for b = (0, 1/8, 1/8, 1-2^-53, 1-2^-53), whose probability is positive, the computed integral is negative, its logarithm is NaN, and NaN is returned without an error.", "quantifier": "every C library with correctly rounded powl whose logl of a negative number is NaN (refutation: one boundary)", "why_tests_cant": "The failing boundaries are rare and have tiny probabilities.", "anchors": ["src/ecdf1_mns2016.cc:ecdf1_mns2016_b", "src/ecdf1_mns2016.cc:PolynomialTranslatedMonomials::evaluate"]}
{"id": "C61", "title": "ecdf1_mns2016 is accurate or NaN", "statement": "With the 80-bit long double of x86, if expl, logl, lgammal and powl (the last on [0,1], up to underflow) have relative error at most eps, 2^-64 <= eps <= 2^-40, then for an accepted b of n <= 4096 numbers and N = n+1, ecdf1_mns2016_b(b) returns r such that, p being the probability that n uniform points have order statistics above b: if p > (56 N^2 + 57 N) eps then r is a finite double with |r - p| <= (56 N^2 + 410 N) eps + 2^-52; otherwise r either satisfies that too or is NaN. For ecdf1_mns2016_B both bounds grow by n^2 2^-53 (rounding of 1 - B_i). For n <= 1000 and eps = 2^-63: NaN only if p <= 1e-11 (1e-9), else |r - p| <= 1e-11 (1e-9).", "quantifier": "every accepted boundary with n <= 4096, every C library within the stated errors", "why_tests_cant": "The true value is not available to a test, and rounding errors accumulate over all inputs.", "anchors": ["src/ecdf1_mns2016.cc:ecdf1_mns2016_b", "src/ecdf1_mns2016.cc:ecdf1_mns2016_B", "src/ecdf1_mns2016.cc:PolynomialTranslatedMonomials::integrate", "src/ecdf1_mns2016.cc:PolynomialTranslatedMonomials::ldexp_all_multiplicative_coefficients"]}
{"id": "C62", "title": "crossprob prints an accurate probability for the numbers in the file", "statement": "In IEEE-754 binary64, for a boundary file whose text denotes real numbers b, B (valid boundaries, none strictly between 0 and 2^-1022), with a correctly rounding strtod and the accuracy assumptions of C49, C50, C57, C58 and C61, the crossprob program exits with status 0 and prints exactly one number r, which is within a stated bound of the true probability p for the numbers as written: ecdf2-ks2001 40002 n^2 eps + 2^-1000; ecdf2-mn2017 40002 n^2 eps + 10000 n^2 epsf; ecdf1-new 60002 n^2 eps + 9000 n^2 epsf; ecdf1-mns2016 either (56 N^2 + 410 N) eps + 2^-52 + 2 n^2 2^-53 with N = n+1, or NaN and then p is at most (56 N^2 + 57 N) eps + 2 n^2 2^-53. Files with an empty line for the missing boundary are included. The conversion of the decimal text to double is included in the bounds; the rounding to the digits printed by operator<< is not.", "quantifier": "every file, every boundary of n numbers up to the limits of those properties, every C library and FFTW within the stated errors", "why_tests_cant": "The true value is not available to a test, and errors of reading and computing accumulate over all inputs.", "anchors": ["src/crossprob.cc:main", "src/crossprob.cc:handle_command_line_arguments", "src/read_boundaries_file.cc:read_and_check_boundaries_file", "src/string_utils.cc:string_to_double", "src/ecdf2.cc:ecdf2", "src/ecdf1_new.cc:ecdf1_new_B", "src/ecdf1_mns2016.cc:ecdf1_mns2016_b"]}
{"id": "C63", "title": "The examples of crossprob's usage text compute what they say", "statement": "Expected: each of the two files shown in the usage text makes crossprob compute the probability of the event described beside it. Settled: false for the first. 'crossprob ecdf2-mn2017' on the file '0, 0.15, 0.5,' / '0.7, 0.9, 1' computes 3173/4000 (exact arithmetic), the probability for X_(3) <= 1, while the event described, X_(1)<=0.7 and 0.15<=X_(2)<=0.9 and 0.5<=X_(3)<=0.7, has probability 409/2000. The second gives 9/20, the probability described, if the first line is empty; written as the usage text prints it, with a first line of spaces, every command exits with status 3 and an error.", "quantifier": "every environment (sorting and FFT as specified) for the computed values; every arithmetic and environment for the failure", "why_tests_cant": "The documented value is not stated anywhere; a test can only record what the program prints.", "anchors": ["src/crossprob.cc:print_usage", "src/read_boundaries_file.cc:read_and_check_boundaries_file"]}
{"id": "C64", "title": "Blank lines and Windows line endings", "statement": "Expected: a line of white space counts as an empty line, and a file with Windows line endings (CR LF) is read like the same file with LF. Settled: a line among the first two that is not empty but consists of white space makes every command exit with status 3. A line followed by a carriage return reads as the same numbers if it is not empty and does not end in a comma, and is rejected otherwise. So a file with CR LF makes the program behave exactly as the file with LF does if neither of its first two lines is empty or ends in a comma, and otherwise every command exits with status 3; in particular both files documented in the usage text fail with Windows line endings.", "quantifier": "every file, every command, every arithmetic and environment", "why_tests_cant": "Quantifies over all files.", "anchors": ["src/read_boundaries_file.cc:read_and_check_boundaries_file", "src/string_utils.cc:read_comma_delimited_doubles", "src/string_utils.cc:string_to_double", "src/crossprob.cc:main"]}
{"id": "C65", "title": "Estimates of crossprob_mc poisson are binomial and converge", "statement": "In exact arithmetic, from num*(|b|+1) uniforms other than 0, poisson_process_crossing_probability_montecarlo with intensity n (1 <= n <= 2147) returns (number of crossing simulations)/num, where successive simulations read the stream of uniforms one after the other, each using one more uniform than its path makes jumps by time 1 but at most |b|+1. Although the simulations use a random number of uniforms, they are independent: when the uniforms are, the number of crossing simulations is binomially distributed with parameters num and 1-p, p being the probability of C54, and the estimate differs from 1-p by more than eps with probability at most p(1-p)/(num eps^2) and, for eps <= 1/2, at most 2 exp(-num eps^2/2).", "quantifier": "every non-empty b, every B no longer than b, every num and eps > 0", "why_tests_cant": "A statement about the distribution of a random result.", "anchors": ["src/crossprob_mc.cc:poisson_process_crossing_probability_montecarlo", "src/crossprob_mc.cc:does_random_poisson_process_cross"]}
{"id": "C66", "title": "The digits printed", "statement": "Expected: what crossprob and crossprob_mc print is the computed number, and small crossing probabilities can be obtained from it. Settled, with operator<< writing a double as the C and C++ standards say (like printf's %.6g): the output of a successful run is one line that strtod reads as a number w; the text is determined by the number printed; w is within 5e-6 times the number, and within 5e-7 for numbers of size at most 1, and a probability is printed as a number in [0,1]. Hence crossprob prints a number within 5e-7 (and 5e-6 relatively) of the exact non-crossing probability in exact arithmetic, and within 5e-7 plus the bound of C62 in binary64 (ecdf2 and ecdf1-new). The expectation about small crossing probabilities is refuted: whenever the probability of crossing is at most 5e-7 the program prints 1, for example for the file 0 / 0.9999999, in exact arithmetic and in binary64. For crossprob_mc in binary64 the number printed is within 5e-7 + 2^-51 of 1 - crossings/num, so the number of crossing simulations can be recovered from it if num < 1000000.", "quantifier": "every number; every file with valid boundaries within the hypotheses of C31 and C62; every num up to 2^31-1", "why_tests_cant": "Quantifies over all numbers and files, and compares with the exact probability.", "anchors": ["src/crossprob.cc:handle_command_line_arguments", "src/crossprob_mc.cc:handle_command_line_arguments", "src/string_utils.cc:string_to_double"]}
{"id": "C67", "title": "The announced running times", "statement": "The usage text and the docstring announce O(n^3) for ecdf2-ks2001, O(n^2 log n) for ecdf2-mn2017, O(n^2) for ecdf1-mns2016 and O(n^2) for ecdf1-new. Counting every array access, arithmetic operation, comparison, call of an elementary function, element copied and loop iteration that is executed, and charging each FFTW transform or plan and each sort at most K (m+1)(log2(m+1)+1) on m points or elements, the number of steps is at most 500 K (n+1)^3, 2500 K (n+1)^2 (log2(n+1)+1), 200 (n+1)^2 and 30000 K (n+1)^2 respectively, for every input and every outcome, including exceptions. For ecdf1-new the block length int k = sqrt(n)+1 matters; the bound holds in exact arithmetic, in binary64 (n up to 2^31-1) and in any arithmetic whose k is between floor(sqrt n)+1 and three times that. A direct convolution of m entries takes exactly 1 + 3m + 5m(m+1)/2 steps.", "quantifier": "every n, every pair of boundaries (valid or not), every arithmetic", "why_tests_cant": "An asymptotic claim: finitely many timings cannot settle it, and they depend on the machine.", "anchors": ["src/crossprob.cc:print_usage", "src/crossprob.i:ecdf2", "src/ecdf2.cc:ecdf2", "src/ecdf1_new.cc:poisson_B_noncrossing_probability_n2", "src/ecdf1_mns2016.cc:ecdf1_mns2016_b", "src/fftwconvolver.cc:FFTWConvolver::convolve_same_size"]}
{"id": "C68", "title": "The expected results of the test suite", "statement": "Every result tests/test_crossprob.py expects from crossprob (18 runs of the four algorithms on seven files) is the true non-crossing probability of the boundaries in the file, rounded to six digits: 1, 3/4, 0.84052878 and two numbers between 0.6089242114 and 0.6089242115. crossprob prints exactly the expected text in all of them, in exact arithmetic and in binary64 with any C library and FFTW accurate to 2^-47 and 2^-45 (and long double functions to 2^-40). The four crossprob_mc tests that simulate a million times pass unless the frequency is off by more than 0.0099, which for independent uniforms has probability at most 10^-20 each; the two tests with boundaries 0 and 1 print exactly 1 whatever the uniforms are.", "quantifier": "every environment within the hypotheses, every rounding and library error within the bounds, every state of the generator", "why_tests_cant": "Running the suite compares the program with numbers that were once produced by the program; whether they are the true probabilities, whether another libm, FFTW or random seed would make the suite fail, and how often, no run can tell.", "anchors": ["tests/test_crossprob.py:test_ecdf2ks2001", "tests/test_crossprob.py:test_ecdf1mns2016", "tests/test_crossprob.py:test_ecdf2mn2017", "tests/test_crossprob.py:test_ecdf1m2020", "tests/test_crossprob.py:test_crossprob_mc_binomial", "src/crossprob.cc:main", "src/crossprob_mc.cc:main"]}
{"id": "C69", "title": "Kolmogorov-Smirnov p-values", "statement": "The library computes p-values of goodness-of-fit tests (README). For any sorted boundaries, b_i <= X_(i) <= B_i for all i means that the empirical counting function of the sample stays between those of the boundaries at every t. With b_i = max(0, i/n - d) and B_i = min(1, (i-1)/n + d) the events are exactly: sup |F_n(t) - t| <= d, sup (F_n(t) - t) <= d (b alone) and sup (t - F_n(t)) <= d (B alone), for every sample in [0,1]. Hence 1 minus the result of ecdf2 (both variants), ecdf1_new_b/B and ecdf1_mns2016_b/B is the probability that the Kolmogorov-Smirnov statistic of n independent uniforms exceeds d (exact arithmetic). In binary64, for n <= 1000 and boundaries passed as doubles within delta of these numbers, the result of ecdf2 is within 1e-4 + 2 n^2 delta of that probability's complement and those of ecdf1_new_b/B within 1e-4 + n^2 delta.", "quantifier": "every n, every d >= 0, every sample; in binary64 every rounding of the boundaries within delta", "why_tests_cant": "The p-values are not available to a test, and the equivalence of the events is a statement about all samples.", "anchors": ["README.md", "src/ecdf2.cc:ecdf2", "src/ecdf1_new.cc:ecdf1_new_b", "src/ecdf1_new.cc:ecdf1_new_B", "src/ecdf1_mns2016.cc:ecdf1_mns2016_b", "src/ecdf1_mns2016.cc:ecdf1_mns2016_B"]}
{"id": "C70", "title": "The Berk-Jones functions of benchmarks/exactbj.py", "statement": "Given scipy's betainc and betaincinv: the probability that the i-th smallest of n uniforms is below x is I_x(i, n-i+1), as the docstring says; Mn_plus_statistic returns the least of the p-values of the order statistics and raises AssertionError for samples outside [0,1]; Mn_plus_distribution(n, x) returns the probability that the statistic is below x. inverse_Mn_plus, in binary64, ends after fewer than 109 of its 110 steps as soon as the test 'distribution < alpha' succeeds at some power 2^-1, ..., 2^-55; it then returns one of two adjacent doubles between which the test changes from true to false (or the upper is 1). If the test fails at all these powers it raises AssertionError. If betaincinv is accurate to delta and libm and FFTW as in C58, every level alpha in (err + n 2^-55, 1] is handled and the probability of the statistic being below the returned threshold differs from alpha by at most err + n 2^-53, where err = 60001 n^2 eps + 9000 n^2 epsf + n^2 delta + 2^-51; for n <= 1000 and alpha >= 0.0002 by at most 1/8000.", "quantifier": "every n, every sample, every x in [0,1], every double alpha in the stated range, every scipy, libm and FFTW within the stated errors", "why_tests_cant": "The distribution of the statistic is not available to a test, and termination of the search with the bracketing property is a claim about all levels.", "anchors": ["benchmarks/exactbj.py:_uniform_order_statistic_cdf", "benchmarks/exactbj.py:Mn_plus_statistic", "benchmarks/exactbj.py:Mn_plus_bounds", "benchmarks/exactbj.py:Mn_plus_distribution", "benchmarks/exactbj.py:inverse_Mn_plus", "src/ecdf1_new.cc:ecdf1_new_b", "src/crossprob.i:ecdf1_new_b"]}
{"id": "C71", "title": "The ecdf simulations in binary64", "statement": "crossprob_mc estimates the right probability although it simulates with doubles: both arithmetics draw the same uniform numbers; with a log of relative accuracy eps, the ordered sample made from n+1 of them is sorted, consists of finite numbers in [0,1] and is within d = 3(eps + 2(n+1)2^-53) of the sample in exact arithmetic. So a simulation whose exact sample stays inside the boundaries narrowed by d is counted as not crossing, and one counted as not crossing has its exact sample inside the boundaries widened by d. The value returned by ecdf_crossing_probability_montecarlo is the frequency of the simulations counted, up to 2^-52. Narrowing or widening the boundaries by d changes the probability by at most 2 n^2 d, so the frequency of num simulations with independent uniforms is above or below the true crossing probability by more than 2 n^2 d + e with probability at most 2 exp(-num e^2/2) each. For n up to 1000 and eps = 2^-52, 2 n^2 d is at most 1.4e-6.", "quantifier": "every n, num up to 2^31-1, all finite boundaries, all uniform numbers in (0,1), every log of accuracy eps with eps + 2(n+1)2^-53 <= 1/8", "why_tests_cant": "A statement about every sequence of random numbers and about the law of a random result, with rounding errors in every step.", "anchors": ["src/crossprob_mc.cc:does_random_ecdf_cross", "src/crossprob_mc.cc:ecdf_crossing_probability_montecarlo", "src/tinymt64.h:tinymt64_generate_double01"]}
{"id": "C72", "title": "The Poisson simulations in binary64", "statement": "crossprob_mc poisson simulates with doubles. With a log of relative accuracy eps, let d = 2(eps + 4 2^-53 + 2(n+1)2^-53), n the length of the lower boundary. A simulated path none of whose jump times (in exact arithmetic) is within d of time 1 and, before time 1, within d of the boundary value it is compared with, is counted as crossing in binary64 exactly if it is in exact arithmetic, and consumes the same number of random numbers, so the following simulations start from the same state of the generator. If this holds in all num simulations, poisson_process_crossing_probability_montecarlo returns their frequency of crossings up to 2^-52. With independent uniforms all this holds, and the frequency is within e of the crossing probability of the Poisson process with intensity lambda, except with probability at most 2 exp(-num e^2/2) + 6 num (n+1)^2 lambda d. For n up to 1000 and eps = 2^-52, d is at most 5e-13.", "quantifier": "every n, every intensity 1..2147, num up to 2^31-1, all finite boundaries, all uniform numbers in (0,1), every log of accuracy eps <= 1/16", "why_tests_cant": "A statement about every sequence of random numbers: one rounding that changes how many numbers a path consumes would shift all later simulations; and about the law of a random result.", "anchors": ["src/crossprob_mc.cc:does_random_poisson_process_cross", "src/crossprob_mc.cc:poisson_process_crossing_probability_montecarlo", "src/crossprob_mc.cc:generate_exponential", "src/tinymt64.h:tinymt64_generate_double01"]}
{"id": "C73", "title": "The algorithms in binary64 agree", "statement": "In binary64, with log, exp and lgamma accurate to 2^-52, FFTs to 2^-47 and long double functions to 2^-63, and for 2 to 1000 points: ecdf2(b, (1,...,1)) with and without FFT, ecdf1_new_b(b) and ecdf1_mns2016_b(b) all return, and any two results differ by at most 2e-4, unless that of ecdf1_mns2016_b is NaN, in which case the others are at most 2e-4; likewise ecdf2((0,...,0), B), ecdf1_new_B(B) and ecdf1_mns2016_B(B). Widening the boundaries decreases the result of ecdf2 by at most 2e-4; boundaries, libraries or variants that differ give results that differ by at most 2e-4 + n (sum |b_i-b'_i| + sum |B_i-B'_i|); every result is between -1e-4 and 1+1e-4, and at most 1e-4 if B_i <= b_i for some i.", "quantifier": "all lists of 2 to 1000 doubles that the input checks accept, every pair of libraries within the stated accuracy", "why_tests_cant": "benchmarks compare the algorithms on a few boundaries; that they agree on all of them, with any libm and FFTW, no test can show.", "anchors": ["src/ecdf2.cc:ecdf2", "src/ecdf1_new.cc:ecdf1_new_b", "src/ecdf1_new.cc:ecdf1_new_B", "src/ecdf1_mns2016.cc:ecdf1_mns2016_b", "src/ecdf1_mns2016.cc:ecdf1_mns2016_B"]}
{"id": "C74", "title": "ecdf2 as compiled with -ffast-math is accurate", "statement": "Makefile and setup.py compile with -ffast-math -march=native. Let the compiler evaluate every sum of terms in any order and grouping (vector lanes), contract any product and addition into one operation, divide by multiplying with a rounded reciprocal, and let the processor replace subnormal numbers by zero. Let log, exp and lgamma have relative errors up to eps >= 2^-51 (exp also an absolute error 2^-1020), as vectorised libraries do. Then for n points with 65536 n^2 eps <= 1 and boundary values that are 0 or at least 2^-900, ecdf2 (without FFT, or with FFT up to 126 points) returns a finite number within 40000 n^2 eps p + 2^-900 of the non-crossing probability p: a relative error, however small p is. For n <= 1000 and 4 units in the last place the relative error is at most 4e-5, and any two such builds, with different compilers and libraries, differ by at most 1e-4.", "quantifier": "every choice of evaluation order, contraction and division within the stated rules, with and without flushing of subnormal numbers, every library within eps, all boundaries that the input checks accept with values 0 or at least 2^-900", "why_tests_cant": "A test runs one binary from one compiler on one processor; what other compilers or flags make of the same source, only a statement about all evaluation orders covers.", "anchors": ["Makefile", "setup.py", "src/ecdf2.cc:ecdf2", "src/fftwconvolver.cc:convolve_same_size_naive", "src/poisson_pmf.cc:PoissonPMFGenerator::compute_array"]}
{"id": "C75", "title": "ecdf2 with FFT convolutions as compiled with -ffast-math is accurate", "statement": "With the compilers and libraries of C74, and FFTs whose absolute errors are at most epsf >= 2^-50 times the sum of the absolute values of the inputs: for n points with 65536 n^2 eps <= 1 and 16384 n^2 epsf <= 1, and boundary values that are 0 or at least 2^-900, ecdf2 with or without FFT returns a finite number within 40000 n^2 eps p + 8400 n^2 epsf + 2^-900 of the non-crossing probability p. For n <= 1000, eps = 2^-50 and epsf = 2^-47 the absolute error is at most 1e-4, and the results with and without FFT, or of two builds, differ by at most 2e-4.", "quantifier": "every choice of evaluation order, contraction and division, with and without flushing, every library within eps and every FFT within epsf, all boundaries that the input checks accept with values 0 or at least 2^-900", "why_tests_cant": "A test runs one binary with one FFTW on a few boundaries; the errors of hundreds of FFT convolutions in sequence, for every compiler and FFT, no test bounds.", "anchors": ["Makefile", "setup.py", "src/ecdf2.cc:ecdf2", "src/fftwconvolver.cc:FFTWConvolver::convolve_same_size", "src/fftwconvolver.cc:elementwise_complex_product"]}
{"id": "C76", "title": "ecdf1_new as compiled with -ffast-math is accurate", "statement": "With the compilers, libraries and FFTs of C74 and C75, where the inner loop of ecdf1_new may also merge its subtractions with each other and with the sum of products they start from: for n points with 65536 n^2 sqrt(n) eps <= 1 and 16384 n^2 sqrt(n) epsf <= 1, boundary values that are 0 or at least 2^-900, and n >= 2 if assertions are compiled in, ecdf1_new_B returns a finite number within 60000 n^2 eps + 9000 n^2 epsf + 2^-1022 of the non-crossing probability. Below 127 points nothing needs to be assumed of FFTW. For n <= 1000, eps = 2^-50 and epsf = 2^-47 the error is at most 1.2e-4, and the result differs by at most 2.2e-4 from that of ecdf2 with a lower boundary of zeros, with or without FFT, in this build or another. The same error bounds (60001 instead of 60000) hold for ecdf1_new_b if the vector 1-b that it passes to ecdf1_new_B is stored in memory.", "quantifier": "every choice of evaluation order, contraction and division, with and without flushing, every library within eps and every FFT within epsf, all boundaries that the input checks accept with values 0 or at least 2^-900", "why_tests_cant": "The algorithm subtracts nearly equal numbers many times, so its errors depend on the order in which a compiler sums; a test sees one order on a few boundaries.", "anchors": ["Makefile", "setup.py", "src/ecdf1_new.cc:ecdf1_new_B", "src/ecdf1_new.cc:ecdf1_new_b", "src/ecdf1_new.cc:poisson_B_noncrossing_probability_n2", "src/fftwconvolver.cc:FFTWConvolver::convolve_same_size"]}
{"id": "C77", "title": "The crossprob program as compiled with -ffast-math prints accurate probabilities", "statement": "With the compilers, libraries and FFTs of C74 to C76 and a strtod that rounds to nearest: if the file holds two boundary lines of n real numbers from [0,1], sorted, each 0 or at least 2^-900, then 'crossprob ecdf2-ks2001 FILE' and 'crossprob ecdf2-mn2017 FILE' print one finite number and exit with status 0, and the number differs from the non-crossing probability of the numbers written in the file by at most 40001 n^2 eps + 2^-900, plus 8400 n^2 epsf for ecdf2-mn2017; for n <= 1000, eps = 2^-50 and epsf = 2^-47 by at most 1e-4. The bounds hold with one of the two lines empty (no lower, or no upper boundary). 'crossprob ecdf1-new FILE' on an upper boundary prints a number within 60001 n^2 eps + 9000 n^2 epsf + 2^-1022 of the probability.", "quantifier": "every file with such numbers, every choice of evaluation order, contraction and division, with and without flushing, every library within eps and every FFT within epsf", "why_tests_cant": "The path from decimal text to printed number depends on rounding while reading, the compiler, libm and FFTW; a test checks a few files in one build.", "anchors": ["Makefile", "setup.py", "src/crossprob.cc:main", "src/crossprob.cc:handle_command_line_arguments", "src/crossprob.cc:calculate_ecdf2_ks2001", "src/crossprob.cc:calculate_ecdf2_mn2017", "src/crossprob.cc:calculate_ecdf1_new", "src/read_boundaries_file.cc:read_and_check_boundaries_file", "src/string_utils.cc:string_to_double"]}
{"id": "C78", "title": "The simulations of crossprob_mc as compiled with -ffast-math decide as the exact simulations do, away from the boundaries", "statement": "For every way -ffast-math may evaluate the sums of exponentials, contract products, divide through reciprocals and flush subnormal numbers, with log accurate to eps: the compiled generator returns the uniform numbers of the exact one. Every point of the simulated sample is within d = 3 (eps + 3 (n+2) 2^-53) of the exact one, and the simulation answers 'inside' if the exact sample is inside the boundaries moved inwards by d, and only if it is inside the boundaries moved outwards by d. The result is within 2^-51 of the frequency of these answers (so C71's exponential bounds apply with this d; 2 n^2 d <= 2.2e-6 for n <= 1000). A Poisson path none of whose jumps is within 2 (eps + 5 2^-53 + 3 (n+2) 2^-53) of a boundary or of time 1 gets the exact answer after the same number of random numbers.", "quantifier": "every choice of evaluation order, contraction and division, with and without flushing, every library within eps, all boundaries of 0s and normal numbers, all seeds and contents of the uninitialised generator whose uniforms are not 0, all sample sizes up to 2^40 - 2 and up to INT_MAX simulations, intensities 1 to 2147", "why_tests_cant": "The sums are reassociated differently on each machine, so simulated points move by rounding errors and can change sides of a boundary; no run shows how often.", "anchors": ["Makefile", "setup.py", "src/crossprob_mc.cc:RandomNumberGenerator", "src/crossprob_mc.cc:does_random_ecdf_cross", "src/crossprob_mc.cc:ecdf_crossing_probability_montecarlo", "src/crossprob_mc.cc:does_random_poisson_process_cross", "src/crossprob_mc.cc:poisson_process_crossing_probability_montecarlo", "src/crossprob_mc.cc:does_integer_step_function_cross", "src/tinymt64.h:tinymt64_generate_double01"]}
{"id": "C79", "title": "ecdf1_mns2016 as compiled with -ffast-math stays within the accuracy of the strict build for probabilities that are not tiny", "statement": "Whatever order the compiler chooses for the long double sums, and whether it divides or multiplies by the reciprocal, with expl, logl, lgammal and powl accurate to eps: ecdf1_mns2016_b and ecdf1_mns2016_B return normally; if the non-crossing probability exceeds (56 N^2 + 57 N) eps (N = n+1), the result is a finite number within (56 N^2 + 410 N) eps + 2^-52 of it (n^2 2^-53 more, in both, for the upper boundary). With eps = 2^-63 and n <= 1000: within 1e-11 (1e-9 for upper boundaries). Two -ffast-math builds, or one with and one without, then differ by at most 2e-11. The command ecdf1-mns2016 prints such a number for the decimal boundary in its file.", "quantifier": "every choice of evaluation order, contraction, reciprocals and flushing, every library within eps (2^-64 to 2^-40), all accepted boundaries of up to 4096 points (for upper boundaries and files: of 0s and numbers from 2^-900 on), all files holding such a boundary", "why_tests_cant": "The algorithm rescales long double numbers by powers of two and takes logarithms of sums of translated polynomials; reassociation changes every intermediate number, differently on each compiler.", "anchors": ["Makefile", "setup.py", "src/ecdf1_mns2016.cc:ecdf1_mns2016_b", "src/ecdf1_mns2016.cc:ecdf1_mns2016_B", "src/ecdf1_mns2016.cc:FLOAT", "src/crossprob.cc:calculate_ecdf1_mns2016", "src/crossprob.cc:handle_command_line_arguments"]}
{"id": "C80", "title": "The running time of crossprob_mc", "statement": "crossprob_mc ecdf takes at most 110 (n+1) (N+1) elementary steps for N simulations of n points, for every outcome, and at least 50 (n+1) N if it simulates at all: a crossing found early saves nothing. crossprob_mc poisson takes at most 110 (m+1) (N+1) steps, where m is the number of entries of the first line, however many jumps the simulated process has, and at least 50 N. A simulated sample uses exactly n + 1 random numbers, a Poisson path at least 1 and at most m + 1.", "quantifier": "all arithmetics, boundaries, seeds, contents of the uninitialised generator, intensities, and numbers of simulations from 0 to INT_MAX", "why_tests_cant": "A Poisson path has no bound on its number of jumps, and only the early return of lines 134-136 bounds the work; timing runs sample typical paths only.", "anchors": ["src/crossprob_mc.cc:does_random_ecdf_cross", "src/crossprob_mc.cc:ecdf_crossing_probability_montecarlo", "src/crossprob_mc.cc:does_random_poisson_process_cross", "src/crossprob_mc.cc:poisson_process_crossing_probability_montecarlo", "src/crossprob_mc.cc:does_integer_step_function_cross", "src/crossprob_mc.cc:RandomNumberGenerator"]}
{"id": "C81", "title": "The test suite passes when compiled with -ffast-math", "statement": "Built with the flags of the Makefile (-ffast-math), crossprob prints exactly the expected text for every row of tests/test_crossprob.py: whichever evaluation orders, contractions, reciprocals and flushes the compiler chooses in double and in long double, the printed six digits of all rows are the expected ones. For ecdf1-new on a file with a lower boundary only (two rows) the vector of reflected steps is taken to be evaluated once, when it is written to memory.", "quantifier": "all compilers of the fast-math model, with or without assertions, all C libraries with relative errors up to 2^-47 (double) and 2^-40 (long double), all FFTs accurate to 2^-45", "why_tests_cant": "A run of the test suite shows that one compiler's choices on one machine give the expected digits; another compiler version or -march=native on another CPU makes other choices.", "anchors": ["tests/test_crossprob.py", "Makefile:CXXFLAGS", "src/crossprob.cc:handle_command_line_arguments", "src/ecdf2.cc:ecdf2", "src/ecdf1_new.cc:ecdf1_new_B", "src/ecdf1_new.cc:ecdf1_new_b", "src/ecdf1_mns2016.cc:ecdf1_mns2016_b", "src/ecdf1_mns2016.cc:ecdf1_mns2016_B"]}
{"id": "C82", "title": "crossprob_mc as compiled with -ffast-math: from the file to the printed number", "statement": "Built with the flags of the Makefile (-ffast-math), 'crossprob_mc ecdf FILE NUM' prints one number within 5*10^-7 + 2^-50 of 1 - (crossings found)/NUM, where each simulation's answer is right for boundaries moved by at most d = 3 (eps + 3 (n+2) 2^-53) + 2^-53: a sample inside the boundaries moved inwards is counted as inside, one outside the boundaries moved outwards as crossing. When no simulation crosses it prints exactly 1. 'crossprob_mc poisson' prints the same function of the crossings of the exact paths whenever no jump lies within 2 (eps + 5*2^-53 + 3 (n+2) 2^-53) of a boundary or of time 1. With independent uniform numbers each of the four tests that simulate a million times fails with probability at most 2*10^-20, and the two tests that expect 1 print 1 unless a sample point lies within d of 0 or 1.", "quantifier": "all compilers of the fast-math model, all C libraries with relative error eps, all files, numbers of simulations, start times and seeds, and all streams of random numbers", "why_tests_cant": "A run samples one seed with one compiler; the tests compare with a tolerance of 0.01 and cannot tell a rare failure from a wrong program.", "anchors": ["src/crossprob_mc.cc:main", "src/crossprob_mc.cc:handle_command_line_arguments", "src/crossprob_mc.cc:ecdf_crossing_probability_montecarlo", "src/crossprob_mc.cc:poisson_process_crossing_probability_montecarlo", "src/read_boundaries_file.cc:read_and_check_boundaries_file", "src/string_utils.cc:string_to_long", "src/tinymt64.h:tinymt64_generate_double01", "tests/test_crossprob.py:test_crossprob_mc_binomial", "Makefile"]}
{"id": "C83", "title": "crossprob_mc in binary64: from the file to the printed number", "statement": "In IEEE binary64, 'crossprob_mc ecdf FILE NUM' prints one number within 5*10^-7 + 2^-50 of 1 - (crossings found)/NUM, and each simulation's answer is right for the boundaries of the file moved by at most d = 3 (eps + 2 (n+1) 2^-53) + 2^-53. 'crossprob_mc poisson' does the same for the exact paths whenever no jump lies within 2 (eps + 4*2^-53 + 2 (n+1) 2^-53) of a boundary or of time 1. A file whose lower values are all 0 and whose upper values are all 1 always gives exactly the text 1: rounding never moves a sample point out of [0,1]. The test suite's rows for crossprob_mc pass unless the stream of random numbers belongs to a set of probability at most 2*10^-20; the two rows that expect 1 always pass.", "quantifier": "all C libraries with relative error eps and correctly rounded strtod, all files, numbers of simulations, start times and seeds, and all streams of random numbers in (0,1)", "why_tests_cant": "A run samples one seed; whether a rounded sample point could ever fall outside [0,1] or a rounding could flip many answers is a statement about all streams.", "anchors": ["src/crossprob_mc.cc:main", "src/crossprob_mc.cc:handle_command_line_arguments", "src/crossprob_mc.cc:ecdf_crossing_probability_montecarlo", "src/crossprob_mc.cc:poisson_process_crossing_probability_montecarlo", "src/crossprob_mc.cc:does_random_ecdf_cross", "src/read_boundaries_file.cc:read_and_check_boundaries_file", "src/string_utils.cc:string_to_long", "tests/test_crossprob.py:test_crossprob_mc_binomial"]}
{"id": "C84", "title": "Kolmogorov-Smirnov p-values from a -ffast-math build", "statement": "In a build with -ffast-math, for a sample of up to 1000 points: ecdf2 run on doubles within delta of the boundaries max(0, i/n - d) and min(1, (i-1)/n + d) returns, up to 10^-4 + 2 n^2 delta, one minus the p-value of the two-sided Kolmogorov-Smirnov statistic d, whether or not the FFT is used; ecdf1_new_b and ecdf1_new_B return, up to 1.2*10^-4 + n^2 delta, one minus the one-sided p-values. If the boundaries are in a file, the number that crossprob prints for the two-sided test is within 1.1*10^-4 + 2 n^2 delta of one minus the p-value.", "quantifier": "all compilers within the -ffast-math model, all C libraries and transforms of the stated accuracy, all n up to 1000, all d, all doubles (or decimal texts) within delta of the boundaries and not between 0 and 2^-900", "why_tests_cant": "The statement compares a compiled program with the distribution of a statistic over all samples, for every sample size, threshold and way of reordering the arithmetic.", "anchors": ["src/ecdf2.cc:ecdf2", "src/ecdf1_new.cc:ecdf1_new_b", "src/ecdf1_new.cc:ecdf1_new_B", "src/crossprob.cc:main", "src/read_boundaries_file.cc:read_and_check_boundaries_file", "Makefile", "setup.py"]}
{"id": "C85", "title": "The digits crossprob prints, in a -ffast-math build", "statement": "In a build with -ffast-math the text crossprob prints for ecdf2-ks2001, ecdf2-mn2017, ecdf1-new (upper boundary) and ecdf1-mns2016 is that of one number w. If the computed value is within tol of the probability p for the numbers written in the file (the bounds of C77 and C79), then |w - p| <= tol + 10^-5 when tol <= 1, and |w - p| <= tol + 5*10^-7 when tol <= 5*10^-6. For ecdf1-mns2016 this needs p to exceed the error bound of C79.", "quantifier": "all compilers within the -ffast-math model, all C libraries and transforms of the stated accuracy, all files with numbers that are 0 or at least 2^-900", "why_tests_cant": "Whether printing six digits can turn a small error of the computed value into a large one is a statement about every double near every probability.", "anchors": ["src/crossprob.cc:main", "src/crossprob.cc:handle_command_line_arguments", "src/crossprob.cc:calculate_ecdf2_mn2017", "src/crossprob.cc:calculate_ecdf1_new", "src/read_boundaries_file.cc:read_and_check_boundaries_file", "Makefile"]}
{"id": "C86", "title": "The algorithms in the benchmark report the same number", "statement": "The measurements of benchmarks/exactbj.py save, for every pair (n, threshold) and for each of KS2001, MNS2016, MN2017 and NEW that is run on samples of size n, the probability that the one-sided Berk-Jones statistic of n uniform points is below the threshold, and the least of the times measured in the repetitions; entries of algorithms not run on n points, and entries for which no threshold has been saved, stay None and inf. So the reported numbers are equal in exact arithmetic. In binary64, for up to 1000 points, each is within 2*10^-4 of one minus the non-crossing probability p of the computed boundaries; for MNS2016 it is within 10^-10, or NaN with p at most 10^-11. The large-scale measurements save the same for MN2017 and NEW. Run in sequence in binary64, the search for the thresholds of a level alpha between 2*10^-4 and 1 succeeds and every number reported at them is within 10^-3 of alpha (MNS2016 may report NaN if alpha is within 10^-3 of 1).", "quantifier": "all non-empty lists of pairs (n, threshold), all size limits, all numbers of repetitions from 1, all measured times, all C libraries, transforms and scipy implementations meeting the stated contracts", "why_tests_cant": "The benchmark only stores the numbers; whether four algorithms agree at every size and threshold, and with the distribution they are compared for, is a statement over all boundaries.", "anchors": ["benchmarks/exactbj.py:precalc_Mn_plus_alpha_level_thresholds", "benchmarks/exactbj.py:precalc_timings_Mn_plus", "benchmarks/exactbj.py:precalc_timings_Mn_plus_largescale", "benchmarks/exactbj.py:Mn_plus_bounds", "src/ecdf2.cc:ecdf2", "src/ecdf1_mns2016.cc:ecdf1_mns2016_b", "src/ecdf1_new.cc:ecdf1_new_b"]}
