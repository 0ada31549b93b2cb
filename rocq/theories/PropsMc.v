(** * PropsMc: properties C32-C39, C42, C44, the Monte-Carlo program and its generator.

    McSpec.v has the specification ([stays_inside], [draws], [simulations],
    [crossings], [jump_times]); [state_ok], [masked] and [parameters] are in
    TinyMTFacts.v.  In [ecdf_crossing_probability_montecarlo fuel uninit now ...],
    [uninit] is the content of the generator's memory before it is initialised,
    [now] is time(NULL), and running out of [fuel] loop rounds is [Hang]. *)
From Coquelicot Require Import Coquelicot.
From Coq Require Import ZArith Reals List Bool String Sorted.
From Verif Require Import Base Num XReal TinyMT MonteCarlo StringUtils.
From Verif Require Import Spec StringSpec CliSpec McSpec McFacts McLoop TinyMTFacts McMore Cases TextMore.
Import List. Import ListNotations.
Local Open Scope string_scope.
Local Open Scope R_scope.

(** ** C32 *)
Theorem C32_crossing_test : forall frexp (b B x : list R), exists c,
  does_integer_step_function_cross (N := Xnum frexp) (map Fin x) (Z.of_nat (List.length x)) (map Fin b) (map Fin B) = Ok c /\
  (c = false <-> stays_inside b B x).
Proof. exact (@cross_spec). Qed.
Print Assumptions C32_crossing_test.
Theorem C32_same_event : forall frexp (b B x : list R), Sorted Rle x -> List.length b = List.length x -> List.length B = List.length x ->
  exists c, does_integer_step_function_cross (N := Xnum frexp) (map Fin x) (Z.of_nat (List.length x)) (map Fin b) (map Fin B) = Ok c /\
  (c = false <-> noncrossing b B x).
Proof. exact (@cross_is_event). Qed.
Print Assumptions C32_same_event.
Theorem C32_same_event_lower_only : forall frexp (B x : list R), Sorted Rle x -> List.length B = List.length x ->
  exists c, does_integer_step_function_cross (N := Xnum frexp) (map Fin x) (Z.of_nat (List.length x)) [] (map Fin B) = Ok c /\
  (c = false <-> noncrossing_B B x).
Proof. exact (@cross_is_event_B). Qed.
Print Assumptions C32_same_event_lower_only.
Theorem C32_same_event_upper_only : forall frexp (b x : list R), Sorted Rle x -> List.length b = List.length x ->
  exists c, does_integer_step_function_cross (N := Xnum frexp) (map Fin x) (Z.of_nat (List.length x)) (map Fin b) [] = Ok c /\
  (c = false <-> noncrossing_b b x).
Proof. exact (@cross_is_event_b). Qed.
Print Assumptions C32_same_event_upper_only.
Theorem C32_poisson : forall frexp (b B : list R) beta us u r r', 0 < beta -> b <> [] ->
  Forall (fun v => 0 < v < 1) (us ++ [u]) -> draws (N := Xnum frexp) r (map Fin (us ++ [u])) r' ->
  let es := map (fun v => beta * - ln v) us in
  Forall (fun t => t <= 1) (jump_times es) -> 1 < McSpec.total es + beta * - ln u ->
  exists c r1, does_random_poisson_process_cross (N := Xnum frexp) (map Fin b) (map Fin B) (Fin beta) r = Ok (c, r1) /\
    (c = false <-> stays_inside b B (jump_times es)).
Proof. exact (@poisson_cross_spec). Qed.
Print Assumptions C32_poisson.
Example C32_case : exists beta u v r1, 0 < beta /\ Forall (fun v => 0 < v < 1) ([u] ++ [v]) /\
  draws (N := Xnum some_frexp) case_state (map Fin ([u] ++ [v])) r1 /\
  Forall (fun t => t <= 1) (jump_times (map (fun v => beta * - ln v) [u])) /\
  1 < McSpec.total (map (fun v => beta * - ln v) [u]) + beta * - ln v.
Proof. exact (@one_jump some_frexp). Qed.

(** ** C33 *)
Theorem C33_sample : forall frexp (us : list R) r r1, Forall (fun u => 0 < u < 1) us -> us <> [] ->
  draws (N := Xnum frexp) r (map Fin us) r1 ->
  exists x, random_ecdf (N := Xnum frexp) (List.length us - 1) r = (map Fin x, r1) /\
    List.length x = (List.length us - 1)%nat /\ Sorted Rlt x /\ Forall (fun t => 0 < t < 1) x /\
    forall k, (k < List.length x)%nat ->
      nth k x 0 = McSpec.total (map (fun u => - ln u) (firstn (S k) us)) / McSpec.total (map (fun u => - ln u) us).
Proof. exact (@random_ecdf_sample). Qed.
Print Assumptions C33_sample.
Theorem C33_length : forall (N : num) n r, List.length (fst (random_ecdf (N := N) n r)) = n.
Proof. exact (@random_ecdf_length). Qed.
Print Assumptions C33_length.
Theorem C33_simulation : forall frexp (b B us : list R) r r1, Forall (fun u => 0 < u < 1) us -> (2 <= List.length us)%nat ->
  draws (N := Xnum frexp) r (map Fin us) r1 ->
  exists x c, does_random_ecdf_cross (N := Xnum frexp) (map Fin b) (map Fin B) (List.length us - 1) r = Ok (c, r1) /\
    List.length x = (List.length us - 1)%nat /\ Sorted Rlt x /\ Forall (fun t => 0 < t < 1) x /\
    (forall k, (k < List.length x)%nat ->
      nth k x 0 = McSpec.total (map (fun u => - ln u) (firstn (S k) us)) / McSpec.total (map (fun u => - ln u) us)) /\
    (c = false <-> stays_inside b B x).
Proof. exact (@ecdf_simulation). Qed.
Print Assumptions C33_simulation.
Example C33_case : exists u v w r1, Forall (fun u => 0 < u < 1) [u; v; w] /\
  draws (N := Xnum some_frexp) case_state (map Fin [u; v; w]) r1.
Proof. exact (@three_draws some_frexp). Qed.

(** ** C34, for every floating-point type *)
Theorem C34_ecdf : forall (N : num) uninit now n (b B : list (car N)) num,
  (1 <= n)%Z -> (size B <= n)%Z -> (b = [] \/ (n <= size b)%Z) -> (0 <= num <= INT_MAX)%Z ->
  exists cs, Z.of_nat (List.length cs) = num /\
    simulations (does_random_ecdf_cross b B (Z.to_nat n)) (rng_make uninit (now + n * 2 ^ 20)) cs /\
    forall fuel, (Z.to_nat num <= fuel)%nat ->
      ecdf_crossing_probability_montecarlo fuel uninit now n b B num = Ok (n_div (n_of_Z (crossings cs)) (n_of_Z num)).
Proof. exact (@ecdf_estimate). Qed.
Print Assumptions C34_ecdf.
Theorem C34_poisson : forall (N : num) uninit now intensity (b B : list (car N)) num k,
  (b = [] \/ (size B <= size b)%Z) -> seed_converts intensity k -> (0 <= num <= INT_MAX)%Z ->
  exists cs, Z.of_nat (List.length cs) = num /\
    simulations (does_random_poisson_process_cross b B (n_div n1 intensity)) (rng_make uninit (now + k)) cs /\
    forall fuel, (Z.to_nat num <= fuel)%nat ->
      poisson_process_crossing_probability_montecarlo fuel uninit now intensity b B num =
        Ok (n_div (n_of_Z (crossings cs)) (n_of_Z num)).
Proof. exact (@poisson_estimate). Qed.
Print Assumptions C34_poisson.
Theorem C34_frequency : forall frexp c num, (0 <= c <= num)%Z -> (1 <= num)%Z ->
  @n_div (Xnum frexp) (n_of_Z c) (n_of_Z num) = Fin (IZR c / IZR num) /\ (0 <= IZR c / IZR num <= 1)%R.
Proof. exact (@frequency_exact). Qed.
Print Assumptions C34_frequency.
Example C34_case : seed_converts (N := Xnum some_frexp) (n_of_Z 5) 5000000 /\ seed_converts (N := Xnum some_frexp) (n_of_Z 2) 2000000 /\
  (@size (car (Xnum some_frexp)) (map Fin case_b) = 2)%Z.
Proof. exact (@case_seed some_frexp). Qed.

(** ** C35: the expected property is false *)
Theorem C35_terminates_refuted : forall (N : num) fuel uninit now n (b B : list (car N)) num k,
  (size B <= n)%Z -> (b = [] \/ (n <= size b)%Z) -> (INT_MAX < num)%Z ->
  ecdf_crossing_probability_montecarlo fuel uninit now n b B num <> Ok k.
Proof. exact (@ecdf_never_ends). Qed.
Print Assumptions C35_terminates_refuted.
Theorem C35_poisson_hangs_refuted : forall (N : num) fuel uninit now intensity (b B : list (car N)) num k,
  (b = [] \/ (size B <= size b)%Z) -> seed_converts intensity k -> (INT_MAX < num)%Z ->
  poisson_process_crossing_probability_montecarlo fuel uninit now intensity b B num = Hang.
Proof. exact (@poisson_hangs). Qed.
Print Assumptions C35_poisson_hangs_refuted.
Example C35_case : forall uninit now,
  (forall fuel k, ecdf_crossing_probability_montecarlo (N := Xnum some_frexp) fuel uninit now 2 (map Fin case_b) (map Fin ones2) (2 ^ 31) <> Ok k) /\
  (forall fuel, poisson_process_crossing_probability_montecarlo (N := Xnum some_frexp) fuel uninit now (n_of_Z 2) (map Fin case_b) (map Fin ones2) (2 ^ 31) = Hang).
Proof. exact (@case_endless some_frexp). Qed.

(** ** C36: the expected property is false *)
Theorem C36_missing_b_refuted : forall frexp, exists beta r es, 0 < beta /\
  (exists us u r1, Forall (fun v => 0 < v < 1) (us ++ [u]) /\ draws (N := Xnum frexp) r (map Fin (us ++ [u])) r1 /\
     es = map (fun v => beta * - ln v) us /\ Forall (fun t => t <= 1) (jump_times es) /\ 1 < McSpec.total es + beta * - ln u) /\
  stays_inside [] [1] (jump_times es) /\
  exists r1, does_random_poisson_process_cross (N := Xnum frexp) [] [Fin 1] (Fin beta) r = Ok (true, r1).
Proof. exact (@poisson_no_b_wrong). Qed.
Print Assumptions C36_missing_b_refuted.
Theorem C36_always_crosses : forall (N : num) (B : list (car N)) beta r, B <> [] ->
  exists r', does_random_poisson_process_cross [] B beta r = Ok (true, r').
Proof. exact (@poisson_no_b). Qed.
Print Assumptions C36_always_crosses.
Theorem C36_estimate_is_one : forall frexp fuel uninit now n (B : list (car (Xnum frexp))) num,
  B <> [] -> (0 <= n <= 2147)%Z -> (1 <= num <= INT_MAX)%Z -> (Z.to_nat num <= fuel)%nat ->
  poisson_process_crossing_probability_montecarlo (N := Xnum frexp) fuel uninit now (n_of_Z n) [] B num = Ok (Fin 1).
Proof. exact (@poisson_no_b_estimate). Qed.
Print Assumptions C36_estimate_is_one.

(** ** C37 *)
Theorem C37_ranges : forall frexp r, state_ok r ->
  (exists u, fst (@tinymt64_generate_double01 (Xnum frexp) r) = Fin u /\ (0 <= u < 1)%R /\
     exists m, (0 <= m)%Z /\ u = (IZR m / IZR (2 ^ 52))%R) /\
  (exists u, fst (@tinymt64_generate_double12 (Xnum frexp) r) = Fin u /\ (1 <= u < 2)%R) /\
  (exists u, fst (@tinymt64_generate_doubleOC (Xnum frexp) r) = Fin u /\ (0 < u <= 1)%R) /\
  (exists u, fst (@tinymt64_generate_doubleOO (Xnum frexp) r) = Fin u /\ (0 < u < 1)%R) /\
  (0 <= fst (tinymt64_generate_uint64 r) < 2 ^ 64)%Z /\
  state_ok (tinymt64_next_state r).
Proof. exact (@outputs_in_range). Qed.
Print Assumptions C37_ranges.
Example C37_case : state_ok case_state.
Proof. exact case_state_ok. Qed.

(** ** C38 *)
Theorem C38_init : forall r seed, word 32 (mat1 r) -> word 32 (mat2 r) -> word 64 (tmat r) -> word 64 seed ->
  state_ok (tinymt64_init r seed) /\ masked (tinymt64_init r seed) <> (0, 0)%Z.
Proof. exact init_ok. Qed.
Print Assumptions C38_init.
Theorem C38_init_by_array : forall r key, word 32 (mat1 r) -> word 32 (mat2 r) -> word 64 (tmat r) ->
  state_ok (tinymt64_init_by_array r key) /\ masked (tinymt64_init_by_array r key) <> (0, 0)%Z.
Proof. exact init_by_array_ok. Qed.
Print Assumptions C38_init_by_array.
Theorem C38_never_zero : forall r k, state_ok r -> masked r <> (0, 0)%Z ->
  masked (Nat.iter k tinymt64_next_state r) <> (0, 0)%Z.
Proof. exact iter_nonzero. Qed.
Print Assumptions C38_never_zero.
Theorem C38_injective : forall r1 r2, state_ok r1 -> state_ok r2 -> parameters r1 = parameters r2 ->
  masked (tinymt64_next_state r1) = masked (tinymt64_next_state r2) -> masked r1 = masked r2.
Proof. exact next_injective. Qed.
Print Assumptions C38_injective.
Theorem C38_recurs : forall r, state_ok r -> exists p, (0 < p)%nat /\ (Z.of_nat p <= 2 ^ 127)%Z /\
  masked (Nat.iter p tinymt64_next_state r) = masked r.
Proof. exact recurs. Qed.
Print Assumptions C38_recurs.

(** ** C39: the expected property is false *)
Theorem C39_function_of_seed_refuted : forall frexp, exists u1 u2 seed, state_ok u1 /\ state_ok u2 /\
  fst (@generate_uniform01 (Xnum frexp) (rng_make u1 seed)) <> fst (@generate_uniform01 (Xnum frexp) (rng_make u2 seed)).
Proof. exact (@not_a_function_of_the_seed). Qed.
Print Assumptions C39_function_of_seed_refuted.
Theorem C39_parameters_and_seed : forall u1 u2 seed, parameters u1 = parameters u2 -> rng_make u1 seed = rng_make u2 seed.
Proof. exact rng_make_parameters. Qed.
Print Assumptions C39_parameters_and_seed.

(** ** C42: the expected property is false *)
Theorem C42_seeding_refuted : forall frexp fuel uninit now n (b B : list (car (Xnum frexp))) num,
  (2148 <= n)%Z -> (b = [] \/ (size B <= size b)%Z) ->
  poisson_process_crossing_probability_montecarlo (N := Xnum frexp) fuel uninit now (n_of_Z n) b B num =
    Undef "conversion of intensity*1000000 to int out of range".
Proof. exact (@seed_undefined). Qed.
Print Assumptions C42_seeding_refuted.
Theorem C42_small_n : forall frexp n, (0 <= n <= 2147)%Z ->
  seed_converts (N := Xnum frexp) (n_of_Z n) (n * 1000000).
Proof. exact (@seed_exact). Qed.
Print Assumptions C42_small_n.

(** ** C44 *)
Theorem C44_argument_count : forall (N : num) (E : env N) fuel uninit now fs argv, List.length argv <> 4%nat ->
  mc_main E fuel uninit now fs argv =
    Ok ([Usage; Text "runtime_error exception caught:"; Text "Expecting 3 command line arguments!"], 2%Z).
Proof. exact (@mc_arguments). Qed.
Print Assumptions C44_argument_count.
Theorem C44_bad_count : forall (N : num) (E : env N) fuel uninit now fs prog command f nsim,
  nul_free nsim -> (forall num, integer_text nsim num -> ~ (0 <= num <= 2 ^ 63 - 1)%Z) ->
  exists us w, (us = [] \/ us = [Usage]) /\
  mc_main E fuel uninit now fs [prog; command; f; nsim] = Ok ((us ++ [Text "runtime_error exception caught:"; Text w])%list, 2%Z).
Proof. exact (@mc_bad_count). Qed.
Print Assumptions C44_bad_count.
Theorem C44_bad_file : forall (N : num) (E : env N) fuel uninit now fs prog command f nsim num,
  nul_free nsim -> integer_text nsim num -> (0 <= num <= 2 ^ 63 - 1)%Z ->
  (forall contents b B, fs f = Some contents -> ~ file_holds (N := N) contents b B) ->
  mc_main E fuel uninit now fs [prog; command; f; nsim] = Ok ([Text "ifstream::failure exception caught:"], 1%Z) \/
  exists w, mc_main E fuel uninit now fs [prog; command; f; nsim] = Ok ([Text "runtime_error exception caught:"; Text w], 2%Z).
Proof. exact (@mc_bad_file). Qed.
Print Assumptions C44_bad_file.
Theorem C44_unknown_command : forall (N : num) (E : env N) fuel uninit now fs prog command f nsim num contents (b B : list (car N)),
  nul_free nsim -> integer_text nsim num -> (0 <= num <= 2 ^ 63 - 1)%Z -> fs f = Some contents -> file_holds contents b B ->
  command <> "ecdf" -> command <> "poisson" ->
  mc_main E fuel uninit now fs [prog; command; f; nsim] =
    Ok ([Usage; Text "runtime_error exception caught:"; Text "Second command line argument must be 'ecdf' or 'poisson'"], 2%Z).
Proof. exact (@mc_unknown). Qed.
Print Assumptions C44_unknown_command.
Theorem C44_ecdf : forall frexp (E : env (Xnum frexp)) uninit now fs prog f nsim num contents (b B : list (car (Xnum frexp))),
  nul_free nsim -> integer_text nsim num -> (1 <= num <= INT_MAX)%Z -> fs f = Some contents -> file_holds contents b B ->
  (b <> [] \/ B <> []) -> (b = [] \/ (size B <= size b)%Z) ->
  let n := Z.max (size b) (size B) in
  exists cs, Z.of_nat (List.length cs) = num /\
    simulations (does_random_ecdf_cross (N := Xnum frexp) b B (Z.to_nat n)) (rng_make uninit (now + n * 2 ^ 20)) cs /\
    forall fuel, (Z.to_nat num <= fuel)%nat ->
      mc_main E fuel uninit now fs [prog; "ecdf"; f; nsim] =
        Ok ([Text (show_double E (Fin (1 - IZR (crossings cs) / IZR num)%R))], 0%Z).
Proof. exact (@mc_ecdf_prints). Qed.
Print Assumptions C44_ecdf.
Theorem C44_poisson : forall frexp (E : env (Xnum frexp)) uninit now fs prog f nsim num contents (b B : list (car (Xnum frexp))),
  nul_free nsim -> integer_text nsim num -> (1 <= num <= INT_MAX)%Z -> fs f = Some contents -> file_holds contents b B ->
  (b = [] \/ (size B <= size b)%Z) ->
  let n := Z.max (size b) (size B) in
  (n <= 2147)%Z ->
  exists cs, Z.of_nat (List.length cs) = num /\
    simulations (does_random_poisson_process_cross (N := Xnum frexp) b B (@n_div (Xnum frexp) n1 (n_of_Z n))) (rng_make uninit (now + n * 1000000)) cs /\
    forall fuel, (Z.to_nat num <= fuel)%nat ->
      mc_main E fuel uninit now fs [prog; "poisson"; f; nsim] =
        Ok ([Text (show_double E (Fin (1 - IZR (crossings cs) / IZR num)%R))], 0%Z).
Proof. exact (@mc_poisson_prints). Qed.
Print Assumptions C44_poisson.
Theorem C44_short_first_line : forall frexp (E : env (Xnum frexp)) fuel uninit now fs prog command f nsim num contents (b B : list (car (Xnum frexp))),
  nul_free nsim -> integer_text nsim num -> (0 <= num <= 2 ^ 63 - 1)%Z -> fs f = Some contents -> file_holds contents b B ->
  b <> [] -> (size b < size B)%Z -> (command = "ecdf" \/ command = "poisson") ->
  mc_main E fuel uninit now fs [prog; command; f; nsim] = Ok ([Text (show_double E (Fin 0))], 0%Z).
Proof. exact (@mc_short_first_line). Qed.
Print Assumptions C44_short_first_line.
Example C44_case : (nul_free "1000" /\ integer_text "1000" 1000) /\ case_fs "bounds.txt" = Some case_text /\
  file_holds (N := Xnum some_frexp) case_text (map Fin case_b) (map Fin ones2).
Proof. exact (conj case_integer case_holds). Qed.
