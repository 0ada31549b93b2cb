(** * PropsMcFast: property C78, the simulations of crossprob_mc as compiled with -ffast-math.

    [Fnum], [compiler], [fast_libm_accurate]: FastMath.v.  [draws], [crossings]: McSpec.v.  [ordered_sample], [ecdf_inside],
    [poisson_outcomes]: McProbSpec.v.  [raised], [lowered], [sandwiched], [clear_jumps], [clear_simulations]: McB64Spec.v.
    [usual x]: x is finite and 0 or at least 2^-1022 in absolute value (McFast.v).
    [sample_error_fast eps n] = 3 (eps + 3 (n+2) 2^-53): McFastEst.v.
    [walk_error_fast eps n] = eps + 5 2^-53 + 3 (n+2) 2^-53: McFastPois.v. *)
From Coquelicot Require Import Coquelicot.
From Flocq Require Import Core.Core IEEE754.BinarySingleNaN.
From Coq Require Import ZArith Reals List Bool Sorted.
From Verif Require Import Base Num Binary64 XReal TinyMT MonteCarlo Spec McSpec McProbSpec McMore McProbCases.
From Verif Require Import AccPmf AccCases TinyMTFacts Cases Binary64Cases McB64Spec McB64PCase FastMath FastInst FastMain McFast McFastEst McFastPois McFastCase.
From Verif Require Import B64Round.
Import List. Import ListNotations.
Local Open Scope R_scope.

(** ** C78 *)
(** The compiled generator returns the uniform number of the exact model, and moves to the same state. *)
Theorem C78_uniform : forall (C : compiler) (L : libm) (frexp : xr -> Z) r u r1, state_ok r ->
  tinymt64_generate_double01 (N := Xnum frexp) r = (Fin u, r1) ->
  exists w, tinymt64_generate_double01 (N := Fnum C L) r = (w, r1) /\ is_finite (cp_sum C w) = true /\ B2R (cp_sum C w) = u.
Proof. exact (fun C L frexp => @draw_fast C L frexp). Qed.
Print Assumptions C78_uniform.
Theorem C78_sample : forall (C : compiler) (L : libm) (eps : R), fast_libm_accurate (cp_flush C) L eps -> 0 <= eps <= / 8 ->
  forall (frexp : xr -> Z) us n r r1, (1 <= n)%nat -> length us = S n -> INR (n + 2) <= 2 ^ 40 -> eps + 3 * INR (n + 2) * u64 <= / 8 ->
  Forall (fun u => 0 < u < 1) us -> state_ok r -> draws (N := Xnum frexp) r (map Fin us) r1 ->
  exists xs : list (list term), random_ecdf (N := Fnum C L) n r = (xs, r1) /\
    Forall2 (fun x X => ffin C x /\ Rabs (fval C x - X) <= sample_error_fast eps n) xs (ordered_sample us).
Proof. exact (fun C L eps HL He frexp => @sample_fast C L eps HL He frexp). Qed.
Print Assumptions C78_sample.
Theorem C78_decides : forall (C : compiler) (L : libm) (eps : R), fast_libm_accurate (cp_flush C) L eps -> 0 <= eps <= / 8 ->
  forall (frexp : xr -> Z) (b B : list f64) us n r r1, (1 <= n)%nat -> length us = S n -> INR (n + 2) <= 2 ^ 40 ->
  eps + 3 * INR (n + 2) * u64 <= / 8 -> Forall (fun u => 0 < u < 1) us -> state_ok r ->
  Forall usual b -> Forall usual B -> draws (N := Xnum frexp) r (map Fin us) r1 ->
  exists c, does_random_ecdf_cross (N := Fnum C L) (map lit b) (map lit B) n r = Ok (c, r1) /\
    (ecdf_inside (raised (sample_error_fast eps n) (map B2R b)) (lowered (sample_error_fast eps n) (map B2R B)) us -> c = false) /\
    (c = false -> ecdf_inside (lowered (sample_error_fast eps n) (map B2R b)) (raised (sample_error_fast eps n) (map B2R B)) us).
Proof. exact (fun C L eps HL He frexp => @decides_fast C L eps HL He frexp). Qed.
Print Assumptions C78_decides.
(** The whole ecdf simulation; C71_rarely_too_many and C71_rarely_too_few with d = [sample_error_fast eps n] say
    how far the frequency is from the probability. *)
Theorem C78_estimate : forall (C : compiler) (L : libm) (eps : R), fast_libm_accurate (cp_flush C) L eps -> 0 <= eps <= / 8 ->
  forall (frexp : xr -> Z) (b B : list f64) us (n num : nat) uninit now r1,
  word 32 (mat1 uninit) -> word 32 (mat2 uninit) -> word 64 (tmat uninit) ->
  (1 <= n)%nat -> INR (n + 2) <= 2 ^ 40 -> eps + 3 * INR (n + 2) * u64 <= / 8 ->
  Forall usual b -> Forall usual B ->
  (length B <= n)%nat -> b = [] \/ (n <= length b)%nat -> (1 <= num)%nat -> (Z.of_nat num <= INT_MAX)%Z ->
  Forall (fun u => 0 < u < 1) us -> length us = (num * S n)%nat ->
  draws (N := Xnum frexp) (rng_make uninit (now + Z.of_nat n * 2 ^ 20)) (map Fin us) r1 ->
  exists cs, length cs = num /\
    sandwiched (S n) (ecdf_inside (raised (sample_error_fast eps n) (map B2R b)) (lowered (sample_error_fast eps n) (map B2R B)))
      (ecdf_inside (lowered (sample_error_fast eps n) (map B2R b)) (raised (sample_error_fast eps n) (map B2R B))) cs us /\
    exists q : f64, is_finite q = true /\ Rabs (B2R q - IZR (crossings cs) / INR num) <= bpow radix2 (-51) /\
    forall fuel, (num <= fuel)%nat ->
      ecdf_crossing_probability_montecarlo (N := Fnum C L) fuel uninit now (Z.of_nat n) (map lit b) (map lit B) (Z.of_nat num) = Ok (lit q).
Proof. exact (fun C L eps HL He frexp => @estimate_program_fast C L eps HL He frexp). Qed.
Print Assumptions C78_estimate.
(** A Poisson path that is not within 2 [walk_error_fast] of the boundaries or of time 1 gets the same answer as in
    exact arithmetic, after the same number of random numbers. *)
Theorem C78_poisson_same_answer : forall (C : compiler) (L : libm) (eps : R), fast_libm_accurate (cp_flush C) L eps -> 0 <= eps <= / 16 ->
  forall (frexp : xr -> Z) (beta64 : f64) beta (b B : list f64) us r r1, is_finite beta64 = true -> bpow radix2 (-20) <= beta <= 1 ->
  Rabs (sv (cp_flush C) beta64 - beta) <= 4 * u64 * beta -> Forall usual b -> Forall usual B ->
  walk_error_fast eps (length b) <= / 8 -> INR (length b + 2) <= 2 ^ 40 ->
  state_ok r -> (S (length b) <= length us)%nat -> Forall (fun u => 0 < u < 1) us -> draws (N := Xnum frexp) r (map Fin us) r1 ->
  clear_jumps (2 * walk_error_fast eps (length b)) (map B2R b) (map B2R B)
    (firstn (S (length b)) (jump_times (map (fun u => beta * - ln u) us))) ->
  exists c r2, does_random_poisson_process_cross (N := Fnum C L) (map lit b) (map lit B) (lit beta64) r = Ok (c, r2) /\
    does_random_poisson_process_cross (N := Xnum frexp) (map Fin (map B2R b)) (map Fin (map B2R B)) (Fin beta) r = Ok (c, r2).
Proof. exact (fun C L eps HL He frexp => @poisson_same_fast C L eps HL He frexp). Qed.
Print Assumptions C78_poisson_same_answer.
(** The whole Poisson simulation; C72_rarely_bad with d = 2 [walk_error_fast eps (length b)] bounds the probability of the
    streams it does not cover. *)
Theorem C78_poisson_estimate : forall (C : compiler) (L : libm) (eps : R), fast_libm_accurate (cp_flush C) L eps -> 0 <= eps <= / 16 ->
  forall (frexp : xr -> Z) (b B : list f64) us (n : Z) (num : nat) uninit now r1,
  word 32 (mat1 uninit) -> word 32 (mat2 uninit) -> word 64 (tmat uninit) ->
  b <> [] -> (length B <= length b)%nat -> Forall usual b -> Forall usual B ->
  walk_error_fast eps (length b) <= / 8 -> INR (length b + 2) <= 2 ^ 40 ->
  (1 <= n <= 2147)%Z -> (1 <= num)%nat -> (Z.of_nat num <= INT_MAX)%Z ->
  Forall (fun u => 0 < u < 1) us -> length us = (num * S (length b))%nat ->
  draws (N := Xnum frexp) (rng_make uninit (now + n * 1000000)) (map Fin us) r1 ->
  clear_simulations (/ IZR n) (2 * walk_error_fast eps (length b)) (map B2R b) (map B2R B) num us ->
  exists cs, length cs = num /\ poisson_outcomes (/ IZR n) (map B2R b) (map B2R B) cs us /\
    exists q : f64, is_finite q = true /\ Rabs (B2R q - IZR (crossings cs) / INR num) <= bpow radix2 (-51) /\
    forall fuel, (num <= fuel)%nat ->
      poisson_process_crossing_probability_montecarlo (N := Fnum C L) fuel uninit now (n_of_Z n) (map lit b) (map lit B) (Z.of_nat num) = Ok (lit q).
Proof. exact (fun C L eps HL He frexp => @poisson_estimate_fast C L eps HL He frexp). Qed.
Print Assumptions C78_poisson_estimate.
(** With log accurate to 2^-50 and up to 1000 points. *)
Theorem C78_up_to_1000_points : forall n, (n <= 1000)%nat ->
  INR (n + 2) <= 2 ^ 40 /\ bpow radix2 (-50) + 3 * INR (n + 2) * u64 <= / 8 /\
  0 <= sample_error_fast (bpow radix2 (-50)) n <= 11 / 10 ^ 13 /\ 2 * INR n ^ 2 * sample_error_fast (bpow radix2 (-50)) n <= 22 / 10 ^ 7 /\
  walk_error_fast (bpow radix2 (-50)) n <= / 8 /\ 0 <= 2 * walk_error_fast (bpow radix2 (-50)) n <= 7 / 10 ^ 13.
Proof. exact errors_fast_1000. Qed.
Print Assumptions C78_up_to_1000_points.
Example C78_case : forall flush, let C := simd_compiler flush in
  exists (us : list R) (cs : list bool) (q : f64) r1, length us = (2 * 3)%nat /\ Forall (fun u => 0 < u < 1) us /\
  draws (N := Xnum some_frexp) (rng_make case_uninit (0 + Z.of_nat 2 * 2 ^ 20)) (map Fin us) r1 /\ length cs = 2%nat /\
  sandwiched 3 (ecdf_inside (raised (sample_error_fast (bpow radix2 (-50)) 2) [1/2; 1/2]) [])
    (ecdf_inside (lowered (sample_error_fast (bpow radix2 (-50)) 2) [1/2; 1/2]) []) cs us /\
  ecdf_crossing_probability_montecarlo (N := Fnum C cr_libm) 2 case_uninit 0 2 [lit f_half; lit f_half] [] 2 = Ok (lit q) /\
  Rabs (B2R q - IZR (crossings cs) / 2) <= bpow radix2 (-51).
Proof. exact case_run_fast. Qed.
Example C78_case_poisson : forall flush, let C := simd_compiler flush in
  exists (q : f64) r1,
  draws (N := Xnum some_frexp) (rng_make case_uninit (587 + 2 * 1000000)) (map Fin walk_us) r1 /\
  poisson_outcomes (/ 2) [1/2; 1/2] [] [true] walk_us /\
  poisson_process_crossing_probability_montecarlo (N := Fnum C cr_libm) 1 case_uninit 587 (lit (b64_of_Z 2)) [lit f_half; lit f_half] [] 1 = Ok (lit q) /\
  Rabs (B2R q - 1) <= bpow radix2 (-51).
Proof. exact walk_run_fast. Qed.
Example C78_case_clear : clear_simulations (/ 2) (2 * walk_error_fast (bpow radix2 (-50)) 2) [1/2; 1/2] [] 1 walk_us.
Proof. exact walk_clear_fast. Qed.
Example C78_case_libm : forall flush, fast_libm_accurate flush cr_libm (bpow radix2 (-50)).
Proof. exact cr_fast. Qed.
