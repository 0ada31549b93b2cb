(** * PropsMcPois: property C72, the Poisson simulations of crossprob_mc in binary64.

    [draws], [crossings]: McSpec.v.  [poisson_inside], [poisson_outcomes]: McProbSpec.v.  [clear_jumps], [clear_simulations],
    [covered]: McB64Spec.v.  [walk_error eps n] = eps + 4 2^-53 + 2 (n+1) 2^-53: McB64Pois.v. *)
From Coquelicot Require Import Coquelicot.
From Flocq Require Import Core.Core IEEE754.BinarySingleNaN.
From Coq Require Import ZArith Reals List Bool Sorted.
From Verif Require Import Base Num Binary64 XReal TinyMT MonteCarlo Spec McSpec McProbSpec McMore McProbCases.
From Verif Require Import AccPmf AccCases TinyMTFacts Cases Binary64Cases McB64Spec McB64 McB64Est McB64Pois McB64PProb McB64PCase.
From Verif Require Import B64Round.
Import List. Import ListNotations.
Local Open Scope R_scope.

(** ** C72 *)
(** A path that is not within 2 [walk_error] of the boundaries or of time 1 gets the same answer as in exact arithmetic,
    after the same number of random numbers. *)
Theorem C72_same_answer : forall (L : libm) (eps : R), libm_accurate L eps -> 0 <= eps <= / 16 ->
  forall (frexp : xr -> Z) (beta64 : f64) beta (b B : list f64) us r r1, is_finite beta64 = true -> bpow radix2 (-20) <= beta <= 1 ->
  Rabs (B2R beta64 - beta) <= u64 * beta ->
  Forall (fun x : f64 => is_finite x = true) b -> Forall (fun x : f64 => is_finite x = true) B ->
  walk_error eps (length b) <= / 8 -> INR (S (length b)) <= 2 ^ 40 ->
  state_ok r -> (S (length b) <= length us)%nat -> Forall (fun u => 0 < u < 1) us -> draws (N := Xnum frexp) r (map Fin us) r1 ->
  clear_jumps (2 * walk_error eps (length b)) (map B2R b) (map B2R B)
    (firstn (S (length b)) (jump_times (map (fun u => beta * - ln u) us))) ->
  exists c r2, does_random_poisson_process_cross (N := Bnum L) b B beta64 r = Ok (c, r2) /\
    does_random_poisson_process_cross (N := Xnum frexp) (map Fin (map B2R b)) (map Fin (map B2R B)) (Fin beta) r = Ok (c, r2).
Proof. exact (fun L eps HL He frexp => @poisson_same L eps HL He frexp). Qed.
Print Assumptions C72_same_answer.
(** The whole simulation: the frequency of the paths that cross. *)
Theorem C72_estimate : forall (L : libm) (eps : R), libm_accurate L eps -> 0 <= eps <= / 16 ->
  forall (frexp : xr -> Z) (b B : list f64) us (n : Z) (num : nat) uninit now r1,
  word 32 (mat1 uninit) -> word 32 (mat2 uninit) -> word 64 (tmat uninit) ->
  b <> [] -> (length B <= length b)%nat ->
  Forall (fun x : f64 => is_finite x = true) b -> Forall (fun x : f64 => is_finite x = true) B ->
  walk_error eps (length b) <= / 8 -> INR (S (length b)) <= 2 ^ 40 ->
  (1 <= n <= 2147)%Z -> (1 <= num)%nat -> (Z.of_nat num <= INT_MAX)%Z ->
  Forall (fun u => 0 < u < 1) us -> length us = (num * S (length b))%nat ->
  draws (N := Xnum frexp) (rng_make uninit (now + n * 1000000)) (map Fin us) r1 ->
  clear_simulations (/ IZR n) (2 * walk_error eps (length b)) (map B2R b) (map B2R B) num us ->
  exists cs, length cs = num /\ poisson_outcomes (/ IZR n) (map B2R b) (map B2R B) cs us /\
    exists q : f64, is_finite q = true /\ Rabs (B2R q - IZR (crossings cs) / INR num) <= bpow radix2 (-52) /\
    forall fuel, (num <= fuel)%nat ->
      poisson_process_crossing_probability_montecarlo (N := Bnum L) fuel uninit now (n_of_Z n) b B (Z.of_nat num) = Ok q.
Proof. exact (fun L eps HL He frexp => @poisson_estimate64 L eps HL He frexp). Qed.
Print Assumptions C72_estimate.
(** Streams of uniforms for which some path comes within d of a boundary or of time 1, or for which the frequency of
    crossings is not within e of the probability, are rare. *)
Theorem C72_rarely_bad : forall (b B : list R) lambda p num e d, b <> [] -> 0 < lambda -> 0 <= d ->
  is_prob (S (length b)) (poisson_inside (/ lambda) b B) p -> (1 <= num)%nat -> 0 < e <= 1 / 2 ->
  covered (num * S (length b))
    (fun us => ~ (Forall (fun u => 0 < u < 1) us /\ clear_simulations (/ lambda) d b B num us /\
       forall cs, length cs = num -> poisson_outcomes (/ lambda) b B cs us -> Rabs (IZR (crossings cs) / INR num - (1 - p)) <= e))
    (2 * exp (- (INR num * e ^ 2) / 2) + 6 * INR num * INR (S (length b)) ^ 2 * lambda * d).
Proof. exact poisson_rarely_bad. Qed.
Print Assumptions C72_rarely_bad.
(** With log accurate to 2^-52 and up to 1000 points, twice the error is below 5e-13. *)
Theorem C72_up_to_1000_points : forall n, (n <= 1000)%nat ->
  INR (S n) <= 2 ^ 40 /\ walk_error (bpow radix2 (-52)) n <= / 8 /\ 0 <= 2 * walk_error (bpow radix2 (-52)) n <= 5 / 10 ^ 13.
Proof. exact walk_error_1000. Qed.
Print Assumptions C72_up_to_1000_points.
(** A path with jumps near 0.35 and after 1.7 crosses the lower boundary 1/2, 1/2; the program says so. *)
Example C72_case : exists (q : f64) r1,
  draws (N := Xnum some_frexp) (rng_make case_uninit (587 + 2 * 1000000)) (map Fin walk_us) r1 /\
  poisson_outcomes (/ 2) [1/2; 1/2] [] [true] walk_us /\
  poisson_process_crossing_probability_montecarlo (N := Bnum cr_libm) 1 case_uninit 587 (b64_of_Z 2) [f_half; f_half] [] 1 = Ok q /\
  Rabs (B2R q - 1) <= bpow radix2 (-52).
Proof. exact walk_run64. Qed.
Example C72_case_clear : clear_simulations (/ 2) (2 * walk_error (bpow radix2 (-52)) 2) [1/2; 1/2] [] 1 walk_us.
Proof. exact walk_clear. Qed.
Example C72_case_uniforms : Forall (fun u => 0 < u < 1) walk_us.
Proof. exact walk_us_in. Qed.
Example C72_case_law : is_prob 3 (poisson_inside (/ 2) case_b ones2) (exp (- (2)) * 2 ^ 2 / 2 * (3 / 4)).
Proof. exact case_poisson. Qed.
