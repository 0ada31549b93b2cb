(** * PropsMcB64: property C71, the ecdf simulations of crossprob_mc in binary64.

    [draws], [crossings]: McSpec.v.  [ordered_sample], [ecdf_inside], [has_prob]: McProbSpec.v.  [raised], [lowered],
    [sandwiched], [prob_at_most]: McB64Spec.v.  [sample_error eps n] = 3 (eps + 2 (n+1) 2^-53): McB64.v. *)
From Coquelicot Require Import Coquelicot.
From Flocq Require Import Core.Core IEEE754.BinarySingleNaN.
From Coq Require Import ZArith Reals List Bool Sorted.
From Verif Require Import Base Num Binary64 XReal TinyMT MonteCarlo Spec McSpec McProbSpec McMore McProbCases.
From Verif Require Import AccPmf AccCases TinyMTFacts Cases Binary64Cases McB64Spec McB64 McB64Est McB64Case.
From Verif Require Import B64Round.
Import List. Import ListNotations.
Local Open Scope R_scope.

(** ** C71 *)
(** Both arithmetics draw the same uniform numbers. *)
Theorem C71_same_draws : forall (L : libm) (frexp : xr -> Z) us r r1, state_ok r -> draws (N := Xnum frexp) r (map Fin us) r1 ->
  exists vs : list f64, draws (N := Bnum L) r vs r1 /\ map B2R vs = us /\ Forall (fun v : f64 => is_finite v = true) vs.
Proof. exact (fun L frexp => @draws64 L frexp). Qed.
Print Assumptions C71_same_draws.
Theorem C71_sample : forall (L : libm) (eps : R), libm_accurate L eps -> 0 <= eps <= / 8 ->
  forall (us : list f64) n r r1, (1 <= n)%nat -> length us = S n -> INR (S n) <= 2 ^ 40 ->
  eps + 2 * INR (S n) * u64 <= / 8 ->
  Forall (fun u : f64 => is_finite u = true /\ 0 < B2R u < 1) us -> draws (N := Bnum L) r us r1 ->
  exists xs : list f64, random_ecdf (N := Bnum L) n r = (xs, r1) /\
    Forall2 (fun (x : f64) X => is_finite x = true /\ 0 <= B2R x <= 1 /\ Rabs (B2R x - X) <= sample_error eps n)
      xs (ordered_sample (map B2R us)) /\
    Sorted Rle (map B2R xs).
Proof. exact sample64. Qed.
Print Assumptions C71_sample.
Theorem C71_decides : forall (L : libm) (eps : R), libm_accurate L eps -> 0 <= eps <= / 8 ->
  forall (frexp : xr -> Z) (b B : list f64) (us : list R) n r r1, (1 <= n)%nat -> length us = S n -> INR (S n) <= 2 ^ 40 ->
  eps + 2 * INR (S n) * u64 <= / 8 -> Forall (fun u => 0 < u < 1) us -> state_ok r ->
  Forall (fun x : f64 => is_finite x = true) b -> Forall (fun x : f64 => is_finite x = true) B ->
  draws (N := Xnum frexp) r (map Fin us) r1 ->
  exists c, does_random_ecdf_cross (N := Bnum L) b B n r = Ok (c, r1) /\
    (ecdf_inside (raised (sample_error eps n) (map B2R b)) (lowered (sample_error eps n) (map B2R B)) us -> c = false) /\
    (c = false -> ecdf_inside (lowered (sample_error eps n) (map B2R b)) (raised (sample_error eps n) (map B2R B)) us).
Proof. exact (fun L eps HL He frexp => @decides64 L eps HL He frexp). Qed.
Print Assumptions C71_decides.
Theorem C71_estimate : forall (L : libm) (eps : R), libm_accurate L eps -> 0 <= eps <= / 8 ->
  forall (frexp : xr -> Z) (b B : list f64) us (n num : nat) uninit now r1,
  word 32 (mat1 uninit) -> word 32 (mat2 uninit) -> word 64 (tmat uninit) ->
  (1 <= n)%nat -> INR (S n) <= 2 ^ 40 -> eps + 2 * INR (S n) * u64 <= / 8 ->
  Forall (fun x : f64 => is_finite x = true) b -> Forall (fun x : f64 => is_finite x = true) B ->
  (length B <= n)%nat -> b = [] \/ (n <= length b)%nat -> (1 <= num)%nat -> (Z.of_nat num <= INT_MAX)%Z ->
  Forall (fun u => 0 < u < 1) us -> length us = (num * S n)%nat ->
  draws (N := Xnum frexp) (rng_make uninit (now + Z.of_nat n * 2 ^ 20)) (map Fin us) r1 ->
  exists cs, length cs = num /\
    sandwiched (S n) (ecdf_inside (raised (sample_error eps n) (map B2R b)) (lowered (sample_error eps n) (map B2R B)))
      (ecdf_inside (lowered (sample_error eps n) (map B2R b)) (raised (sample_error eps n) (map B2R B))) cs us /\
    exists q : f64, is_finite q = true /\ Rabs (B2R q - IZR (crossings cs) / INR num) <= bpow radix2 (-52) /\
    forall fuel, (num <= fuel)%nat ->
      ecdf_crossing_probability_montecarlo (N := Bnum L) fuel uninit now (Z.of_nat n) b B (Z.of_nat num) = Ok q.
Proof. exact (fun L eps HL He frexp => @estimate_program64 L eps HL He frexp). Qed.
Print Assumptions C71_estimate.
(** The two events have nearly the probability of staying inside the boundaries themselves. *)
Theorem C71_moved_boundaries : forall (b B : list R) n p d, 0 <= d -> valid_boundary b -> valid_boundary B ->
  b = [] \/ length b = n -> (length B <= n)%nat ->
  is_noncrossing_probability (if b then repeat 0 n else b) (B ++ repeat 1 (n - length B)) p ->
  exists p1 p2, has_prob (S n) (ecdf_inside (raised d b) (lowered d B)) p1 /\ has_prob (S n) (ecdf_inside (lowered d b) (raised d B)) p2 /\
    Rabs (p - p1) <= 2 * INR n ^ 2 * d /\ Rabs (p - p2) <= 2 * INR n ^ 2 * d.
Proof. exact moved_laws. Qed.
Print Assumptions C71_moved_boundaries.
(** So large errors of the binary64 program are exponentially rare. *)
Theorem C71_rarely_too_many : forall (b B : list R) n p d, 0 <= d -> valid_boundary b -> valid_boundary B ->
  b = [] \/ length b = n -> (length B <= n)%nat ->
  is_noncrossing_probability (if b then repeat 0 n else b) (B ++ repeat 1 (n - length B)) p ->
  forall (num : nat) e, (1 <= num)%nat -> 0 < e <= 1 / 2 ->
  prob_at_most (num * S n)
    (fun us => exists cs, length cs = num /\
       sandwiched (S n) (ecdf_inside (raised d b) (lowered d B)) (ecdf_inside (lowered d b) (raised d B)) cs us /\
       (1 - p) + 2 * INR n ^ 2 * d + e < IZR (crossings cs) / INR num)
    (2 * exp (- (INR num * e ^ 2) / 2)).
Proof. exact rarely_too_many. Qed.
Print Assumptions C71_rarely_too_many.
Theorem C71_rarely_too_few : forall (b B : list R) n p d, 0 <= d -> valid_boundary b -> valid_boundary B ->
  b = [] \/ length b = n -> (length B <= n)%nat ->
  is_noncrossing_probability (if b then repeat 0 n else b) (B ++ repeat 1 (n - length B)) p ->
  forall (num : nat) e, (1 <= num)%nat -> 0 < e <= 1 / 2 ->
  prob_at_most (num * S n)
    (fun us => exists cs, length cs = num /\
       sandwiched (S n) (ecdf_inside (raised d b) (lowered d B)) (ecdf_inside (lowered d b) (raised d B)) cs us /\
       IZR (crossings cs) / INR num < (1 - p) - 2 * INR n ^ 2 * d - e)
    (2 * exp (- (INR num * e ^ 2) / 2)).
Proof. exact rarely_too_few. Qed.
Print Assumptions C71_rarely_too_few.
(** With log accurate to 2^-52 and up to 1000 points, rounding changes the estimate by less than 1.4e-6. *)
Theorem C71_up_to_1000_points : forall n, (n <= 1000)%nat ->
  INR (S n) <= 2 ^ 40 /\ bpow radix2 (-52) + 2 * INR (S n) * u64 <= / 8 /\
  0 <= sample_error (bpow radix2 (-52)) n <= 7 / 10 ^ 13 /\ 2 * INR n ^ 2 * sample_error (bpow radix2 (-52)) n <= 14 / 10 ^ 7.
Proof. exact sample_error_1000. Qed.
Print Assumptions C71_up_to_1000_points.
Example C71_case : exists (us : list R) (cs : list bool) (q : f64) r1, length us = (2 * 3)%nat /\ Forall (fun u => 0 < u < 1) us /\
  draws (N := Xnum some_frexp) (rng_make case_uninit (0 + Z.of_nat 2 * 2 ^ 20)) (map Fin us) r1 /\ length cs = 2%nat /\
  sandwiched 3 (ecdf_inside (raised (sample_error (bpow radix2 (-52)) 2) [1/2; 1/2]) [])
    (ecdf_inside (lowered (sample_error (bpow radix2 (-52)) 2) [1/2; 1/2]) []) cs us /\
  ecdf_crossing_probability_montecarlo (N := Bnum cr_libm) 2 case_uninit 0 2 [f_half; f_half] [] 2 = Ok q /\
  Rabs (B2R q - IZR (crossings cs) / 2) <= bpow radix2 (-52).
Proof. exact case_run64. Qed.
Example C71_case_libm : libm_accurate cr_libm u64.
Proof. exact cr_accurate. Qed.
