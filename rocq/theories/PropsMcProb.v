(** * PropsMcProb: properties C54-C56 and C65, what the Monte-Carlo program estimates.

    The uniform random numbers a simulation draws are treated as independent
    uniforms on [0,1].  [poisson_inside], [ecdf_inside], [outcomes], [uniforms_used],
    [poisson_outcomes] and [has_prob]
    are defined in McProbSpec.v; [stays_inside], [draws] and [crossings] in McSpec.v;
    [is_prob] and [is_noncrossing_probability] in Spec.v. *)
From Coquelicot Require Import Coquelicot.
From Coq Require Import ZArith Reals List Bool Factorial.
From Verif Require Import Base Num XReal TinyMT MonteCarlo Ecdf2 XFft Common.
From Verif Require Import Spec McSpec McProbSpec McMore Cases ExactEnv McPoissonProb McEcdfProb McEstimate McPoissonEstimate McChernoff McProbCases.
Import List. Import ListNotations.
Local Open Scope R_scope.

(** ** C54 *)
Theorem C54_decides : forall frexp (b B us : list R) beta r r', 0 < beta -> b <> [] ->
  length us = S (length b) -> Forall (fun v => 0 < v < 1) us -> draws (N := Xnum frexp) r (map Fin us) r' ->
  exists c r1, does_random_poisson_process_cross (N := Xnum frexp) (map Fin b) (map Fin B) (Fin beta) r = Ok (c, r1) /\
    (c = false <-> poisson_inside beta b B us).
Proof. exact (@poisson_decides). Qed.
Print Assumptions C54_decides.
Theorem C54_probability : forall (b B : list R) lambda (p : nat -> R),
  valid_boundary b -> valid_boundary B -> (length B <= length b)%nat -> 0 < lambda ->
  (forall k, (length B <= k <= length b)%nat ->
     is_noncrossing_probability (firstn k b) (B ++ repeat 1 (k - length B)) (p k)) ->
  is_prob (S (length b)) (poisson_inside (/ lambda) b B)
    (sum_f_R0 (fun i => exp (- lambda) * lambda ^ (length B + i) / INR (fact (length B + i)) * p (length B + i)%nat)
       (length b - length B)).
Proof. exact poisson_inside_prob. Qed.
Print Assumptions C54_probability.
Example C54_case : is_prob 3 (poisson_inside (/ 2) case_b ones2) (exp (- (2)) * 2 ^ 2 / 2 * (3 / 4)).
Proof. exact case_poisson. Qed.
Example C54_case_draws : exists u v w r1, Forall (fun u => 0 < u < 1) [u; v; w] /\
  draws (N := Xnum some_frexp) case_state (map Fin [u; v; w]) r1.
Proof. exact (@three_draws some_frexp). Qed.

(** ** C55 *)
Theorem C55_decides : forall frexp (b B us : list R) n r r1, Forall (fun u => 0 < u < 1) us -> length us = S n -> (1 <= n)%nat ->
  draws (N := Xnum frexp) r (map Fin us) r1 ->
  exists c, does_random_ecdf_cross (N := Xnum frexp) (map Fin b) (map Fin B) n r = Ok (c, r1) /\ (c = false <-> ecdf_inside b B us).
Proof. exact (@ecdf_decides). Qed.
Print Assumptions C55_decides.
Theorem C55_probability : forall (b B : list R) p, valid_boundary b -> valid_boundary B -> is_noncrossing_probability b B p ->
  has_prob (S (length b)) (ecdf_inside b B) p.
Proof. exact ecdf_inside_prob. Qed.
Print Assumptions C55_probability.
Theorem C55_probability_missing_entries : forall (b B : list R) n p, valid_boundary b -> valid_boundary B ->
  b = [] \/ length b = n -> (length B <= n)%nat ->
  is_noncrossing_probability (if b then repeat 0 n else b) (B ++ repeat 1 (n - length B)) p ->
  has_prob (S n) (ecdf_inside b B) p.
Proof. exact ecdf_inside_prob_padded. Qed.
Print Assumptions C55_probability_missing_entries.
Theorem C55_same_as_ecdf2 : forall frexp (E : env (Xnum frexp)) (b B : list R) use_fft,
  valid_boundary b -> valid_boundary B -> length b = length B -> sort_ok E -> (use_fft = true -> fft_ok E) ->
  (asserts E = true -> forall i, (S i < length b)%nat -> nth i b 0 <= nth (S i) B 0) ->
  exists p, ecdf2 E (map Fin b) (map Fin B) use_fft = Ok (Fin p) /\ has_prob (S (length b)) (ecdf_inside b B) p.
Proof. exact ecdf2_is_simulated. Qed.
Print Assumptions C55_same_as_ecdf2.
(** [has_prob] is a probability: it is unique and agrees with [is_prob]. *)
Theorem C55_has_prob_meaning : forall n A p, (is_prob n A p -> has_prob n A p) /\
  (forall q, has_prob n A p -> has_prob n A q -> p = q) /\ (has_prob n A p -> 0 <= p <= 1).
Proof. exact (fun n A p => conj (is_prob_has_prob n A p) (conj (has_prob_unique n A p) (has_prob_range n A p))). Qed.
Print Assumptions C55_has_prob_meaning.
Example C55_case : has_prob 3 (ecdf_inside case_b ones2) (3 / 4) /\
  ecdf2 (some_env true) (map Fin case_b) (map Fin ones2) true = Ok (Fin (3/4)) /\
  (ordered_sample [/ 2; / 2; / 2] = [1 / 3; 2 / 3] /\ ecdf_inside case_b ones2 [/ 2; / 2; / 2]) /\
  (ordered_sample [/ 2; / 2; / 16] = [1 / 6; 1 / 3] /\ ~ ecdf_inside case_b ones2 [/ 2; / 2; / 16]).
Proof. exact (conj case_has_prob (conj (case_ecdf2 true true) (conj case_sample_in case_sample_out))). Qed.
Example C55_case_missing_entries : has_prob 3 (ecdf_inside case_b []) (3 / 4) /\ has_prob 3 (ecdf_inside [] case_B) (3 / 4).
Proof. exact case_has_prob_padded. Qed.

(** ** C56 *)
Theorem C56_estimate : forall frexp (b B us : list R) (n num : nat) uninit now r1, (1 <= n)%nat -> (length B <= n)%nat ->
  b = [] \/ (n <= length b)%nat -> (1 <= num)%nat -> (Z.of_nat num <= INT_MAX)%Z ->
  Forall (fun u => 0 < u < 1) us -> length us = (num * S n)%nat ->
  draws (N := Xnum frexp) (rng_make uninit (now + Z.of_nat n * 2 ^ 20)) (map Fin us) r1 ->
  exists cs, length cs = num /\ outcomes (S n) (ecdf_inside b B) cs us /\
    forall fuel, (num <= fuel)%nat ->
      ecdf_crossing_probability_montecarlo (N := Xnum frexp) fuel uninit now (Z.of_nat n) (map Fin b) (map Fin B) (Z.of_nat num) =
        Ok (Fin (IZR (crossings cs) / INR num)).
Proof. exact (@estimate_program). Qed.
Print Assumptions C56_estimate.
Theorem C56_binomial : forall (b B : list R) p num j, valid_boundary b -> valid_boundary B -> is_noncrossing_probability b B p -> (j <= num)%nat ->
  has_prob (num * S (length b))
    (fun us => exists cs, length cs = num /\ outcomes (S (length b)) (ecdf_inside b B) cs us /\ crossings cs = Z.of_nat j)
    (Binomial.C num j * (1 - p) ^ j * p ^ (num - j)).
Proof. exact crossings_binomial. Qed.
Print Assumptions C56_binomial.
Theorem C56_accuracy : forall (b B : list R) p num eps, valid_boundary b -> valid_boundary B -> is_noncrossing_probability b B p ->
  (1 <= num)%nat -> 0 < eps ->
  exists q, q <= p * (1 - p) / (INR num * eps ^ 2) /\
  has_prob (num * S (length b))
    (fun us => exists cs, length cs = num /\ outcomes (S (length b)) (ecdf_inside b B) cs us /\
       eps < Rabs (IZR (crossings cs) / INR num - (1 - p))) q.
Proof. exact estimate_close. Qed.
Print Assumptions C56_accuracy.
(** Large errors are exponentially rare, also for files with one line only. *)
Theorem C56_exponential : forall (b B : list R) n p num eps, valid_boundary b -> valid_boundary B ->
  b = [] \/ length b = n -> (length B <= n)%nat ->
  is_noncrossing_probability (if b then repeat 0 n else b) (B ++ repeat 1 (n - length B)) p -> (1 <= num)%nat -> 0 < eps <= 1/2 ->
  exists q, q <= 2 * exp (- (INR num * eps ^ 2) / 2) /\
  has_prob (num * S n)
    (fun us => exists cs, length cs = num /\ outcomes (S n) (ecdf_inside b B) cs us /\
       eps < Rabs (IZR (crossings cs) / INR num - (1 - p))) q.
Proof. exact estimate_exponential. Qed.
Print Assumptions C56_exponential.
Example C56_case : has_prob 6
  (fun us => exists cs, length cs = 2%nat /\ outcomes 3 (ecdf_inside case_b ones2) cs us /\ crossings cs = 1%Z) (3 / 8).
Proof. exact case_binomial. Qed.
Example C56_case_draws : exists us r1, length us = (2 * 3)%nat /\ Forall (fun u => 0 < u < 1) us /\
  draws (N := Xnum some_frexp) (rng_make case_uninit (0 + Z.of_nat 2 * 2 ^ 20)) (map Fin us) r1.
Proof. exact case_program. Qed.

(** ** C65 *)
Theorem C65_simulation : forall frexp (b B us : list R) beta r r', 0 < beta -> b <> [] ->
  (S (length b) <= length us)%nat -> Forall (fun v => 0 < v < 1) us -> draws (N := Xnum frexp) r (map Fin us) r' ->
  exists c m r1, does_random_poisson_process_cross (N := Xnum frexp) (map Fin b) (map Fin B) (Fin beta) r = Ok (c, r1) /\
    (c = false <-> poisson_inside beta b B us) /\ uniforms_used beta (length b) us m /\
    draws (N := Xnum frexp) r (map Fin (firstn m us)) r1 /\ draws (N := Xnum frexp) r1 (map Fin (skipn m us)) r'.
Proof. exact (@poisson_simulation). Qed.
Print Assumptions C65_simulation.
Theorem C65_estimate : forall frexp (b B us : list R) (n : Z) (num : nat) uninit now r1, b <> [] -> (length B <= length b)%nat ->
  (1 <= n <= 2147)%Z -> (1 <= num)%nat -> (Z.of_nat num <= INT_MAX)%Z ->
  Forall (fun u => 0 < u < 1) us -> length us = (num * S (length b))%nat ->
  draws (N := Xnum frexp) (rng_make uninit (now + n * 1000000)) (map Fin us) r1 ->
  exists cs, length cs = num /\ poisson_outcomes (/ IZR n) b B cs us /\
    forall fuel, (num <= fuel)%nat ->
      poisson_process_crossing_probability_montecarlo (N := Xnum frexp) fuel uninit now (n_of_Z n) (map Fin b) (map Fin B) (Z.of_nat num) =
        Ok (Fin (IZR (crossings cs) / INR num)).
Proof. exact (@poisson_estimate_program). Qed.
Print Assumptions C65_estimate.
Theorem C65_binomial : forall (b B : list R) lambda p num j, b <> [] -> 0 < lambda ->
  is_prob (S (length b)) (poisson_inside (/ lambda) b B) p -> (j <= num)%nat ->
  is_prob (num * S (length b))
    (fun us => exists cs, length cs = num /\ poisson_outcomes (/ lambda) b B cs us /\ crossings cs = Z.of_nat j)
    (Binomial.C num j * (1 - p) ^ j * p ^ (num - j)).
Proof. exact poisson_crossings_binomial. Qed.
Print Assumptions C65_binomial.
Theorem C65_accuracy : forall (b B : list R) lambda p num eps, b <> [] -> 0 < lambda ->
  is_prob (S (length b)) (poisson_inside (/ lambda) b B) p -> (1 <= num)%nat -> 0 < eps ->
  exists q, q <= p * (1 - p) / (INR num * eps ^ 2) /\
  is_prob (num * S (length b))
    (fun us => exists cs, length cs = num /\ poisson_outcomes (/ lambda) b B cs us /\
       eps < Rabs (IZR (crossings cs) / INR num - (1 - p))) q.
Proof. exact poisson_estimate_close. Qed.
Print Assumptions C65_accuracy.
Theorem C65_exponential : forall (b B : list R) lambda p num eps, b <> [] -> 0 < lambda ->
  is_prob (S (length b)) (poisson_inside (/ lambda) b B) p -> (1 <= num)%nat -> 0 < eps <= 1/2 ->
  exists q, q <= 2 * exp (- (INR num * eps ^ 2) / 2) /\
  is_prob (num * S (length b))
    (fun us => exists cs, length cs = num /\ poisson_outcomes (/ lambda) b B cs us /\
       eps < Rabs (IZR (crossings cs) / INR num - (1 - p))) q.
Proof. exact poisson_exponential. Qed.
Print Assumptions C65_exponential.
Example C65_case : let p := exp (- (2)) * 2 ^ 2 / 2 * (3 / 4) in is_prob 6
  (fun us => exists cs, length cs = 2%nat /\ poisson_outcomes (/ 2) case_b ones2 cs us /\ crossings cs = 1%Z) (2 * (1 - p) * p).
Proof. exact case_poisson_binomial. Qed.
Example C65_case_draws : exists us r1, length us = (2 * 3)%nat /\ Forall (fun u => 0 < u < 1) us /\
  draws (N := Xnum some_frexp) (rng_make case_uninit (0 + 2 * 1000000)) (map Fin us) r1.
Proof. exact case_poisson_program. Qed.
