(** * PropsCostMc: property C80, the running time of crossprob_mc.

    CostMc.v counts steps as Cost.v does for C67 (see PropsCost.v); one call of generate_exponential is 50 steps.
    [advance k r] is the state of the generator after k calls of tinymt64_next_state. *)
From Coq Require Import ZArith List String.
From Verif Require Import Base Num XReal TinyMT MonteCarlo McLoop Cases ExactEnv McMore Cost CostMc.
Import List. Import ListNotations.
Local Open Scope Z_scope.

(** ** crossprob_mc ecdf: O(n) per simulation, for every outcome *)
Theorem C80_ecdf : forall (N : num) fuel uninit now n (b B : list (car N)) num, 0 <= n -> 0 <= num <= INT_MAX ->
  result (c_ecdf_mc fuel uninit now n b B num) = ecdf_crossing_probability_montecarlo fuel uninit now n b B num /\
  steps (c_ecdf_mc fuel uninit now n b B num) <= 110 * (n + 1) * (num + 1).
Proof. exact (@ecdf_mc_work). Qed.
Print Assumptions C80_ecdf.
(** ... and no less than that: simulations do not stop at the first crossing. *)
Theorem C80_ecdf_no_less : forall (N : num) fuel uninit now n (b B : list (car N)) num,
  1 <= n -> size B <= n -> (b = [] \/ n <= size b) -> 0 <= num <= INT_MAX -> (Z.to_nat num <= fuel)%nat ->
  exists v, ecdf_crossing_probability_montecarlo fuel uninit now n b B num = Ok v /\
  50 * (n + 1) * num <= steps (c_ecdf_mc fuel uninit now n b B num).
Proof. exact (@ecdf_mc_work_low). Qed.
Print Assumptions C80_ecdf_no_less.

(** ** crossprob_mc poisson: at most O(size of b) per simulation, whatever the path *)
Theorem C80_poisson : forall (N : num) fuel uninit now intensity (b B : list (car N)) num, 0 <= num <= INT_MAX ->
  result (c_poisson_mc fuel uninit now intensity b B num) = poisson_process_crossing_probability_montecarlo fuel uninit now intensity b B num /\
  steps (c_poisson_mc fuel uninit now intensity b B num) <= 110 * (Z.of_nat (List.length b) + 1) * (num + 1).
Proof. exact (@poisson_mc_work). Qed.
Print Assumptions C80_poisson.
Theorem C80_poisson_no_less : forall (N : num) fuel uninit now intensity (b B : list (car N)) num k,
  (b = [] \/ size B <= size b) -> seed_converts intensity k -> 0 <= num <= INT_MAX -> (Z.to_nat num <= fuel)%nat ->
  exists v, poisson_process_crossing_probability_montecarlo fuel uninit now intensity b B num = Ok v /\
  50 * num <= steps (c_poisson_mc fuel uninit now intensity b B num).
Proof. exact (@poisson_mc_work_low). Qed.
Print Assumptions C80_poisson_no_less.

(** ** Calls of the generator: n + 1 for a sample of n points, 1 to size of b + 1 for a Poisson path *)
Theorem C80_draws : forall (N : num) (b B : list (car N)) beta (n : nat) r c r',
  (does_random_ecdf_cross b B n r = Ok (c, r') -> r' = advance (n + 1) r) /\
  (does_random_poisson_process_cross b B beta r = Ok (c, r') -> exists m, (1 <= m <= List.length b + 1)%nat /\ r' = advance m r).
Proof. exact (@draws_per_simulation). Qed.
Print Assumptions C80_draws.

(** The boundaries (0, 1/2) and (1, 1), a thousand simulations. *)
Example C80_case : @size (car (Xnum some_frexp)) (map Fin ones2) <= 2 /\ 2 <= @size (car (Xnum some_frexp)) (map Fin case_b) /\
  seed_converts (N := Xnum some_frexp) (n_of_Z 2) 2000000 /\ 0 <= 1000 <= INT_MAX.
Proof. exact (conj (Z.le_refl 2) (conj (Z.le_refl 2) (conj (proj1 (proj2 (@case_seed some_frexp))) (conj (Zle_0_pos 1000) (proj1 (Z.leb_le 1000 INT_MAX) eq_refl))))). Qed.
