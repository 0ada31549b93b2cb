(** * PropsCost: property C67, the running times announced by the usage text.

    Cost.v gives, next to each function of the model, the same function with its steps counted: [result] is
    the outcome and [steps] the number of array accesses, arithmetic operations, comparisons, calls of
    elementary functions and loop iterations executed until that outcome is reached.  The [prices] P are what
    one transform, one plan and one sort cost; [fair K P] says each is at most K (m + 1) (log2 (m + 1) + 1) on
    m points or elements.  The bounds hold for every outcome, including exceptions and failed assertions. *)
From Coquelicot Require Import Coquelicot.
From Flocq Require Import Core.Core IEEE754.BinarySingleNaN.
From Coq Require Import ZArith Reals List String.
From Verif Require Import Base Num XReal Common FFTConv Ecdf2 Ecdf1New Ecdf1Mns Binary64 Cases ExactEnv Cost CostFacts CostJump.
Import List. Import ListNotations.
Local Open Scope Z_scope.

(** ** ecdf2-ks2001: O(n^3) *)
Theorem C67_ks2001 : forall (N : num) (E : env N) (P : prices) (K : Z), 1 <= K -> fair K P ->
  forall b B : list (car N), sort_ok E ->
  result (c_ecdf2 E P b B false) = ecdf2 E b B false /\
  steps (c_ecdf2 E P b B false) <= 500 * K * (Z.of_nat (List.length b) + 1) ^ 3.
Proof. exact (@ks2001_work). Qed.
Print Assumptions C67_ks2001.

(** ** ecdf2-mn2017: O(n^2 log n) *)
Theorem C67_mn2017 : forall (N : num) (E : env N) (P : prices) (K : Z), 1 <= K -> fair K P ->
  forall b B : list (car N), sort_ok E ->
  result (c_ecdf2 E P b B true) = ecdf2 E b B true /\
  steps (c_ecdf2 E P b B true)
    <= 2500 * K * (Z.of_nat (List.length b) + 1) ^ 2 * (Z.log2 (Z.of_nat (List.length b) + 1) + 1).
Proof. exact (@mn2017_work). Qed.
Print Assumptions C67_mn2017.

(** ** ecdf1-mns2016: O(n^2) *)
Theorem C67_mns2016 : forall (N : num) (E : env N) (v : list (car N)),
  result (c_mns2016_b E v) = ecdf1_mns2016_b E v /\ result (c_mns2016_B E v) = ecdf1_mns2016_B E v /\
  steps (c_mns2016_b E v) <= 200 * (Z.of_nat (List.length v) + 1) ^ 2 /\
  steps (c_mns2016_B E v) <= 200 * (Z.of_nat (List.length v) + 1) ^ 2.
Proof. exact (@mns_work). Qed.
Print Assumptions C67_mns2016.

(** ** ecdf1-new: O(n^2), for any arithmetic in which int k = sqrt(n) + 1 is of the order of the root of n *)
Theorem C67_new : forall (N : num) (E : env N) (P : prices) (K : Z), 1 <= K -> fair K P ->
  forall v : list (car N), (1 <= List.length v)%nat ->
  (forall k, jump_size_for (N := N) (Z.of_nat (List.length v)) = Ok k ->
     Z.sqrt (Z.of_nat (List.length v)) + 1 <= k <= 3 * (Z.sqrt (Z.of_nat (List.length v)) + 1)) ->
  result (c_new_B E P v) = ecdf1_new_B E v /\ result (c_new_b E P v) = ecdf1_new_b E v /\
  steps (c_new_B E P v) <= 30000 * K * (Z.of_nat (List.length v) + 1) ^ 2 /\
  steps (c_new_b E P v) <= 30000 * K * (Z.of_nat (List.length v) + 1) ^ 2.
Proof. exact (@new_work). Qed.
Print Assumptions C67_new.
(** ... which it is in exact arithmetic ... *)
Theorem C67_new_exact : forall frexp (E : env (Xnum frexp)) (P : prices) (K : Z) (v : list xr),
  1 <= K -> fair K P -> (1 <= List.length v)%nat ->
  steps (c_new_B E P v) <= 30000 * K * (Z.of_nat (List.length v) + 1) ^ 2 /\
  steps (c_new_b E P v) <= 30000 * K * (Z.of_nat (List.length v) + 1) ^ 2.
Proof. exact new_work_exact. Qed.
Print Assumptions C67_new_exact.
(** ... and in binary64. *)
Theorem C67_new_binary64 : forall L (E : env (Bnum L)) (P : prices) (K : Z) (v : list f64),
  1 <= K -> fair K P -> (1 <= List.length v)%nat -> Z.of_nat (List.length v) <= INT_MAX ->
  steps (c_new_B E P v) <= 30000 * K * (Z.of_nat (List.length v) + 1) ^ 2 /\
  steps (c_new_b E P v) <= 30000 * K * (Z.of_nat (List.length v) + 1) ^ 2.
Proof. exact new_work_binary64. Qed.
Print Assumptions C67_new_binary64.

(** ** The count is not an undercount: a direct convolution of m entries takes 1 + 3m + 5m(m+1)/2 steps *)
Theorem C67_convolution : forall (N : num) (m : Z) (x : list (car N)) (ox : Z) (y : list (car N)) (oy : Z)
    (dest : list (car N)) (od : Z) r, 0 <= m ->
  convolve_same_size m x ox y oy dest od = Ok r ->
  2 * steps (c_convolve m x ox y oy dest od) = 2 + 6 * m + 5 * (m * (m + 1)).
Proof. exact (@convolve_exact). Qed.
Print Assumptions C67_convolution.

(** Prices, an environment and a boundary that meet the hypotheses. *)
Example C67_case : (1 <= 1 /\ fair 1 some_prices) /\ sort_ok (some_env true) /\
  convolve_same_size (N := Xnum some_frexp) 2 [Fin 1%R; Fin 2%R] 0 [Fin 3%R; Fin 4%R] 0 [Fin 0%R; Fin 0%R] 0
    = Ok [Fin (0 + 1 * 3)%R; Fin (0 + 1 * 4 + 2 * 3)%R].
Proof. exact cost_case. Qed.
