(** * PropsGof: C69 (Kolmogorov-Smirnov p-values) and C70 (the Berk-Jones functions of benchmarks/exactbj.py). *)
From Coquelicot Require Import Coquelicot.
From Flocq Require Import Core.Core IEEE754.BinarySingleNaN.
From Coq Require Import ZArith Reals List Bool String Permutation Sorted.
From Verif Require Import Base Num XReal Common Ecdf2 Ecdf1New Ecdf1Mns Cli Spec XFft XReal ExactFacts Binary64 Binary64Facts SafeFft.
From Verif Require Import AccPmf AccFft AccCases Cases ExactEnv Binary64Cases.
From Verif Require Import GofSpec GofKs GofAcc GofCase GofBeta ExactBj BjFacts BjSearch BjMain BjCase.
Import List. Import ListNotations.
Local Open Scope R_scope.

(** ** C69: the boundaries as a band around the empirical CDF *)
Theorem C69_boundaries_are_a_band : forall b B sample : list R,
  Sorted Rle b -> Sorted Rle B -> List.length b = List.length sample -> List.length B = List.length sample ->
  (noncrossing b B sample <->
   forall t, (number_upto B t <= number_upto sample t)%nat /\ (number_below sample t <= number_below b t)%nat).
Proof. exact band. Qed.
Print Assumptions C69_boundaries_are_a_band.
(** the Kolmogorov-Smirnov statistics are such events *)
Theorem C69_ks_events : forall (n : nat) (d : R) (l : list R),
  List.length l = n -> (1 <= n)%nat -> 0 <= d -> Forall (fun x => 0 <= x <= 1) l ->
  (ks_at_most d l <-> noncrossing (ks_lower n d) (ks_upper n d) l) /\
  (ks_plus_at_most d l <-> noncrossing_b (ks_lower n d) l) /\ (ks_minus_at_most d l <-> noncrossing_B (ks_upper n d) l).
Proof.
  exact (fun n d l Hl Hn Hd HR => conj (ks_event n d l Hl Hn Hd HR) (conj (ks_plus_event n d l Hl Hd HR) (ks_minus_event n d l Hl Hn Hd HR))).
Qed.
Print Assumptions C69_ks_events.
(** p-values, exact arithmetic *)
Theorem C69_two_sided : forall (frexp : xr -> Z) (E : env (Xnum frexp)) (n : nat) (d : R) (use_fft : bool),
  (1 <= n)%nat -> 0 <= d -> sort_ok E -> (use_fft = true -> fft_ok E) ->
  exists p, is_prob n (fun l => ~ ks_at_most d l) p /\
    ecdf2 E (map Fin (ks_lower n d)) (map Fin (ks_upper n d)) use_fft = Ok (Fin (1 - p)).
Proof. exact @ks_two_sided. Qed.
Print Assumptions C69_two_sided.
Theorem C69_one_sided_new : forall (frexp : xr -> Z) (E : env (Xnum frexp)) (n : nat) (d : R),
  (1 <= n)%nat -> (Z.of_nat n <= INT_MAX)%Z -> (asserts E = true -> (2 <= n)%nat) -> 0 <= d -> fft_ok E ->
  (exists p, is_prob n (fun l => ~ ks_plus_at_most d l) p /\ ecdf1_new_b E (map Fin (ks_lower n d)) = Ok (Fin (1 - p))) /\
  (exists p, is_prob n (fun l => ~ ks_minus_at_most d l) p /\ ecdf1_new_B E (map Fin (ks_upper n d)) = Ok (Fin (1 - p))).
Proof. exact @ks_one_sided_new. Qed.
Print Assumptions C69_one_sided_new.
Theorem C69_one_sided_mns2016 : forall (frexp : xr -> Z) (E : env (Xnum frexp)) (n : nat) (d : R),
  (1 <= n)%nat -> 0 <= d -> long_double_ok E ->
  (exists p, is_prob n (fun l => ~ ks_plus_at_most d l) p /\ ecdf1_mns2016_b E (map Fin (ks_lower n d)) = Ok (Fin (1 - p))) /\
  (exists p, is_prob n (fun l => ~ ks_minus_at_most d l) p /\ ecdf1_mns2016_B E (map Fin (ks_upper n d)) = Ok (Fin (1 - p))).
Proof. exact @ks_one_sided_mns. Qed.
Print Assumptions C69_one_sided_mns2016.
(** p-values, binary64: the boundaries passed are doubles within delta of the real ones *)
Theorem C69_two_sided_binary64 : forall (L : libm) (E : env (Bnum L)) (n : nat) (d delta : R) (b B : list f64) (use_fft : bool),
  libm_accurate L (bpow radix2 (-52)) -> (use_fft = true -> fft_accurate E (bpow radix2 (-47))) -> sort_ok E ->
  (1 <= n <= 1000)%nat -> 2 * delta <= d -> 2 * delta <= 1 -> 0 <= d ->
  accepted64 b -> accepted64 B -> within delta b (ks_lower n d) -> within delta B (ks_upper n d) ->
  exists p r, is_prob n (fun l => ~ ks_at_most d l) p /\ @ecdf2 (Bnum L) E b B use_fft = Ok r /\
    is_finite (r : f64) = true /\ Rabs (B2R (r : f64) - (1 - p)) <= 1 / 10000 + 2 * (INR n * (INR n * delta)).
Proof. exact ks_two_sided_64. Qed.
Print Assumptions C69_two_sided_binary64.
Theorem C69_one_sided_binary64 : forall (L : libm) (E : env (Bnum L)) (n : nat) (d delta : R) (v : list f64),
  libm_accurate L (bpow radix2 (-52)) -> fft_accurate E (bpow radix2 (-47)) ->
  (1 <= n <= 1000)%nat -> (asserts E = true -> (2 <= n)%nat) -> 0 <= d -> accepted64 v ->
  (within delta v (ks_lower n d) -> exists p r, is_prob n (fun l => ~ ks_plus_at_most d l) p /\ @ecdf1_new_b (Bnum L) E v = Ok r /\
    is_finite (r : f64) = true /\ Rabs (B2R (r : f64) - (1 - p)) <= 1 / 10000 + INR n * (INR n * delta)) /\
  (within delta v (ks_upper n d) -> exists p r, is_prob n (fun l => ~ ks_minus_at_most d l) p /\ @ecdf1_new_B (Bnum L) E v = Ok r /\
    is_finite (r : f64) = true /\ Rabs (B2R (r : f64) - (1 - p)) <= 1 / 10000 + INR n * (INR n * delta)).
Proof. exact ks_one_sided_64. Qed.
Print Assumptions C69_one_sided_binary64.

(** Two points, d = 1/4; rounding to nearest gives doubles within 2^-52. *)
Example C69_case : ks_lower 2 (1 / 4) = [1 / 4; 3 / 4] /\ ks_upper 2 (1 / 4) = [1 / 4; 3 / 4] /\
  ks_at_most (1 / 4) [3 / 4; 1 / 4] /\ ~ ks_at_most (1 / 4) [1 / 2; 1 / 2].
Proof. exact (conj case_lower (conj case_upper (conj case_at_most case_not))). Qed.
Example C69_case_binary64 : forall n d, 0 <= d -> (exists b, accepted64 b /\ within (bpow radix2 (-52)) b (ks_lower n d)) /\
  (exists B, accepted64 B /\ within (bpow radix2 (-52)) B (ks_upper n d)).
Proof.
  exact (fun n d Hd => conj (ex_intro _ _ (rounded_within _ (ks_lower_valid n d Hd))) (ex_intro _ _ (rounded_within _ (ks_upper_valid n d Hd)))).
Qed.

(** ** C70: the Berk-Jones statistic M_n+ *)
Theorem C70_order_statistics : forall (n i : nat) (x : R), (i < n)%nat -> 0 <= x <= 1 ->
  is_prob n (fun l => exists o, Permutation l o /\ Sorted Rle o /\ nth i o 0 < x) (beta_cdf (S i) (n - i) x).
Proof. exact order_statistic_prob. Qed.
Print Assumptions C70_order_statistics.
Theorem C70_statistic : forall (frexp : xr -> Z) (betainc : Z -> Z -> xr -> xr) (l : list R), betainc_ok betainc ->
  (l <> [] -> Forall (fun x => 0 <= x <= 1) l ->
   exists m, Mn_plus_is l m /\ Mn_plus_statistic (N := Xnum frexp) betainc (map Fin l) = Value (Fin m)) /\
  (~ Forall (fun x => 0 <= x <= 1) l -> Mn_plus_statistic (N := Xnum frexp) betainc (map Fin l) = Exception "AssertionError").
Proof. exact (fun frexp f l H => conj (statistic_exact f l H) (statistic_rejects f l)). Qed.
Print Assumptions C70_statistic.
Theorem C70_distribution : forall (frexp : xr -> Z) (E : env (Xnum frexp)) (betaincinv : Z -> Z -> xr -> xr) (n : nat) (v : R),
  betaincinv_ok betaincinv -> 0 <= v <= 1 -> fft_ok E ->
  (1 <= n)%nat -> (Z.of_nat n <= INT_MAX)%Z -> (asserts E = true -> (2 <= n)%nat) ->
  exists p, is_prob n (fun l => exists m, Mn_plus_is l m /\ m < v) p /\
    Mn_plus_distribution (N := Xnum frexp) E betaincinv n (Fin v) = Value (Fin p).
Proof. exact @distribution_exact. Qed.
Print Assumptions C70_distribution.
Theorem C70_distribution_of_the_statistic : forall (frexp : xr -> Z) (E : env (Xnum frexp)) (betainc betaincinv : Z -> Z -> xr -> xr) (n : nat) (v : R),
  betainc_ok betainc -> betaincinv_ok betaincinv -> 0 <= v <= 1 -> fft_ok E ->
  (1 <= n)%nat -> (Z.of_nat n <= INT_MAX)%Z -> (asserts E = true -> (2 <= n)%nat) ->
  exists p, is_prob n (fun l => exists m, Mn_plus_statistic (N := Xnum frexp) betainc (map Fin l) = Value (Fin m) /\ m < v) p /\
    Mn_plus_distribution (N := Xnum frexp) E betaincinv n (Fin v) = Value (Fin p).
Proof. exact @distribution_of_statistic. Qed.
Print Assumptions C70_distribution_of_the_statistic.
(** the binary search for a threshold, binary64 *)
Theorem C70_search_brackets : forall (L : libm) (E : env (Bnum L)) (betaincinv : Z -> Z -> f64 -> f64) (n : nat) (alpha : f64) (j : Z) (x : f64),
  bounds_accepted L betaincinv n -> (1 <= Z.of_nat n <= INT_MAX)%Z -> fft_lengths E -> (n = 1%nat -> asserts E = false) ->
  (1 <= j <= 55)%Z -> is_finite x = true -> B2R x = bpow radix2 (- j) -> test_succeeds L E betaincinv n alpha x ->
  exists r report lo hi, @inverse_Mn_plus (Bnum L) E betaincinv n alpha = Value (r, report) /\ (r = lo \/ r = hi) /\
    is_finite lo = true /\ is_finite hi = true /\ 0 < B2R lo < B2R hi /\ B2R hi <= 1 /\
    (forall z : f64, ~ (B2R lo < B2R z < B2R hi)) /\ B2R hi - B2R lo <= bpow radix2 (-53) /\
    test_succeeds L E betaincinv n alpha lo /\ (B2R hi < 1 -> ~ test_succeeds L E betaincinv n alpha hi).
Proof. exact inverse_converges. Qed.
Print Assumptions C70_search_brackets.
Theorem C70_search_gives_up : forall (L : libm) (E : env (Bnum L)) (betaincinv : Z -> Z -> f64 -> f64) (n : nat) (alpha : f64),
  bounds_accepted L betaincinv n -> (1 <= Z.of_nat n <= INT_MAX)%Z -> fft_lengths E -> (n = 1%nat -> asserts E = false) ->
  (forall j (x : f64), (1 <= j <= 55)%Z -> is_finite x = true -> B2R x = bpow radix2 (- j) -> ~ test_succeeds L E betaincinv n alpha x) ->
  @inverse_Mn_plus (Bnum L) E betaincinv n alpha = Exception "AssertionError".
Proof. exact inverse_fails. Qed.
Print Assumptions C70_search_gives_up.
(** the level of the returned threshold *)
Theorem C70_level : forall (L : libm) (E : env (Bnum L)) (betaincinv : Z -> Z -> f64 -> f64) (n : nat) (alpha : f64) (eps epsf delta : R),
  bounds_accepted L betaincinv n -> (1 <= Z.of_nat n <= INT_MAX)%Z -> (asserts E = true -> (2 <= n)%nat) ->
  betaincinv_accurate betaincinv n delta -> 0 <= delta ->
  libm_accurate L eps -> bpow radix2 (-53) <= eps -> fft_accurate E epsf -> bpow radix2 (-53) <= epsf -> fft_lengths E ->
  65536 * (INR n * INR n * sqrt (INR n)) * eps <= 1 -> 16384 * (INR n * INR n * sqrt (INR n)) * epsf <= 1 ->
  is_finite alpha = true ->
  60001 * (INR n * INR n * eps) + 9000 * (INR n * INR n * epsf) + INR n * (INR n * delta) + bpow radix2 (-51) + INR n * bpow radix2 (-55)
    < B2R alpha <= 1 ->
  exists (r : f64) report q, @inverse_Mn_plus (Bnum L) E betaincinv n alpha = Value (r, report) /\ is_finite r = true /\ 0 < B2R r <= 1 /\
    is_prob n (fun l => exists m, Mn_plus_is l m /\ m < B2R r) q /\
    Rabs (q - B2R alpha) <= 60001 * (INR n * INR n * eps) + 9000 * (INR n * INR n * epsf) + INR n * (INR n * delta)
                            + bpow radix2 (-51) + INR n * bpow radix2 (-53).
Proof. exact inverse_level_eps. Qed.
Print Assumptions C70_level.
Theorem C70_level_up_to_1000_points : forall (L : libm) (E : env (Bnum L)) (betaincinv : Z -> Z -> f64 -> f64) (n : nat) (alpha : f64) (delta : R),
  bounds_accepted L betaincinv n -> (1 <= n <= 1000)%nat -> (asserts E = true -> (2 <= n)%nat) ->
  betaincinv_accurate betaincinv n delta -> 0 <= delta <= 1 / 10 ^ 11 ->
  libm_accurate L (bpow radix2 (-52)) -> fft_accurate E (bpow radix2 (-47)) -> fft_lengths E ->
  is_finite alpha = true -> 2 / 10000 <= B2R alpha <= 1 ->
  exists (r : f64) report q, @inverse_Mn_plus (Bnum L) E betaincinv n alpha = Value (r, report) /\ is_finite r = true /\ 0 < B2R r <= 1 /\
    is_prob n (fun l => exists m, Mn_plus_is l m /\ m < B2R r) q /\ Rabs (q - B2R alpha) <= 1 / 8000.
Proof. exact inverse_level_1000. Qed.
Print Assumptions C70_level_up_to_1000_points.

(** The contracts of scipy's functions can be met; 50 points at level 1/2, and the level NaN. *)
Example C70_case_exact : betainc_ok betainc_exact /\ betaincinv_ok betaincinv_exact.
Proof. exact (conj betainc_exact_ok betaincinv_exact_ok). Qed.
Example C70_case_binary64 : forall L n, bounds_accepted L betaincinv_cr n /\ betaincinv_accurate betaincinv_cr n (bpow radix2 (-52)).
Proof. exact (fun L n => conj (bounds_cr_accepted L n) (betaincinv_cr_accurate n)). Qed.
Example C70_case_level : exists (r : f64) report q, @inverse_Mn_plus (Bnum cr_libm) (cr_env true) betaincinv_cr 50 f_half = Value (r, report) /\
  is_finite r = true /\ 0 < B2R r <= 1 /\ is_prob 50 (fun l => exists m, Mn_plus_is l m /\ m < B2R r) q /\ Rabs (q - B2R f_half) <= 1 / 8000.
Proof. exact case_level. Qed.
Example C70_case_gives_up : @inverse_Mn_plus (Bnum cr_libm) (cr_env true) betaincinv_cr 50 B754_nan = Exception "AssertionError".
Proof. exact case_fails. Qed.
