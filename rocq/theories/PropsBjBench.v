(** * PropsBjBench: property C86, the measurements of benchmarks/exactbj.py.

    [measured max_ks max_mns a n] (BjBenchFacts.v): algorithm a is run on samples of size n, that is n <= max_ks for KS2001,
    n <= max_mns for MNS2016, and always for MN2017 and NEW.  [column_of a c]: the lists timings and results saved for a.
    [reported a p s] (BjBench64.v): s is within 2*10^-4 of 1 - p; for MNS2016 s is within 10^-10 of 1 - p, or NaN and
    p at most 10^-11.  [Mn_plus_is], [betaincinv_ok], [bounds_accepted]: as in C70. *)
From Coquelicot Require Import Coquelicot.
From Flocq Require Import Core.Core IEEE754.BinarySingleNaN.
From Coq Require Import ZArith Reals List.
From Verif Require Import Base Num Ecdf2 Ecdf1New Ecdf1Mns SafeFft Common XReal XFft XMns Spec ExactFacts Binary64 LongDouble LdRound XEcdf2Main Binary64Facts Binary64Cases B64Round.
From Verif Require Import AccPmf AccFft AccCases AccMnsEval AccMns AccMnsCase AgreeB64 Cases ExactEnv GofSpec ExactBj BjFacts BjMain BjCase BjBench BjBenchFacts BjBench64 BjPipeline.
Import List. Import ListNotations.
Local Open Scope R_scope.

(** ** C86 *)
(** exact arithmetic: every algorithm's column holds the probability that the statistic is below the threshold, and
    the least of the elapsed times; entries of algorithms not run stay None and inf, as do those for which no threshold
    has been saved (len is the length of the saved n_range) *)
Theorem C86_same_probability : forall (frexp : xr -> Z) (E : env (Xnum frexp)) (betaincinv : Z -> Z -> xr -> xr)
  (elapsed : nat -> algorithm -> nat -> Z) (max_ks max_mns : Z) (num_reps len : nat) (l : list (nat * R)),
  betaincinv_ok betaincinv -> sort_ok E -> fft_ok E -> long_double_ok E -> l <> [] -> (List.length l <= len)%nat -> (1 <= num_reps)%nat ->
  Forall (fun e => 0 <= snd e <= 1 /\ (1 <= fst e)%nat /\ (Z.of_nat (fst e) <= INT_MAX)%Z /\ (asserts E = true -> (2 <= fst e)%nat)) l ->
  exists c, timings_Mn_plus (N := Xnum frexp) E betaincinv elapsed max_ks max_mns num_reps len (map (fun e => (fst e, Fin (snd e))) l) = Value (Some c) /\
  (forall a, List.length (results (column_of a c)) = len /\ List.length (timings (column_of a c)) = len /\
     forall j, (List.length l <= j < len)%nat -> nth_error (results (column_of a c)) j = Some None /\ nth_error (timings (column_of a c)) j = Some None) /\
  forall a j n v, nth_error l j = Some (n, v) ->
    (measured max_ks max_mns a n -> (exists p, is_prob n (fun s => exists m, Mn_plus_is s m /\ m < v) p /\ nth_error (results (column_of a c)) j = Some (Some (Fin p))) /\
      exists t, nth_error (timings (column_of a c)) j = Some (Some t) /\ (exists r, (r < num_reps)%nat /\ t = elapsed r a j) /\ forall r, (r < num_reps)%nat -> (t <= elapsed r a j)%Z) /\
    (~ measured max_ks max_mns a n -> nth_error (results (column_of a c)) j = Some None /\ nth_error (timings (column_of a c)) j = Some None).
Proof. exact @bench_exact. Qed.
Print Assumptions C86_same_probability.
Theorem C86_largescale : forall (frexp : xr -> Z) (E : env (Xnum frexp)) (betaincinv : Z -> Z -> xr -> xr)
  (elapsed : algorithm -> nat -> Z) (v : R) (n_range : list nat),
  betaincinv_ok betaincinv -> sort_ok E -> fft_ok E -> long_double_ok E -> n_range <> [] -> 0 <= v <= 1 ->
  Forall (fun n => (1 <= n)%nat /\ (Z.of_nat n <= INT_MAX)%Z /\ (asserts E = true -> (2 <= n)%nat)) n_range ->
  exists mn new, timings_Mn_plus_largescale (N := Xnum frexp) E betaincinv elapsed (Fin v) n_range = Value (Some (mn, new)) /\
  forall j n, nth_error n_range j = Some n -> exists p, is_prob n (fun s => exists m, Mn_plus_is s m /\ m < v) p /\
    nth_error (results mn) j = Some (Some (Fin p)) /\ nth_error (timings mn) j = Some (Some (elapsed MN2017 j)) /\
    nth_error (results new) j = Some (Some (Fin p)) /\ nth_error (timings new) j = Some (Some (elapsed NEW j)).
Proof. exact @largescale_exact. Qed.
Print Assumptions C86_largescale.
(** binary64, samples of up to 1000 points *)
Theorem C86_same_up_to_rounding : forall (L : libm) (M : libml) (E : env (Bnum L)) (betaincinv : Z -> Z -> f64 -> f64),
  libm_accurate L (bpow radix2 (-52)) -> fft_accurate E (bpow radix2 (-47)) -> sort_ok E ->
  libml_accurate M (bpow radix2 (-63)) -> libml_special M -> long_dbl E = x87 L M ->
  forall (elapsed : nat -> algorithm -> nat -> Z) (max_ks max_mns : Z) (num_reps len : nat) (l : list (nat * f64)),
  l <> [] -> (List.length l <= len)%nat -> (1 <= num_reps)%nat ->
  Forall (fun e => (2 <= fst e <= 1000)%nat /\ bounds_accepted L betaincinv (fst e) /\ is_finite (snd e) = true /\ 0 < B2R (snd e) <= 1) l ->
  exists c, @timings_Mn_plus (Bnum L) E betaincinv elapsed max_ks max_mns num_reps len l = Value (Some c) /\
  (forall a, List.length (results (column_of a c)) = len /\ List.length (timings (column_of a c)) = len /\
     forall j, (List.length l <= j < len)%nat -> nth_error (results (column_of a c)) j = Some None /\ nth_error (timings (column_of a c)) j = Some None) /\
  forall j n x, nth_error l j = Some (n, x) -> exists p, is_prob n (noncrossing_b (map B2R (@Mn_plus_bounds (Bnum L) betaincinv n x))) p /\
   forall a,
    (measured max_ks max_mns a n -> (exists s, nth_error (results (column_of a c)) j = Some (Some s) /\ reported a p s) /\
      exists t, nth_error (timings (column_of a c)) j = Some (Some t) /\ (exists r, (r < num_reps)%nat /\ t = elapsed r a j) /\ forall r, (r < num_reps)%nat -> (t <= elapsed r a j)%Z) /\
    (~ measured max_ks max_mns a n -> nth_error (results (column_of a c)) j = Some None /\ nth_error (timings (column_of a c)) j = Some None).
Proof. exact bench_64. Qed.
Print Assumptions C86_same_up_to_rounding.

(** both steps, binary64: the thresholds of level alpha are found, and every number then reported is close to alpha *)
Theorem C86_reported_numbers_are_the_level : forall (L : libm) (M : libml) (E : env (Bnum L)) (betaincinv : Z -> Z -> f64 -> f64),
  libm_accurate L (bpow radix2 (-52)) -> fft_accurate E (bpow radix2 (-47)) -> fft_lengths E -> sort_ok E ->
  libml_accurate M (bpow radix2 (-63)) -> libml_special M -> long_dbl E = x87 L M ->
  forall (elapsed : nat -> algorithm -> nat -> Z) (max_ks max_mns : Z) (num_reps : nat) (alpha : f64) (n_range : list nat) (delta : R),
  n_range <> [] -> (1 <= num_reps)%nat -> 0 <= delta <= 1 / 10 ^ 11 -> is_finite alpha = true -> 2 / 10000 <= B2R alpha <= 1 ->
  Forall (fun n => (2 <= n <= 1000)%nat /\ bounds_accepted L betaincinv n /\ betaincinv_accurate betaincinv n delta) n_range ->
  exists l c, @alpha_level_thresholds (Bnum L) E betaincinv alpha n_range = Value l /\
  @timings_Mn_plus (Bnum L) E betaincinv elapsed max_ks max_mns num_reps (List.length n_range) l = Value (Some c) /\
  forall a j n, nth_error n_range j = Some n ->
    (measured max_ks max_mns a n -> exists s : f64, nth_error (results (column_of a c)) j = Some (Some s) /\
      (is_finite s = true /\ Rabs (B2R s - B2R alpha) <= 1 / 1000 \/ a = MNS2016 /\ s = B754_nan /\ 1 - 1 / 1000 <= B2R alpha)) /\
    (~ measured max_ks max_mns a n -> nth_error (results (column_of a c)) j = Some None).
Proof. exact pipeline_level. Qed.
Print Assumptions C86_reported_numbers_are_the_level.

(** Hypotheses that hold: 2 and 50 points; with max_mns2016_n = 10, MNS2016 is run on the first entry only. *)
Example C86_case_exact : betaincinv_ok betaincinv_exact /\ sort_ok (some_env true) /\ fft_ok (some_env true) /\ long_double_ok (some_env true) /\
  Forall (fun e : nat * R => 0 <= snd e <= 1 /\ (1 <= fst e)%nat /\ (Z.of_nat (fst e) <= INT_MAX)%Z /\ (asserts (some_env true) = true -> (2 <= fst e)%nat))
    [(2%nat, 1 / 2); (50%nat, 1 / 4)] /\
  measured 100 10 MNS2016 2 /\ ~ measured 100 10 MNS2016 50.
Proof. exact case_exact. Qed.
Example C86_case_binary64 : Forall (fun e : nat * f64 => (2 <= fst e <= 1000)%nat /\ bounds_accepted cr_libm betaincinv_cr (fst e) /\
    is_finite (snd e) = true /\ 0 < B2R (snd e) <= 1) [(2%nat, f_half); (50%nat, f_half)] /\
  libm_accurate cr_libm (bpow radix2 (-52)) /\ fft_accurate (cr80_env true) (bpow radix2 (-47)) /\ sort_ok (cr80_env true) /\
  libml_accurate cr_libml (bpow radix2 (-63)) /\ libml_special cr_libml /\ long_dbl (cr80_env true) = x87 cr_libm cr_libml.
Proof. exact case_bench64. Qed.
Example C86_case_level : fft_lengths (cr80_env true) /\ is_finite f_half = true /\ 2 / 10000 <= B2R f_half <= 1 /\ 0 <= bpow radix2 (-52) <= 1 / 10 ^ 11 /\
  Forall (fun n => (2 <= n <= 1000)%nat /\ bounds_accepted cr_libm betaincinv_cr n /\ betaincinv_accurate betaincinv_cr n (bpow radix2 (-52))) [50%nat; 1000%nat].
Proof. exact case_pipeline. Qed.
