(** * PropsFastMc: property C82, the crossprob_mc program as compiled with -ffast-math.

    [draws], [crossings]: McSpec.v.  [ecdf_inside], [poisson_outcomes]: McProbSpec.v.  [prob_at_most], [raised], [lowered],
    [sandwiched], [clear_simulations]: McB64Spec.v.  [prints]: ShowSpec.v.  [mc_suite], [mc_ones], [EPSILON]: TestSpec.v.
    [plain v]: v is 0 or at least 2^-900 (FastCli.v).  [simulated d num t us x]: with the uniform numbers us, num simulations
    of the test file t whose comparisons are off by at most d may find the frequency x (FastMcCli.v).
    [sample_error_fast eps n] = 3 (eps + 3 (n+2) 2^-53); [test_error eps n] adds 2^-53 for reading the file. *)
From Coquelicot Require Import Coquelicot.
From Flocq Require Import Core.Core IEEE754.BinarySingleNaN.
From Coq Require Import ZArith Reals List String.
From Verif Require Import Base Num XReal TinyMT StringUtils MonteCarlo Cli Spec CliSpec StringSpec CliFacts StrtodSpec Binary64 McSpec McProbSpec McMore McProbCases.
From Verif Require Import TinyMTFacts AccCliCase ShowSpec TestSpec TestCase McB64Spec Cases FastMath FastInst FastMain FastCli McFast McFastEst McFastPois FastSuite FastMcCli FastMcCase.
Import List. Import ListNotations.
Local Open Scope R_scope.
Local Open Scope string_scope.

(** ** C82 *)
(** crossprob_mc ecdf: n is the larger number of values in the file. *)
Theorem C82_ecdf : forall (C : compiler) (L : libm) (E : env (Fnum C L)) (show : f64 -> string),
  (forall r, @show_double (Fnum C L) E r = show (cp_sum C r)) -> (forall x : f64, is_finite x = true -> printed (B2R x) (show x)) ->
  forall (eps : R) (frexp : xr -> Z) (fs : filesystem) (prog f contents nsim : string) (num : nat) (uninit : tinymt) (now : Z),
  strtod_correct L -> fast_libm_accurate (cp_flush C) L eps -> fs f = Some contents ->
  nul_free nsim -> integer_text nsim (Z.of_nat num) -> (1 <= num)%nat -> (Z.of_nat num <= INT_MAX)%Z ->
  word 32 (mat1 uninit) -> word 32 (mat2 uninit) -> word 64 (tmat uninit) ->
  forall (b B : list R) us r1, 0 <= eps <= / 8 ->
  let n := Nat.max (List.length b) (List.length B) in let d := sample_error_fast eps n + bpow radix2 (-53) in
  file_holds (N := Xnum frexp) contents (map Fin b) (map Fin B) -> valid_boundary b -> valid_boundary B -> Forall plain b -> Forall plain B ->
  (1 <= n)%nat -> b = [] \/ (List.length B <= List.length b)%nat -> INR (n + 2) <= 2 ^ 40 -> eps + 3 * INR (n + 2) * bpow radix2 (-53) <= / 8 ->
  Forall (fun u => 0 < u < 1) us -> List.length us = (num * S n)%nat ->
  draws (N := Xnum frexp) (rng_make uninit (now + Z.of_nat n * 2 ^ 20)) (map Fin us) r1 ->
  exists cs, List.length cs = num /\
    sandwiched (S n) (ecdf_inside (raised d b) (lowered d B)) (ecdf_inside (lowered d b) (raised d B)) cs us /\
    forall fuel, (num <= fuel)%nat -> exists w, prints (@mc_main (Fnum C L) E fuel uninit now fs [prog; "ecdf"; f; nsim]) w /\
      Rabs (w - (1 - IZR (crossings cs) / INR num)) <= 5 / 10000000 + bpow radix2 (-50) /\
      (crossings cs = 0%Z -> @mc_main (Fnum C L) E fuel uninit now fs [prog; "ecdf"; f; nsim] = Ok ([Text "1"], 0%Z)).
Proof. exact mc_ecdf_fast. Qed.
Print Assumptions C82_ecdf.
Example C82_case_ecdf : forall flush, let E := fast_text_env (simd_compiler flush) show_f64 true in
  let d := sample_error_fast (bpow radix2 (-50)) 2 + bpow radix2 (-53) in
  exists (us : list R) (cs : list bool) w, List.length us = (2 * 3)%nat /\ Forall (fun u => 0 < u < 1) us /\ List.length cs = 2%nat /\
  sandwiched 3 (ecdf_inside (raised d text_b) []) (ecdf_inside (lowered d text_b) []) cs us /\
  prints (mc_main E 2 case_uninit 0 text_fs ["crossprob_mc"; "ecdf"; "b.txt"; "2"]) w /\
  Rabs (w - (1 - IZR (crossings cs) / 2)) <= 5 / 10000000 + bpow radix2 (-50).
Proof. exact mc_text_fast. Qed.

(** crossprob_mc poisson, for the doubles b and B that are read from the file. *)
Theorem C82_poisson : forall (C : compiler) (L : libm) (E : env (Fnum C L)) (show : f64 -> string),
  (forall r, @show_double (Fnum C L) E r = show (cp_sum C r)) -> (forall x : f64, is_finite x = true -> printed (B2R x) (show x)) ->
  forall (eps : R) (frexp : xr -> Z) (fs : filesystem) (prog f contents nsim : string) (num : nat) (uninit : tinymt) (now : Z),
  fast_libm_accurate (cp_flush C) L eps -> fs f = Some contents ->
  nul_free nsim -> integer_text nsim (Z.of_nat num) -> (1 <= num)%nat -> (Z.of_nat num <= INT_MAX)%Z ->
  word 32 (mat1 uninit) -> word 32 (mat2 uninit) -> word 64 (tmat uninit) ->
  forall (b B : list f64) us r1, 0 <= eps <= / 16 ->
  file_holds (N := Bnum L) contents b B -> b <> [] -> (List.length B <= List.length b <= 2147)%nat -> Forall usual b -> Forall usual B ->
  walk_error_fast eps (List.length b) <= / 8 ->
  Forall (fun u => 0 < u < 1) us -> List.length us = (num * S (List.length b))%nat ->
  let n := Z.of_nat (List.length b) in
  draws (N := Xnum frexp) (rng_make uninit (now + n * 1000000)) (map Fin us) r1 ->
  clear_simulations (/ IZR n) (2 * walk_error_fast eps (List.length b)) (map B2R b) (map B2R B) num us ->
  exists cs, List.length cs = num /\ poisson_outcomes (/ IZR n) (map B2R b) (map B2R B) cs us /\
    forall fuel, (num <= fuel)%nat -> exists w, prints (@mc_main (Fnum C L) E fuel uninit now fs [prog; "poisson"; f; nsim]) w /\
      Rabs (w - (1 - IZR (crossings cs) / INR num)) <= 5 / 10000000 + bpow radix2 (-50).
Proof. exact mc_poisson_fast. Qed.
Print Assumptions C82_poisson.
Example C82_case_poisson : forall flush, let E := fast_text_env (simd_compiler flush) show_f64 true in
  exists w, prints (mc_main E 1 case_uninit 587 text_fs ["crossprob_mc"; "poisson"; "b.txt"; "1"]) w /\
    Rabs (w - 1) <= 5 / 10000000 + bpow radix2 (-50).
Proof. exact mc_text_poisson. Qed.

(** ** The rows of the test suite that simulate a million times *)
Theorem C82_tests_rarely_fail : forall d : R, 0 <= d <= 1 / 10 ^ 7 -> Forall (fun row => match row with (t, v) =>
  prob_at_most (Z.to_nat 1000000 * S (sample_size t))
    (fun us => exists x, simulated d (Z.to_nat 1000000) t us x /\ x < v - 995/100000) (1 / 10 ^ 20) /\
  prob_at_most (Z.to_nat 1000000 * S (sample_size t))
    (fun us => exists x, simulated d (Z.to_nat 1000000) t us x /\ v + 995/100000 < x) (1 / 10 ^ 20) end) mc_suite.
Proof. exact mc_tests_rare. Qed.
Print Assumptions C82_tests_rarely_fail.
Theorem C82_tests_pass : forall (C : compiler) (L : libm) (E : env (Fnum C L)) (show : f64 -> string) (eps : R) (frexp : xr -> Z)
  (fs : filesystem) (prog : string) (uninit : tinymt) (now : Z),
  strtod_correct L -> (forall r, @show_double (Fnum C L) E r = show (cp_sum C r)) ->
  (forall x : f64, is_finite x = true -> printed (B2R x) (show x)) ->
  (forall t, In t test_files -> fs (name t) = Some (text t)) -> fast_libm_accurate (cp_flush C) L eps -> 0 <= eps <= bpow radix2 (-30) ->
  word 32 (mat1 uninit) -> word 32 (mat2 uninit) -> word 64 (tmat uninit) ->
  forall t v us r1, In (t, v) mc_suite -> Forall (fun u => 0 < u < 1) us -> List.length us = (Z.to_nat 1000000 * S (sample_size t))%nat ->
  draws (N := Xnum frexp) (rng_make uninit (now + Z.of_nat (sample_size t) * 2 ^ 20)) (map Fin us) r1 ->
  ~ (exists x, simulated (test_error eps (sample_size t)) (Z.to_nat 1000000) t us x /\ x < v - 995/100000) ->
  ~ (exists x, simulated (test_error eps (sample_size t)) (Z.to_nat 1000000) t us x /\ v + 995/100000 < x) ->
  forall fuel, (Z.to_nat 1000000 <= fuel)%nat ->
  exists w, prints (@mc_main (Fnum C L) E fuel uninit now fs [prog; "ecdf"; name t; "1000000"]) w /\ Rabs (w - v) < EPSILON.
Proof. exact mc_suite_fast. Qed.
Print Assumptions C82_tests_pass.
Theorem C82_test_error : forall eps, 0 <= eps <= bpow radix2 (-30) ->
  forall n, (n <= 10)%nat -> 0 <= test_error eps n <= 1 / 10 ^ 7.
Proof. exact (fun eps He n Hn => proj2 (proj2 (proj2 (small_n eps He n Hn)))). Qed.
Print Assumptions C82_test_error.

(** ** The two rows that must print 1 *)
Theorem C82_tests_ones : forall (C : compiler) (L : libm) (E : env (Fnum C L)) (show : f64 -> string) (eps : R) (frexp : xr -> Z)
  (fs : filesystem) (prog : string) (uninit : tinymt) (now : Z),
  strtod_correct L -> (forall r, @show_double (Fnum C L) E r = show (cp_sum C r)) ->
  (forall x : f64, is_finite x = true -> printed (B2R x) (show x)) ->
  (forall t, In t test_files -> fs (name t) = Some (text t)) -> fast_libm_accurate (cp_flush C) L eps -> 0 <= eps <= bpow radix2 (-30) ->
  word 32 (mat1 uninit) -> word 32 (mat2 uninit) -> word 64 (tmat uninit) ->
  forall t us r1, In t mc_ones -> Forall (fun u => 0 < u < 1) us -> List.length us = (1000 * S (sample_size t))%nat ->
  draws (N := Xnum frexp) (rng_make uninit (now + Z.of_nat (sample_size t) * 2 ^ 20)) (map Fin us) r1 ->
  let d := test_error eps (sample_size t) in
  (forall i x, (i < 1000)%nat -> In x (ordered_sample (firstn (S (sample_size t)) (skipn (i * S (sample_size t)) us))) -> d <= x <= 1 - d) ->
  forall fuel, (1000 <= fuel)%nat -> @mc_main (Fnum C L) E fuel uninit now fs [prog; "ecdf"; name t; "1000"] = Ok ([Text "1"], 0%Z).
Proof. exact mc_ones_fast. Qed.
Print Assumptions C82_tests_ones.

(** The hypotheses can be met. *)
Example C82_case_hypotheses : forall flush, let E := fast_text_env (simd_compiler flush) show_f64 true in
  strtod_correct text_libm /\ (forall r, @show_double _ E r = show_f64 (cp_sum (simd_compiler flush) r)) /\
  (forall x : f64, is_finite x = true -> printed (B2R x) (show_f64 x)) /\
  (forall t, In t test_files -> test_fs (name t) = Some (text t)) /\
  fast_libm_accurate flush text_libm (bpow radix2 (-50)) /\
  word 32 (mat1 case_uninit) /\ word 32 (mat2 case_uninit) /\ word 64 (tmat case_uninit).
Proof. exact (fun flush => conj text_strtod (conj (fun _ => eq_refl) (conj show_f64_ok (conj test_fs_ok (conj (text_fast flush) case_words))))). Qed.
