(** * PropsB64Mc: property C83, the crossprob_mc program in binary64 from the file to the printed number.

    [draws], [crossings]: McSpec.v.  [ecdf_inside], [poisson_outcomes]: McProbSpec.v.  [raised], [lowered],
    [sandwiched], [clear_simulations]: McB64Spec.v.  [prints]: ShowSpec.v.  [mc_suite], [mc_ones], [EPSILON]: TestSpec.v.
    [simulated]: FastMcCli.v; [C82_tests_rarely_fail] bounds the probability of the streams excluded by [C83_tests_pass].
    [sample_error eps n] = 3 (eps + 2 (n+1) 2^-53); [test_error64 eps n] adds 2^-53 for reading the file. *)
From Coquelicot Require Import Coquelicot.
From Flocq Require Import Core.Core IEEE754.BinarySingleNaN.
From Coq Require Import ZArith Reals List String.
From Verif Require Import Base Num XReal TinyMT StringUtils MonteCarlo Cli Spec CliSpec StringSpec CliFacts StrtodSpec Binary64 McSpec McProbSpec McMore McProbCases.
From Verif Require Import B64Round AccPmf TinyMTFacts AccCliCase ShowSpec ShowCases TestSpec TestCase McB64Spec McB64 McB64Pois Cases FastMcCli FastMcCase B64McCli B64McCase.
Import List. Import ListNotations.
Local Open Scope R_scope.
Local Open Scope string_scope.

(** ** C83 *)
(** crossprob_mc ecdf: n is the larger number of values in the file. *)
Theorem C83_ecdf : forall (L : libm) (E : env (Bnum L)), show_ok real_of_f64 E ->
  forall (eps : R) (frexp : xr -> Z) (fs : filesystem) (prog f contents nsim : string) (num : nat) (uninit : tinymt) (now : Z),
  strtod_correct L -> libm_accurate L eps -> fs f = Some contents ->
  nul_free nsim -> integer_text nsim (Z.of_nat num) -> (1 <= num)%nat -> (Z.of_nat num <= INT_MAX)%Z ->
  word 32 (mat1 uninit) -> word 32 (mat2 uninit) -> word 64 (tmat uninit) ->
  forall (b B : list R) us r1, 0 <= eps <= / 8 ->
  let n := Nat.max (List.length b) (List.length B) in let d := sample_error eps n + bpow radix2 (-53) in
  file_holds (N := Xnum frexp) contents (map Fin b) (map Fin B) -> valid_boundary b -> valid_boundary B -> Forall normal b -> Forall normal B ->
  (1 <= n)%nat -> b = [] \/ (List.length B <= List.length b)%nat -> INR (S n) <= 2 ^ 40 -> eps + 2 * INR (S n) * bpow radix2 (-53) <= / 8 ->
  Forall (fun u => 0 < u < 1) us -> List.length us = (num * S n)%nat ->
  draws (N := Xnum frexp) (rng_make uninit (now + Z.of_nat n * 2 ^ 20)) (map Fin us) r1 ->
  exists cs, List.length cs = num /\
    sandwiched (S n) (ecdf_inside (raised d b) (lowered d B)) (ecdf_inside (lowered d b) (raised d B)) cs us /\
    forall fuel, (num <= fuel)%nat -> exists w, prints (@mc_main (Bnum L) E fuel uninit now fs [prog; "ecdf"; f; nsim]) w /\
      Rabs (w - (1 - IZR (crossings cs) / INR num)) <= 5 / 10000000 + bpow radix2 (-50) /\
      (crossings cs = 0%Z -> @mc_main (Bnum L) E fuel uninit now fs [prog; "ecdf"; f; nsim] = Ok ([Text "1"], 0%Z)).
Proof. exact mc_ecdf64. Qed.
Print Assumptions C83_ecdf.
Example C83_case_ecdf : let E := show_text_env true in let d := sample_error u64 2 + bpow radix2 (-53) in
  exists (us : list R) (cs : list bool) w, List.length us = (2 * 3)%nat /\ Forall (fun u => 0 < u < 1) us /\ List.length cs = 2%nat /\
  sandwiched 3 (ecdf_inside (raised d text_b) []) (ecdf_inside (lowered d text_b) []) cs us /\
  prints (mc_main E 2 case_uninit 0 text_fs ["crossprob_mc"; "ecdf"; "b.txt"; "2"]) w /\
  Rabs (w - (1 - IZR (crossings cs) / 2)) <= 5 / 10000000 + bpow radix2 (-50).
Proof. exact mc_text64. Qed.

(** crossprob_mc poisson, for the doubles b and B that are read from the file. *)
Theorem C83_poisson : forall (L : libm) (E : env (Bnum L)), show_ok real_of_f64 E ->
  forall (eps : R) (frexp : xr -> Z) (fs : filesystem) (prog f contents nsim : string) (num : nat) (uninit : tinymt) (now : Z),
  libm_accurate L eps -> fs f = Some contents ->
  nul_free nsim -> integer_text nsim (Z.of_nat num) -> (1 <= num)%nat -> (Z.of_nat num <= INT_MAX)%Z ->
  word 32 (mat1 uninit) -> word 32 (mat2 uninit) -> word 64 (tmat uninit) ->
  forall (b B : list f64) us r1, 0 <= eps <= / 16 ->
  file_holds (N := Bnum L) contents b B -> b <> [] -> (List.length B <= List.length b <= 2147)%nat ->
  Forall (fun x : f64 => is_finite x = true) b -> Forall (fun x : f64 => is_finite x = true) B ->
  walk_error eps (List.length b) <= / 8 ->
  Forall (fun u => 0 < u < 1) us -> List.length us = (num * S (List.length b))%nat ->
  let n := Z.of_nat (List.length b) in
  draws (N := Xnum frexp) (rng_make uninit (now + n * 1000000)) (map Fin us) r1 ->
  clear_simulations (/ IZR n) (2 * walk_error eps (List.length b)) (map B2R b) (map B2R B) num us ->
  exists cs, List.length cs = num /\ poisson_outcomes (/ IZR n) (map B2R b) (map B2R B) cs us /\
    forall fuel, (num <= fuel)%nat -> exists w, prints (@mc_main (Bnum L) E fuel uninit now fs [prog; "poisson"; f; nsim]) w /\
      Rabs (w - (1 - IZR (crossings cs) / INR num)) <= 5 / 10000000 + bpow radix2 (-50).
Proof. exact mc_poisson64. Qed.
Print Assumptions C83_poisson.
Example C83_case_poisson : exists w,
  prints (mc_main (show_text_env true) 1 case_uninit 587 text_fs ["crossprob_mc"; "poisson"; "b.txt"; "1"]) w /\
  Rabs (w - 1) <= 5 / 10000000 + bpow radix2 (-50).
Proof. exact mc_text_poisson64. Qed.

(** Boundaries that no sample can cross are never crossed, despite the rounding. *)
Theorem C83_trivial_boundaries : forall (L : libm) (E : env (Bnum L)), show_ok real_of_f64 E ->
  forall (eps : R) (frexp : xr -> Z) (fs : filesystem) (prog f contents nsim : string) (num : nat) (uninit : tinymt) (now : Z),
  strtod_correct L -> libm_accurate L eps -> fs f = Some contents ->
  nul_free nsim -> integer_text nsim (Z.of_nat num) -> (1 <= num)%nat -> (Z.of_nat num <= INT_MAX)%Z ->
  word 32 (mat1 uninit) -> word 32 (mat2 uninit) -> word 64 (tmat uninit) ->
  forall (b B : list R) us r1, 0 <= eps <= / 8 ->
  let n := Nat.max (List.length b) (List.length B) in
  file_holds (N := Xnum frexp) contents (map Fin b) (map Fin B) -> Forall (fun t => t = 0) b -> Forall (fun t => t = 1) B ->
  (1 <= n)%nat -> b = [] \/ (List.length B <= List.length b)%nat -> INR (S n) <= 2 ^ 40 -> eps + 2 * INR (S n) * bpow radix2 (-53) <= / 8 ->
  Forall (fun u => 0 < u < 1) us -> List.length us = (num * S n)%nat ->
  draws (N := Xnum frexp) (rng_make uninit (now + Z.of_nat n * 2 ^ 20)) (map Fin us) r1 ->
  forall fuel, (num <= fuel)%nat -> @mc_main (Bnum L) E fuel uninit now fs [prog; "ecdf"; f; nsim] = Ok ([Text "1"], 0%Z).
Proof. exact mc_trivial64. Qed.
Print Assumptions C83_trivial_boundaries.

(** ** The test suite *)
Theorem C83_tests_pass : forall (L : libm) (E : env (Bnum L)) (eps : R) (frexp : xr -> Z) (fs : filesystem) (prog : string) (uninit : tinymt) (now : Z),
  strtod_correct L -> show_ok real_of_f64 E -> (forall t, In t test_files -> fs (name t) = Some (text t)) ->
  libm_accurate L eps -> 0 <= eps <= bpow radix2 (-30) ->
  word 32 (mat1 uninit) -> word 32 (mat2 uninit) -> word 64 (tmat uninit) ->
  forall t v us r1, In (t, v) mc_suite -> Forall (fun u => 0 < u < 1) us -> List.length us = (Z.to_nat 1000000 * S (sample_size t))%nat ->
  draws (N := Xnum frexp) (rng_make uninit (now + Z.of_nat (sample_size t) * 2 ^ 20)) (map Fin us) r1 ->
  ~ (exists x, simulated (test_error64 eps (sample_size t)) (Z.to_nat 1000000) t us x /\ x < v - 995/100000) ->
  ~ (exists x, simulated (test_error64 eps (sample_size t)) (Z.to_nat 1000000) t us x /\ v + 995/100000 < x) ->
  forall fuel, (Z.to_nat 1000000 <= fuel)%nat ->
  exists w, prints (@mc_main (Bnum L) E fuel uninit now fs [prog; "ecdf"; name t; "1000000"]) w /\ Rabs (w - v) < EPSILON.
Proof. exact mc_suite64. Qed.
Print Assumptions C83_tests_pass.
Theorem C83_test_error : forall eps, 0 <= eps <= bpow radix2 (-30) ->
  forall n, (n <= 10)%nat -> 0 <= test_error64 eps n <= 1 / 10 ^ 7.
Proof. exact (fun eps He n Hn => proj2 (proj2 (proj2 (small_n64 eps He n Hn)))). Qed.
Print Assumptions C83_test_error.
Theorem C83_tests_ones : forall (L : libm) (E : env (Bnum L)) (eps : R) (frexp : xr -> Z) (fs : filesystem) (prog : string) (uninit : tinymt) (now : Z),
  strtod_correct L -> show_ok real_of_f64 E -> (forall t, In t test_files -> fs (name t) = Some (text t)) ->
  libm_accurate L eps -> 0 <= eps <= bpow radix2 (-30) ->
  word 32 (mat1 uninit) -> word 32 (mat2 uninit) -> word 64 (tmat uninit) ->
  forall t us r1, In t mc_ones -> Forall (fun u => 0 < u < 1) us -> List.length us = (1000 * S (sample_size t))%nat ->
  draws (N := Xnum frexp) (rng_make uninit (now + Z.of_nat (sample_size t) * 2 ^ 20)) (map Fin us) r1 ->
  forall fuel, (1000 <= fuel)%nat -> @mc_main (Bnum L) E fuel uninit now fs [prog; "ecdf"; name t; "1000"] = Ok ([Text "1"], 0%Z).
Proof. exact mc_ones64. Qed.
Print Assumptions C83_tests_ones.

(** The hypotheses can be met. *)
Example C83_case_hypotheses : strtod_correct text_libm /\ show_ok real_of_f64 (show_text_env true) /\
  (forall t, In t test_files -> test_fs (name t) = Some (text t)) /\ libm_accurate text_libm u64 /\
  word 32 (mat1 case_uninit) /\ word 32 (mat2 case_uninit) /\ word 64 (tmat case_uninit).
Proof. exact (conj text_strtod (conj (text_show true) (conj test_fs_ok (conj text_accurate case_words)))). Qed.
