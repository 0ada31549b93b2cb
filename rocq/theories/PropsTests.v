(** * PropsTests: property C68, the expected results of the test suite.

    [test_files], [suite], [mc_suite], [mc_ones], [lower_of], [upper_of] and [far_off] are defined in
    TestSpec.v; [printed], [show_ok] and [prints] in ShowSpec.v; the hypotheses about the C library and FFTW
    are those of C31 (exact arithmetic) and C62 (binary64). *)
From Coquelicot Require Import Coquelicot.
From Flocq Require Import Core.Core IEEE754.BinarySingleNaN.
From Coq Require Import ZArith Reals List String.
From Verif Require Import Base Num XReal TinyMT MonteCarlo Cli Spec CliSpec CliFacts XFft Ecdf2 StrtodSpec Binary64.
From Verif Require Import AccPmf AccFft LongDouble AccMnsEval AccMns AccMnsCase AccCliCase McSpec McProbSpec ShowSpec ShowCases TestSpec TestProb TestCli TestMc TestCase.
Import List. Import ListNotations.
Local Open Scope R_scope.
Local Open Scope string_scope.

(** ** The expected texts are the true probabilities, to six digits *)
Theorem C68_expected_values : Forall (fun row => match row with (_, t, out) =>
  exists p, is_noncrossing_probability (lower_of t) (upper_of t) p /\ forall s, printed p s -> s = out end) suite.
Proof. exact suite_values_rows. Qed.
Print Assumptions C68_expected_values.
Theorem C68_exact_values :
  is_noncrossing_probability (lower_of bounds_0_1) (upper_of bounds_0_1) 1 /\
  is_noncrossing_probability (lower_of bounds_0) (upper_of bounds_0) 1 /\
  is_noncrossing_probability (lower_of bounds__1) (upper_of bounds__1) 1 /\
  is_noncrossing_probability (lower_of bounds2) (upper_of bounds2) (75/100) /\
  is_noncrossing_probability (lower_of bounds8) (upper_of bounds8) (84052878/100000000) /\
  (exists p, is_noncrossing_probability (lower_of bounds_cksplus_10) (upper_of bounds_cksplus_10) p /\
     6089242114/10000000000 <= p <= 6089242115/10000000000) /\
  (exists p, is_noncrossing_probability (lower_of bounds_cksminus_10) (upper_of bounds_cksminus_10) p /\
     6089242114/10000000000 <= p <= 6089242115/10000000000).
Proof. exact exact_values. Qed.
Print Assumptions C68_exact_values.

(** ** crossprob passes its tests, in exact arithmetic and in binary64 *)
Theorem C68_passes_exact : forall frexp (E : env (Xnum frexp)) fs prog,
  show_ok real_of_xr E -> (forall t, In t test_files -> fs (name t) = Some (text t)) ->
  sort_ok E -> fft_ok E -> long_double_ok E ->
  Forall (fun row => match row with (cmd, t, out) => cli_main E fs [prog; cmd; name t] = Ok ([Text out], 0%Z) end) suite.
Proof. exact (@suite_exact). Qed.
Print Assumptions C68_passes_exact.
Theorem C68_passes_binary64 : forall (L : libm) (E : env (Bnum L)) (M : libml) fs prog (eps epsf epsl : R),
  strtod_correct L -> show_ok real_of_f64 E -> (forall t, In t test_files -> fs (name t) = Some (text t)) -> sort_ok E ->
  libm_accurate L eps -> bpow radix2 (-53) <= eps <= bpow radix2 (-47) ->
  fft_accurate E epsf -> bpow radix2 (-53) <= epsf <= bpow radix2 (-45) ->
  libml_accurate M epsl -> bpow radix2 (-64) <= epsl <= bpow radix2 (-40) -> libml_special M -> long_dbl E = x87 L M ->
  Forall (fun row => match row with (cmd, t, out) => @cli_main (Bnum L) E fs [prog; cmd; name t] = Ok ([Text out], 0%Z) end) suite.
Proof. exact suite_binary64. Qed.
Print Assumptions C68_passes_binary64.

(** ** crossprob_mc: with uniform random numbers the four tests that simulate a million times fail with
    probability at most 10^-20 each, the other two never *)
Theorem C68_mc_failure_is_rare : Forall (fun row => match row with (t, v) => exists q, q <= 1 / 10 ^ 20 /\
  has_prob (Z.to_nat 1000000 * S (sample_size t)) (far_off (Z.to_nat 1000000) t v) q end) mc_suite.
Proof. exact mc_suite_rare_rows. Qed.
Print Assumptions C68_mc_failure_is_rare.
Theorem C68_mc_passes : forall frexp (E : env (Xnum frexp)) fs prog uninit now,
  show_ok real_of_xr E -> (forall t, In t test_files -> fs (name t) = Some (text t)) ->
  forall t v us r1, In (t, v) mc_suite -> Forall (fun u => 0 < u < 1) us ->
  List.length us = (Z.to_nat 1000000 * S (sample_size t))%nat ->
  draws (N := Xnum frexp) (rng_make uninit (now + Z.of_nat (sample_size t) * 2 ^ 20)) (map Fin us) r1 ->
  ~ far_off (Z.to_nat 1000000) t v us ->
  forall fuel, (Z.to_nat 1000000 <= fuel)%nat ->
  exists w, prints (mc_main E fuel uninit now fs [prog; "ecdf"; name t; "1000000"]) w /\ Rabs (w - v) < EPSILON.
Proof. exact (@mc_suite_passes). Qed.
Print Assumptions C68_mc_passes.
Theorem C68_mc_ones : forall frexp (E : env (Xnum frexp)) fs prog uninit now,
  show_ok real_of_xr E -> (forall t, In t test_files -> fs (name t) = Some (text t)) ->
  forall t us r1, In t mc_ones -> Forall (fun u => 0 < u < 1) us -> List.length us = (1000 * S (sample_size t))%nat ->
  draws (N := Xnum frexp) (rng_make uninit (now + Z.of_nat (sample_size t) * 2 ^ 20)) (map Fin us) r1 ->
  forall fuel, (1000 <= fuel)%nat -> mc_main E fuel uninit now fs [prog; "ecdf"; name t; "1000"] = Ok ([Text "1"], 0%Z).
Proof. exact (@mc_ones_pass). Qed.
Print Assumptions C68_mc_ones.

(** The hypotheses can be met, and the expected texts matter. *)
Example C68_case_exact : forall a, show_ok real_of_xr (show_env a) /\ sort_ok (show_env a) /\ fft_ok (show_env a) /\ long_double_ok (show_env a) /\
  (forall t, In t test_files -> test_fs (name t) = Some (text t)).
Proof. exact test_env_exact. Qed.
Example C68_case_binary64 : forall a, strtod_correct text_libm /\ show_ok real_of_f64 (show_text_env a) /\ sort_ok (show_text_env a) /\
  libm_accurate text_libm (bpow radix2 (-53)) /\ fft_accurate (show_text_env a) (bpow radix2 (-53)) /\
  libml_accurate cr_libml (bpow radix2 (-64)) /\ libml_special cr_libml /\ long_dbl (show_text_env a) = x87 text_libm cr_libml /\
  (forall t, In t test_files -> test_fs (name t) = Some (text t)).
Proof. exact test_env_binary64. Qed.
Example C68_case_wrong_text : ~ prints_as bounds8 "0.75".
Proof. exact expectation_matters. Qed.
