(** * PropsFastSuite: property C81, the test suite's expectations for crossprob as compiled with -ffast-math.

    [test_files] and [suite] are defined in TestSpec.v, [printed] in ShowSpec.v.  The model of the compiler is in FastMath.v
    (double) and FastLong.v (long double); what is assumed of the C library and FFTW is as for C76, C77 and C79.  [show] is
    how operator<< prints a double.  ecdf1-new of a lower boundary is stated for [ecdf1_new_b_stored], as in C76. *)
From Coquelicot Require Import Coquelicot.
From Flocq Require Import Core.Core IEEE754.BinarySingleNaN.
From Coq Require Import ZArith Reals List String.
From Verif Require Import Base Num XReal StringUtils MonteCarlo Cli Spec CliSpec ExactEnv ExactFacts XFft Ecdf2 StrtodSpec Binary64.
From Verif Require Import LongDouble AccMnsEval AccMns AccMnsCase AccCliCase ShowSpec TestSpec TestProb TestCase.
From Verif Require Import FastMath FastMain FastFft FastFftMain FastNewFinal FastNewLower FastLong FastMnsMain FastMnsCase FastCli FastMnsCli FastSuite.
Import List. Import ListNotations.
Local Open Scope R_scope.
Local Open Scope string_scope.

Theorem C81_passes : forall (C : compiler) (L : libm) (E : env (Fnum C L)) (D : lcompiler) (M : libml) (fs : filesystem) (prog : string)
  (show : f64 -> string) (eps epsf epsl : R),
  strtod_correct L -> (forall r, @show_double (Fnum C L) E r = show (cp_sum C r)) ->
  (forall x : f64, is_finite x = true -> printed (B2R x) (show x)) ->
  (forall t, In t test_files -> fs (name t) = Some (text t)) -> sort_ok E ->
  fast_libm_accurate (cp_flush C) L eps -> bpow radix2 (-51) <= eps <= bpow radix2 (-47) ->
  fast_fft_accurate C L E epsf -> fft_stores C L E -> bpow radix2 (-50) <= epsf <= bpow radix2 (-45) ->
  libml_accurate M epsl -> bpow radix2 (-64) <= epsl <= bpow radix2 (-40) -> long_dbl E = fast87 C L D M ->
  Forall (fun row => match row with (cmd, t, out) =>
    cmd <> "ecdf1-new" \/ upper t <> [] -> @cli_main (Fnum C L) E fs [prog; cmd; name t] = Ok ([Text out], 0%Z) end) suite.
Proof. exact suite_fast. Qed.
Print Assumptions C81_passes.

(** The two rows left: the boundary read from the file, given to ecdf1_new_b. *)
Theorem C81_passes_new_lower : forall (C : compiler) (L : libm) (E : env (Fnum C L)) (fs : filesystem)
  (show : f64 -> string) (eps epsf : R),
  strtod_correct L -> (forall r, @show_double (Fnum C L) E r = show (cp_sum C r)) ->
  (forall x : f64, is_finite x = true -> printed (B2R x) (show x)) ->
  (forall t, In t test_files -> fs (name t) = Some (text t)) ->
  fast_libm_accurate (cp_flush C) L eps -> bpow radix2 (-51) <= eps <= bpow radix2 (-47) ->
  fast_fft_accurate C L E epsf -> fft_stores C L E -> bpow radix2 (-50) <= epsf <= bpow radix2 (-45) ->
  Forall (fun row => match row with (cmd, t, out) =>
    cmd = "ecdf1-new" -> upper t = [] -> exists b r, @read_and_check_boundaries_file (Fnum C L) fs (name t) = Ok (b, []) /\
      ecdf1_new_b_stored C L E b = Ok r /\ @show_double (Fnum C L) E r = out end) suite.
Proof. exact suite_fast_new_lower. Qed.
Print Assumptions C81_passes_new_lower.

(** The hypotheses can be met, for every compiler of the model, with and without assertions. *)
Example C81_case : forall (C : compiler) (a : bool), let E := fast80_text_env C show_f64 a in
  strtod_correct text_libm /\ (forall r, @show_double _ E r = show_f64 (cp_sum C r)) /\
  (forall x : f64, is_finite x = true -> printed (B2R x) (show_f64 x)) /\
  (forall t, In t test_files -> test_fs (name t) = Some (text t)) /\ sort_ok E /\
  fast_libm_accurate (cp_flush C) text_libm (bpow radix2 (-50)) /\ fast_fft_accurate C text_libm E (bpow radix2 (-47)) /\ fft_stores C text_libm E /\
  libml_accurate cr_libml (bpow radix2 (-64)) /\ long_dbl E = fast87 C text_libm back_compiler cr_libml.
Proof. exact suite_fast_case. Qed.
Example C81_case_wrong_text : ~ prints_as bounds8 "0.75".
Proof. exact expectation_matters. Qed.
