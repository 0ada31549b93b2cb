(** * PropsAccuracyCli: property C62, the crossprob program in binary64, from the text of the file to the
    number it prints.

    [file_holds] over [Xnum] (CliSpec.v) gives the real numbers written in the file; [normal] and
    [strtod_correct] are in StrtodSpec.v; [libm_accurate] (AccPmf.v), [fft_accurate] (AccFft.v),
    [libml_accurate] (AccMnsEval.v) and [libml_special] (AccMns.v) say what is assumed of the C library
    and of FFTW; [sort_ok] (Ecdf2.v) that std::sort sorts. *)
From Coquelicot Require Import Coquelicot.
From Flocq Require Import Core.Core IEEE754.BinarySingleNaN.
From Coq Require Import ZArith Reals List String.
From Verif Require Import Base Num XReal StringUtils MonteCarlo Cli Spec StringSpec CliSpec CliFacts Ecdf2 Cases StrtodSpec Binary64 Binary64Facts.
From Verif Require Import LongDouble AccPmf AccFft AccMnsEval AccMns AccMnsCase AccCli AccCliCase.
Import List. Import ListNotations.
Local Open Scope R_scope.

Theorem C62_ecdf2 : forall (L : libm) (E : env (Bnum L)) (frexp : xr -> Z) (fs : filesystem) (prog f contents : string),
  strtod_correct L -> fs f = Some contents ->
  forall (eps epsf : R) (use_fft : bool) (b B : list R),
  libm_accurate L eps -> bpow radix2 (-53) <= eps ->
  (use_fft = true -> fft_accurate E epsf /\ bpow radix2 (-53) <= epsf /\
     16384 * (INR (List.length b) * INR (List.length b)) * epsf <= 1) ->
  sort_ok E -> 65536 * (INR (List.length b) * INR (List.length b)) * eps <= 1 ->
  file_holds (N := Xnum frexp) contents (map Fin b) (map Fin B) ->
  valid_boundary b -> valid_boundary B -> Forall normal b -> Forall normal B -> List.length b = List.length B ->
  (asserts E = true -> forall i, (S i < List.length b)%nat -> nth i b 0 <= nth (S i) B 0) ->
  exists p (r : f64), is_noncrossing_probability b B p /\
    @cli_main (Bnum L) E fs [prog; ecdf2_command use_fft; f] = Ok ([Text (@show_double (Bnum L) E r)], 0%Z) /\
    is_finite r = true /\
    Rabs (B2R r - p) <= 40002 * (INR (List.length b) * INR (List.length b) * eps) +
      (if use_fft then 10000 * (INR (List.length b) * INR (List.length b) * epsf) else bpow radix2 (-1000)).
Proof. exact cli_two64. Qed.
Print Assumptions C62_ecdf2.

Theorem C62_ecdf2_missing_b : forall (L : libm) (E : env (Bnum L)) (frexp : xr -> Z) (fs : filesystem) (prog f contents : string),
  strtod_correct L -> fs f = Some contents ->
  forall (eps epsf : R) (use_fft : bool) (B : list R),
  libm_accurate L eps -> bpow radix2 (-53) <= eps ->
  (use_fft = true -> fft_accurate E epsf /\ bpow radix2 (-53) <= epsf /\
     16384 * (INR (List.length B) * INR (List.length B)) * epsf <= 1) ->
  sort_ok E -> 65536 * (INR (List.length B) * INR (List.length B)) * eps <= 1 ->
  file_holds (N := Xnum frexp) contents [] (map Fin B) -> valid_boundary B -> Forall normal B -> B <> [] ->
  exists p (r : f64), is_prob (List.length B) (noncrossing_B B) p /\
    @cli_main (Bnum L) E fs [prog; ecdf2_command use_fft; f] = Ok ([Text (@show_double (Bnum L) E r)], 0%Z) /\
    is_finite r = true /\
    Rabs (B2R r - p) <= 40002 * (INR (List.length B) * INR (List.length B) * eps) +
      (if use_fft then 10000 * (INR (List.length B) * INR (List.length B) * epsf) else bpow radix2 (-1000)).
Proof. exact cli_two64_B. Qed.
Print Assumptions C62_ecdf2_missing_b.

Theorem C62_ecdf2_missing_B : forall (L : libm) (E : env (Bnum L)) (frexp : xr -> Z) (fs : filesystem) (prog f contents : string),
  strtod_correct L -> fs f = Some contents ->
  forall (eps epsf : R) (use_fft : bool) (b : list R),
  libm_accurate L eps -> bpow radix2 (-53) <= eps ->
  (use_fft = true -> fft_accurate E epsf /\ bpow radix2 (-53) <= epsf /\
     16384 * (INR (List.length b) * INR (List.length b)) * epsf <= 1) ->
  sort_ok E -> 65536 * (INR (List.length b) * INR (List.length b)) * eps <= 1 ->
  file_holds (N := Xnum frexp) contents (map Fin b) [] -> valid_boundary b -> Forall normal b -> b <> [] ->
  exists p (r : f64), is_prob (List.length b) (noncrossing_b b) p /\
    @cli_main (Bnum L) E fs [prog; ecdf2_command use_fft; f] = Ok ([Text (@show_double (Bnum L) E r)], 0%Z) /\
    is_finite r = true /\
    Rabs (B2R r - p) <= 40002 * (INR (List.length b) * INR (List.length b) * eps) +
      (if use_fft then 10000 * (INR (List.length b) * INR (List.length b) * epsf) else bpow radix2 (-1000)).
Proof. exact cli_two64_b. Qed.
Print Assumptions C62_ecdf2_missing_B.

Theorem C62_ecdf1_new : forall (L : libm) (E : env (Bnum L)) (frexp : xr -> Z) (fs : filesystem) (prog f contents : string),
  strtod_correct L -> fs f = Some contents ->
  forall (eps epsf : R) (v : list R),
  libm_accurate L eps -> bpow radix2 (-53) <= eps -> fft_accurate E epsf -> bpow radix2 (-53) <= epsf ->
  (1 <= List.length v)%nat -> (asserts E = true -> (2 <= List.length v)%nat) ->
  65536 * (INR (List.length v) * INR (List.length v) * sqrt (INR (List.length v))) * eps <= 1 ->
  16384 * (INR (List.length v) * INR (List.length v) * sqrt (INR (List.length v))) * epsf <= 1 ->
  valid_boundary v -> Forall normal v ->
  (file_holds (N := Xnum frexp) contents (map Fin v) [] ->
   exists p (r : f64), is_prob (List.length v) (noncrossing_b v) p /\
    @cli_main (Bnum L) E fs [prog; "ecdf1-new"%string; f] = Ok ([Text (@show_double (Bnum L) E r)], 0%Z) /\
    is_finite r = true /\
    Rabs (B2R r - p) <= 60002 * (INR (List.length v) * INR (List.length v) * eps) + 9000 * (INR (List.length v) * INR (List.length v) * epsf)) /\
  (file_holds (N := Xnum frexp) contents [] (map Fin v) ->
   exists p (r : f64), is_prob (List.length v) (noncrossing_B v) p /\
    @cli_main (Bnum L) E fs [prog; "ecdf1-new"%string; f] = Ok ([Text (@show_double (Bnum L) E r)], 0%Z) /\
    is_finite r = true /\
    Rabs (B2R r - p) <= 60002 * (INR (List.length v) * INR (List.length v) * eps) + 9000 * (INR (List.length v) * INR (List.length v) * epsf)).
Proof. exact cli_new64. Qed.
Print Assumptions C62_ecdf1_new.

Theorem C62_ecdf1_mns2016 : forall (L : libm) (E : env (Bnum L)) (frexp : xr -> Z) (fs : filesystem) (prog f contents : string),
  strtod_correct L -> fs f = Some contents ->
  forall (M : libml) (eps : R) (v : list R),
  libml_accurate M eps -> bpow radix2 (-64) <= eps -> eps <= bpow radix2 (-40) -> libml_special M -> long_dbl E = x87 L M ->
  (1 <= List.length v <= 4096)%nat -> valid_boundary v -> Forall normal v ->
  let N := INR (S (List.length v)) in
  let nu := INR (List.length v) * INR (List.length v) * bpow radix2 (-53) in
  (file_holds (N := Xnum frexp) contents (map Fin v) [] ->
   exists p (r : f64), is_prob (List.length v) (noncrossing_b v) p /\
    @cli_main (Bnum L) E fs [prog; "ecdf1-mns2016"%string; f] = Ok ([Text (@show_double (Bnum L) E r)], 0%Z) /\
    (r = B754_nan /\ p <= (56 * (N * N) + 57 * N) * eps + nu \/
     is_finite r = true /\ Rabs (B2R r - p) <= (56 * (N * N) + 410 * N) * eps + bpow radix2 (-52) + nu)) /\
  (file_holds (N := Xnum frexp) contents [] (map Fin v) ->
   exists p (r : f64), is_prob (List.length v) (noncrossing_B v) p /\
    @cli_main (Bnum L) E fs [prog; "ecdf1-mns2016"%string; f] = Ok ([Text (@show_double (Bnum L) E r)], 0%Z) /\
    (r = B754_nan /\ p <= (56 * (N * N) + 57 * N) * eps + 2 * nu \/
     is_finite r = true /\ Rabs (B2R r - p) <= (56 * (N * N) + 410 * N) * eps + bpow radix2 (-52) + 2 * nu)).
Proof. exact cli_mns64. Qed.
Print Assumptions C62_ecdf1_mns2016.

(** A library, an environment and three files that meet these hypotheses:
    "0.1, 0.3 / 0.8, 1", the first line alone and the second line alone. *)
Example C62_case_library : strtod_correct text_libm /\ libm_accurate text_libm (bpow radix2 (-53)) /\
  (forall a, fft_accurate (text_env a) (bpow radix2 (-53)) /\ sort_ok (text_env a) /\ long_dbl (text_env a) = x87 text_libm cr_libml) /\
  libml_accurate cr_libml (bpow radix2 (-64)) /\ libml_special cr_libml.
Proof.
  exact (conj text_strtod (conj text_accurate (conj (fun a => conj (text_fft a) (conj (text_sort a) eq_refl)) (conj cr80_accurate cr80_special)))).
Qed.
Example C62_case_files : (text_fs "two.txt" = Some two_text /\ file_holds (N := Xnum some_frexp) two_text (map Fin text_b) (map Fin text_B)) /\
  (text_fs "b.txt" = Some one_text /\ file_holds (N := Xnum some_frexp) one_text (map Fin text_b) []) /\
  (text_fs "B.txt" = Some other_text /\ file_holds (N := Xnum some_frexp) other_text [] (map Fin text_B)).
Proof. exact (conj (conj eq_refl two_holds) (conj (conj eq_refl one_holds) (conj eq_refl other_holds))). Qed.
Example C62_case_boundaries : text_b = [1/10; 3/10] /\ text_B = [8/10; 1] /\
  (valid_boundary text_b /\ valid_boundary text_B) /\ (Forall normal text_b /\ Forall normal text_B) /\
  (forall i, (S i < List.length text_b)%nat -> nth i text_b 0 <= nth (S i) text_B 0) /\
  (65536 * (INR (List.length text_b) * INR (List.length text_b) * sqrt (INR (List.length text_b))) * bpow radix2 (-53) <= 1 /\
   65536 * (INR (List.length text_b) * INR (List.length text_b)) * bpow radix2 (-53) <= 1).
Proof. exact (conj eq_refl (conj eq_refl (conj text_valid (conj text_normal (conj text_no_gap text_small))))). Qed.
