(** * PropsFastCli: property C77, the crossprob program as compiled with -ffast-math, from the text of the file
    to the number it prints.

    The model of the compiler is in FastMath.v (see PropsFast.v), what is assumed of FFTW in FastFft.v and FastNewFinal.v,
    what is assumed of strtod in StrtodSpec.v.  [show] is how operator<< prints a double. *)
From Coquelicot Require Import Coquelicot.
From Flocq Require Import Core.Core IEEE754.BinarySingleNaN.
From Coq Require Import ZArith Reals List String.
From Verif Require Import Base Num XReal StringUtils MonteCarlo Cli Spec StringSpec CliSpec CliFacts Ecdf2 XEcdf2Main Cases StrtodSpec Binary64 Binary64Facts.
From Verif Require Import AccCliCase FastMath FastMain FastFft FastFftMain FastNewFinal FastCli.
Import List. Import ListNotations.
Local Open Scope R_scope.

(** ** C77 *)
Theorem C77_ecdf2 : forall (C : compiler) (L : libm) (E : env (Fnum C L)) (frexp : xr -> Z) (fs : filesystem) (prog f contents : string) (show : f64 -> string),
  strtod_correct L -> (forall r, @show_double (Fnum C L) E r = show (cp_sum C r)) -> fs f = Some contents ->
  forall (eps epsf : R) (use_fft : bool) (b B : list R),
  fast_libm_accurate (cp_flush C) L eps -> bpow radix2 (-51) <= eps ->
  (use_fft = true -> fast_fft_accurate C L E epsf /\ bpow radix2 (-50) <= epsf /\
     16384 * (INR (List.length b) * INR (List.length b)) * epsf <= 1) ->
  sort_ok E -> 65536 * (INR (List.length b) * INR (List.length b)) * eps <= 1 ->
  file_holds (N := Xnum frexp) contents (map Fin b) (map Fin B) ->
  valid_boundary b -> valid_boundary B ->
  Forall (fun v => v = 0 \/ bpow radix2 (-900) <= v) b -> Forall (fun v => v = 0 \/ bpow radix2 (-900) <= v) B ->
  List.length b = List.length B -> (1 <= List.length b)%nat ->
  (asserts E = true -> forall i, (S i < List.length b)%nat -> nth i b 0 <= nth (S i) B 0) ->
  exists p (r : f64), is_noncrossing_probability b B p /\
    @cli_main (Fnum C L) E fs [prog; ecdf2_command use_fft; f] = Ok ([Text (show r)], 0%Z) /\
    is_finite r = true /\
    Rabs (B2R r - p) <= 40001 * (INR (List.length b) * INR (List.length b) * eps) +
      (if use_fft then 8400 * (INR (List.length b) * INR (List.length b) * epsf) else 0) + bpow radix2 (-900).
Proof. exact cli_two_fast. Qed.
Print Assumptions C77_ecdf2.

Theorem C77_ecdf2_1000 : forall (C : compiler) (L : libm) (E : env (Fnum C L)) (frexp : xr -> Z) (fs : filesystem) (prog f contents : string) (show : f64 -> string),
  strtod_correct L -> (forall r, @show_double (Fnum C L) E r = show (cp_sum C r)) -> fs f = Some contents ->
  forall (use_fft : bool) (b B : list R),
  fast_libm_accurate (cp_flush C) L (bpow radix2 (-50)) -> (use_fft = true -> fast_fft_accurate C L E (bpow radix2 (-47))) -> sort_ok E ->
  file_holds (N := Xnum frexp) contents (map Fin b) (map Fin B) ->
  valid_boundary b -> valid_boundary B ->
  Forall (fun v => v = 0 \/ bpow radix2 (-900) <= v) b -> Forall (fun v => v = 0 \/ bpow radix2 (-900) <= v) B ->
  List.length b = List.length B -> (1 <= List.length b <= 1000)%nat ->
  (asserts E = true -> forall i, (S i < List.length b)%nat -> nth i b 0 <= nth (S i) B 0) ->
  exists p (r : f64), is_noncrossing_probability b B p /\
    @cli_main (Fnum C L) E fs [prog; ecdf2_command use_fft; f] = Ok ([Text (show r)], 0%Z) /\
    is_finite r = true /\ Rabs (B2R r - p) <= / 10000.
Proof. exact cli_two_fast_1000. Qed.
Print Assumptions C77_ecdf2_1000.

Theorem C77_ecdf2_missing_b : forall (C : compiler) (L : libm) (E : env (Fnum C L)) (frexp : xr -> Z) (fs : filesystem) (prog f contents : string) (show : f64 -> string),
  strtod_correct L -> (forall r, @show_double (Fnum C L) E r = show (cp_sum C r)) -> fs f = Some contents ->
  forall (eps epsf : R) (use_fft : bool) (B : list R),
  fast_libm_accurate (cp_flush C) L eps -> bpow radix2 (-51) <= eps ->
  (use_fft = true -> fast_fft_accurate C L E epsf /\ bpow radix2 (-50) <= epsf /\
     16384 * (INR (List.length B) * INR (List.length B)) * epsf <= 1) ->
  sort_ok E -> 65536 * (INR (List.length B) * INR (List.length B)) * eps <= 1 ->
  file_holds (N := Xnum frexp) contents [] (map Fin B) -> valid_boundary B ->
  Forall (fun v => v = 0 \/ bpow radix2 (-900) <= v) B -> B <> [] ->
  exists p (r : f64), is_prob (List.length B) (noncrossing_B B) p /\
    @cli_main (Fnum C L) E fs [prog; ecdf2_command use_fft; f] = Ok ([Text (show r)], 0%Z) /\
    is_finite r = true /\
    Rabs (B2R r - p) <= 40001 * (INR (List.length B) * INR (List.length B) * eps) +
      (if use_fft then 8400 * (INR (List.length B) * INR (List.length B) * epsf) else 0) + bpow radix2 (-900).
Proof. exact cli_two_fast_B. Qed.
Print Assumptions C77_ecdf2_missing_b.

Theorem C77_ecdf2_missing_B : forall (C : compiler) (L : libm) (E : env (Fnum C L)) (frexp : xr -> Z) (fs : filesystem) (prog f contents : string) (show : f64 -> string),
  strtod_correct L -> (forall r, @show_double (Fnum C L) E r = show (cp_sum C r)) -> fs f = Some contents ->
  forall (eps epsf : R) (use_fft : bool) (b : list R),
  fast_libm_accurate (cp_flush C) L eps -> bpow radix2 (-51) <= eps ->
  (use_fft = true -> fast_fft_accurate C L E epsf /\ bpow radix2 (-50) <= epsf /\
     16384 * (INR (List.length b) * INR (List.length b)) * epsf <= 1) ->
  sort_ok E -> 65536 * (INR (List.length b) * INR (List.length b)) * eps <= 1 ->
  file_holds (N := Xnum frexp) contents (map Fin b) [] -> valid_boundary b ->
  Forall (fun v => v = 0 \/ bpow radix2 (-900) <= v) b -> b <> [] ->
  exists p (r : f64), is_prob (List.length b) (noncrossing_b b) p /\
    @cli_main (Fnum C L) E fs [prog; ecdf2_command use_fft; f] = Ok ([Text (show r)], 0%Z) /\
    is_finite r = true /\
    Rabs (B2R r - p) <= 40001 * (INR (List.length b) * INR (List.length b) * eps) +
      (if use_fft then 8400 * (INR (List.length b) * INR (List.length b) * epsf) else 0) + bpow radix2 (-900).
Proof. exact cli_two_fast_b. Qed.
Print Assumptions C77_ecdf2_missing_B.

(** ecdf1-new on an upper boundary. *)
Theorem C77_ecdf1_new_upper : forall (C : compiler) (L : libm) (E : env (Fnum C L)) (frexp : xr -> Z) (fs : filesystem) (prog f contents : string) (show : f64 -> string),
  strtod_correct L -> (forall r, @show_double (Fnum C L) E r = show (cp_sum C r)) -> fs f = Some contents ->
  forall (eps epsf : R) (B : list R),
  fast_libm_accurate (cp_flush C) L eps -> bpow radix2 (-51) <= eps ->
  fast_fft_accurate C L E epsf -> bpow radix2 (-50) <= epsf -> fft_stores C L E ->
  (1 <= List.length B)%nat -> (asserts E = true -> (2 <= List.length B)%nat) ->
  65536 * (INR (List.length B) * INR (List.length B) * sqrt (INR (List.length B))) * eps <= 1 ->
  16384 * (INR (List.length B) * INR (List.length B) * sqrt (INR (List.length B))) * epsf <= 1 ->
  file_holds (N := Xnum frexp) contents [] (map Fin B) -> valid_boundary B ->
  Forall (fun v => v = 0 \/ bpow radix2 (-900) <= v) B ->
  exists p (r : f64), is_prob (List.length B) (noncrossing_B B) p /\
    @cli_main (Fnum C L) E fs [prog; "ecdf1-new"%string; f] = Ok ([Text (show r)], 0%Z) /\
    is_finite r = true /\
    Rabs (B2R r - p) <= 60001 * (INR (List.length B) * INR (List.length B) * eps)
      + 9000 * (INR (List.length B) * INR (List.length B) * epsf) + bpow radix2 (-1022).
Proof. exact cli_new_fast_B. Qed.
Print Assumptions C77_ecdf1_new_upper.

(** A compiler that adds in two lanes and contracts, with and without flushing; a library, transforms and the files of
    C62 ("0.1, 0.3 / 0.8, 1", and each of its lines alone). *)
Example C77_case_library : forall (flush a : bool) (show : f64 -> string),
  let C := simd_compiler flush in let E := fast_text_env C show a in
  strtod_correct text_libm /\ (forall r, @show_double (Fnum C text_libm) E r = show (cp_sum C r)) /\
  fast_libm_accurate (cp_flush C) text_libm (bpow radix2 (-50)) /\ fast_fft_accurate C text_libm E (bpow radix2 (-47)) /\
  fft_stores C text_libm E /\ sort_ok E.
Proof.
  exact (fun flush a show => conj text_strtod (conj (fast_text_show _ _ _) (conj (text_fast flush)
    (conj (fast_text_fft _ _ _) (conj (fast_text_stores _ _ _) (fast_text_sort _ _ _)))))).
Qed.
Example C77_case : forall (flush : bool) (show : f64 -> string) (use_fft : bool),
  exists p (r : f64), is_noncrossing_probability [1/10; 3/10] [8/10; 1] p /\
    cli_main (fast_text_env (simd_compiler flush) show true) text_fs ["crossprob"%string; ecdf2_command use_fft; "two.txt"%string] = Ok ([Text (show r)], 0%Z) /\
    is_finite r = true /\ Rabs (B2R r - p) <= / 10000.
Proof. exact fast_text_two. Qed.
