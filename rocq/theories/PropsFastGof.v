(** * PropsFastGof: properties C84 (Kolmogorov-Smirnov p-values from a -ffast-math build) and C85 (the digits the crossprob
    program prints when compiled with -ffast-math).

    See PropsFast.v for the model of the compiler, PropsGof.v for the Kolmogorov-Smirnov events and PropsShow.v for [printed] and [prints]. *)
From Coquelicot Require Import Coquelicot.
From Flocq Require Import Core.Core IEEE754.BinarySingleNaN.
From Coq Require Import ZArith Reals List String.
From Verif Require Import Base Num XReal StringUtils MonteCarlo Cli Spec StringSpec CliSpec CliFacts Ecdf2 Ecdf1New XEcdf2Main Cases StrtodSpec Binary64 Binary64Facts.
From Verif Require Import LongDouble AccMnsEval AccCases AccCliCase ShowSpec ShowCases FastSuite GofSpec.
From Verif Require Import FastMath FastMain FastFft FastFftMain FastNewFinal FastNewLower FastLong FastCli FastMnsCli GofFast FastShow GofAcc.
Import List. Import ListNotations.
Local Open Scope R_scope.
Local Open Scope string_scope.

(** ** C84: [within delta v w]: the doubles v are the numbers w up to delta *)
Theorem C84_two_sided : forall (C : compiler) (L : libm) (E : env (Fnum C L)) (n : nat) (d delta : R) (b B : list f64) (use_fft : bool),
  fast_libm_accurate (cp_flush C) L (bpow radix2 (-50)) -> (use_fft = true -> fast_fft_accurate C L E (bpow radix2 (-47))) -> sort_ok E ->
  (1 <= n <= 1000)%nat -> 2 * delta <= d -> 2 * delta <= 1 -> 0 <= d ->
  accepted64 b -> accepted64 B -> Forall (fun x : f64 => B2R x = 0 \/ bpow radix2 (-900) <= B2R x) b ->
  Forall (fun x : f64 => B2R x = 0 \/ bpow radix2 (-900) <= B2R x) B ->
  within delta b (ks_lower n d) -> within delta B (ks_upper n d) ->
  exists p r, is_prob n (fun l => ~ ks_at_most d l) p /\ @ecdf2 (Fnum C L) E (map lit b) (map lit B) use_fft = Ok r /\
    is_finite (cp_sum C r) = true /\ Rabs (B2R (cp_sum C r) - (1 - p)) <= 1 / 10000 + 2 * (INR n * (INR n * delta)).
Proof. exact ks_two_sided_fast. Qed.
Print Assumptions C84_two_sided.
Theorem C84_one_sided : forall (C : compiler) (L : libm) (E : env (Fnum C L)) (n : nat) (d delta : R) (v : list f64),
  fast_libm_accurate (cp_flush C) L (bpow radix2 (-50)) -> fast_fft_accurate C L E (bpow radix2 (-47)) -> fft_stores C L E ->
  (1 <= n <= 1000)%nat -> (asserts E = true -> (2 <= n)%nat) -> 0 <= d -> accepted64 v ->
  Forall (fun x : f64 => B2R x = 0 \/ bpow radix2 (-900) <= B2R x) v ->
  (within delta v (ks_lower n d) -> exists p r, is_prob n (fun l => ~ ks_plus_at_most d l) p /\ ecdf1_new_b_stored C L E (map lit v) = Ok r /\
    is_finite (cp_sum C r) = true /\ Rabs (B2R (cp_sum C r) - (1 - p)) <= 12 / 100000 + INR n * (INR n * delta)) /\
  (within delta v (ks_upper n d) -> exists p r, is_prob n (fun l => ~ ks_minus_at_most d l) p /\ @ecdf1_new_B (Fnum C L) E (map lit v) = Ok r /\
    is_finite (cp_sum C r) = true /\ Rabs (B2R (cp_sum C r) - (1 - p)) <= 12 / 100000 + INR n * (INR n * delta)).
Proof. exact ks_one_sided_fast. Qed.
Print Assumptions C84_one_sided.
(** From a file: [b], [B] are the numbers written in it; [close delta v w]: the numbers v are the numbers w up to delta. *)
Theorem C84_program : forall (C : compiler) (L : libm) (E : env (Fnum C L)) (frexp : xr -> Z) (fs : filesystem) (prog f contents : string) (show : f64 -> string),
  strtod_correct L -> (forall r, @show_double (Fnum C L) E r = show (cp_sum C r)) -> (forall x : f64, is_finite x = true -> printed (B2R x) (show x)) ->
  fs f = Some contents ->
  forall (n : nat) (d delta : R) (b B : list R) (use_fft : bool),
  fast_libm_accurate (cp_flush C) L (bpow radix2 (-50)) -> (use_fft = true -> fast_fft_accurate C L E (bpow radix2 (-47))) -> sort_ok E ->
  (1 <= n <= 1000)%nat -> 2 * delta <= d -> 2 * delta <= 1 -> 0 <= d ->
  file_holds (N := Xnum frexp) contents (map Fin b) (map Fin B) ->
  valid_boundary b -> valid_boundary B -> Forall (fun v => v = 0 \/ bpow radix2 (-900) <= v) b -> Forall (fun v => v = 0 \/ bpow radix2 (-900) <= v) B ->
  close delta b (ks_lower n d) -> close delta B (ks_upper n d) ->
  exists p w, is_prob n (fun l => ~ ks_at_most d l) p /\ prints (@cli_main (Fnum C L) E fs [prog; ecdf2_command use_fft; f]) w /\
    Rabs (w - (1 - p)) <= 11 / 100000 + 2 * (INR n * (INR n * delta)).
Proof. exact fast_shows_ks. Qed.
Print Assumptions C84_program.

(** Two points, d = 1/2: Pr[D > 1/2] = 1/2; the doubles nearest to the boundaries, and the file "0, 0.5" / "0.5, 1". *)
Example C84_case : is_prob 2 (fun l => ~ ks_at_most (1 / 2) l) (1 / 2) /\ ks_lower 2 (1 / 2) = half_b /\ ks_upper 2 (1 / 2) = half_B /\
  forall flush use_fft : bool, let C := simd_compiler flush in let E := fast_fft_env C cr_libm true in
  exists r, @ecdf2 (Fnum C cr_libm) E (map lit (map of_R half_b)) (map lit (map of_R half_B)) use_fft = Ok r /\
    is_finite (cp_sum C r) = true /\ Rabs (B2R (cp_sum C r) - 1 / 2) <= 2 / 10000.
Proof. exact (conj half_prob (conj (proj1 half_bands) (conj (proj2 half_bands) ks_case))). Qed.
Example C84_case_program : forall flush use_fft : bool, exists w,
  prints (cli_main (fast_text_env (simd_compiler flush) show_f64 true) half_fs ["crossprob"; ecdf2_command use_fft; "ks.txt"]) w /\
  Rabs (w - 1 / 2) <= 11 / 100000.
Proof. exact half_case. Qed.

(** ** C85 *)
Theorem C85_ecdf2 : forall (C : compiler) (L : libm) (E : env (Fnum C L)) (frexp : xr -> Z) (fs : filesystem) (prog f contents : string) (show : f64 -> string),
  strtod_correct L -> (forall r, @show_double (Fnum C L) E r = show (cp_sum C r)) -> (forall x : f64, is_finite x = true -> printed (B2R x) (show x)) ->
  fs f = Some contents ->
  forall (eps epsf : R) (use_fft : bool) (b B : list R),
  fast_libm_accurate (cp_flush C) L eps -> bpow radix2 (-51) <= eps ->
  (use_fft = true -> fast_fft_accurate C L E epsf /\ bpow radix2 (-50) <= epsf /\
     16384 * (INR (List.length b) * INR (List.length b)) * epsf <= 1) ->
  sort_ok E -> 65536 * (INR (List.length b) * INR (List.length b)) * eps <= 1 ->
  file_holds (N := Xnum frexp) contents (map Fin b) (map Fin B) ->
  valid_boundary b -> valid_boundary B ->
  Forall (fun v => v = 0 \/ bpow radix2 (-900) <= v) b -> Forall (fun v => v = 0 \/ bpow radix2 (-900) <= v) B ->
  List.length b = List.length B -> (1 <= List.length b)%nat ->
  (asserts E = true -> forall i, (S i < List.length b)%nat -> nth i b 0 <= nth (S i) B 0) ->
  let tol := 40001 * (INR (List.length b) * INR (List.length b) * eps) +
    (if use_fft then 8400 * (INR (List.length b) * INR (List.length b) * epsf) else 0) + bpow radix2 (-900) in
  exists p, is_noncrossing_probability b B p /\ exists w, prints (@cli_main (Fnum C L) E fs [prog; ecdf2_command use_fft; f]) w /\
    (tol <= 1 -> Rabs (w - p) <= tol + 1 / 100000) /\ (tol <= 5 / 1000000 -> Rabs (w - p) <= tol + 5 / 10000000).
Proof. exact fast_shows_two. Qed.
Print Assumptions C85_ecdf2.
Theorem C85_ecdf2_one_line : forall (C : compiler) (L : libm) (E : env (Fnum C L)) (frexp : xr -> Z) (fs : filesystem) (prog f contents : string) (show : f64 -> string),
  strtod_correct L -> (forall r, @show_double (Fnum C L) E r = show (cp_sum C r)) -> (forall x : f64, is_finite x = true -> printed (B2R x) (show x)) ->
  fs f = Some contents ->
  forall (eps epsf : R) (use_fft : bool) (v : list R),
  fast_libm_accurate (cp_flush C) L eps -> bpow radix2 (-51) <= eps ->
  (use_fft = true -> fast_fft_accurate C L E epsf /\ bpow radix2 (-50) <= epsf /\
     16384 * (INR (List.length v) * INR (List.length v)) * epsf <= 1) ->
  sort_ok E -> 65536 * (INR (List.length v) * INR (List.length v)) * eps <= 1 ->
  valid_boundary v -> Forall (fun x => x = 0 \/ bpow radix2 (-900) <= x) v -> v <> [] ->
  let tol := 40001 * (INR (List.length v) * INR (List.length v) * eps) +
    (if use_fft then 8400 * (INR (List.length v) * INR (List.length v) * epsf) else 0) + bpow radix2 (-900) in
  let near p := exists w, prints (@cli_main (Fnum C L) E fs [prog; ecdf2_command use_fft; f]) w /\
    (tol <= 1 -> Rabs (w - p) <= tol + 1 / 100000) /\ (tol <= 5 / 1000000 -> Rabs (w - p) <= tol + 5 / 10000000) in
  (file_holds (N := Xnum frexp) contents (map Fin v) [] -> exists p, is_prob (List.length v) (noncrossing_b v) p /\ near p) /\
  (file_holds (N := Xnum frexp) contents [] (map Fin v) -> exists p, is_prob (List.length v) (noncrossing_B v) p /\ near p).
Proof. exact fast_shows_one. Qed.
Print Assumptions C85_ecdf2_one_line.
Theorem C85_ecdf1_new_upper : forall (C : compiler) (L : libm) (E : env (Fnum C L)) (frexp : xr -> Z) (fs : filesystem) (prog f contents : string) (show : f64 -> string),
  strtod_correct L -> (forall r, @show_double (Fnum C L) E r = show (cp_sum C r)) -> (forall x : f64, is_finite x = true -> printed (B2R x) (show x)) ->
  fs f = Some contents ->
  forall (eps epsf : R) (B : list R),
  fast_libm_accurate (cp_flush C) L eps -> bpow radix2 (-51) <= eps ->
  fast_fft_accurate C L E epsf -> bpow radix2 (-50) <= epsf -> fft_stores C L E ->
  (1 <= List.length B)%nat -> (asserts E = true -> (2 <= List.length B)%nat) ->
  65536 * (INR (List.length B) * INR (List.length B) * sqrt (INR (List.length B))) * eps <= 1 ->
  16384 * (INR (List.length B) * INR (List.length B) * sqrt (INR (List.length B))) * epsf <= 1 ->
  file_holds (N := Xnum frexp) contents [] (map Fin B) -> valid_boundary B -> Forall (fun x => x = 0 \/ bpow radix2 (-900) <= x) B ->
  let tol := 60001 * (INR (List.length B) * INR (List.length B) * eps) + 9000 * (INR (List.length B) * INR (List.length B) * epsf) + bpow radix2 (-1022) in
  exists p, is_prob (List.length B) (noncrossing_B B) p /\ exists w, prints (@cli_main (Fnum C L) E fs [prog; "ecdf1-new"; f]) w /\
    (tol <= 1 -> Rabs (w - p) <= tol + 1 / 100000) /\ (tol <= 5 / 1000000 -> Rabs (w - p) <= tol + 5 / 10000000).
Proof. exact fast_shows_new. Qed.
Print Assumptions C85_ecdf1_new_upper.
Theorem C85_ecdf1_mns2016 : forall (C : compiler) (L : libm) (E : env (Fnum C L)) (frexp : xr -> Z) (fs : filesystem) (prog f contents : string) (show : f64 -> string),
  strtod_correct L -> (forall r, @show_double (Fnum C L) E r = show (cp_sum C r)) -> (forall x : f64, is_finite x = true -> printed (B2R x) (show x)) ->
  fs f = Some contents ->
  forall (D : lcompiler) (M : libml) (eps : R) (v : list R),
  libml_accurate M eps -> bpow radix2 (-64) <= eps -> eps <= bpow radix2 (-40) -> long_dbl E = fast87 C L D M ->
  (1 <= List.length v <= 4096)%nat -> valid_boundary v -> Forall (fun x => x = 0 \/ bpow radix2 (-900) <= x) v ->
  let N := INR (S (List.length v)) in
  let nu := INR (List.length v) * INR (List.length v) * bpow radix2 (-53) in
  let near p tol := exists w, prints (@cli_main (Fnum C L) E fs [prog; "ecdf1-mns2016"; f]) w /\
    (tol <= 1 -> Rabs (w - p) <= tol + 1 / 100000) /\ (tol <= 5 / 1000000 -> Rabs (w - p) <= tol + 5 / 10000000) in
  (file_holds (N := Xnum frexp) contents (map Fin v) [] ->
   exists p, is_prob (List.length v) (noncrossing_b v) p /\ ((56 * (N * N) + 57 * N) * eps + nu < p ->
    near p ((56 * (N * N) + 410 * N) * eps + bpow radix2 (-52) + nu))) /\
  (file_holds (N := Xnum frexp) contents [] (map Fin v) ->
   exists p, is_prob (List.length v) (noncrossing_B v) p /\ ((56 * (N * N) + 57 * N) * eps + 2 * nu < p ->
    near p ((56 * (N * N) + 410 * N) * eps + bpow radix2 (-52) + 2 * nu))).
Proof. exact fast_shows_mns. Qed.
Print Assumptions C85_ecdf1_mns2016.

(** The file "0.1, 0.3" / "0.8, 1": within 6e-7. *)
Example C85_case : forall flush : bool, exists p w, is_noncrossing_probability text_b text_B p /\
  prints (cli_main (fast_text_env (simd_compiler flush) show_f64 true) text_fs ["crossprob"; "ecdf2-mn2017"; "two.txt"]) w /\ Rabs (w - p) <= 6 / 10000000.
Proof. exact shows_case. Qed.
