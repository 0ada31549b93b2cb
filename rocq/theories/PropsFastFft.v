(** * PropsFastFft: property C75, ecdf2 with FFT convolutions as compiled with -ffast-math.

    See PropsFast.v for the model of the compiler.  [fast_fft_accurate C L E e]: the transforms of the environment E (FFTW)
    have absolute errors of at most e times the sum of the absolute values of their inputs, see FastFft.v. *)
From Coquelicot Require Import Coquelicot.
From Flocq Require Import Core.Core IEEE754.BinarySingleNaN.
From Coq Require Import ZArith Reals List.
From Verif Require Import Base Num Ecdf2 Binary64 Spec XEcdf2Main Binary64Facts Binary64Cases B64Round AccPmf AccCases FastMath FastMain FastFftMain.
Import List. Import ListNotations.
Local Open Scope R_scope.

(** ** C75 *)
Theorem C75_accuracy : forall (C : compiler) (L : libm) (eps epsf : R) (E : env (Fnum C L)) (b B : list f64) (use_fft : bool),
  fast_libm_accurate (cp_flush C) L eps -> bpow radix2 (-51) <= eps ->
  fast_fft_accurate C L E epsf -> bpow radix2 (-50) <= epsf ->
  accepted64 b -> accepted64 B ->
  Forall (fun x : f64 => B2R x = 0 \/ bpow radix2 (-900) <= B2R x) b ->
  Forall (fun x : f64 => B2R x = 0 \/ bpow radix2 (-900) <= B2R x) B ->
  List.length b = List.length B -> (1 <= List.length b)%nat -> sort_ok E ->
  65536 * (INR (List.length b) * INR (List.length b)) * eps <= 1 ->
  16384 * (INR (List.length b) * INR (List.length b)) * epsf <= 1 ->
  (asserts E = true -> forall i, (S i < List.length b)%nat -> nth i (map B2R b) 0 <= nth (S i) (map B2R B) 0) ->
  exists p r, is_noncrossing_probability (map B2R b) (map B2R B) p /\
    @ecdf2 (Fnum C L) E (map lit b) (map lit B) use_fft = Ok r /\ is_finite (cp_sum C r) = true /\
    Rabs (B2R (cp_sum C r) - p) <= 40000 * (INR (List.length b) * INR (List.length b) * eps) * p
      + 8400 * (INR (List.length b) * INR (List.length b) * epsf) + bpow radix2 (-900).
Proof. exact ecdf2_fast_fft. Qed.
Print Assumptions C75_accuracy.
(** Up to 1000 points: four correct decimals. *)
Theorem C75_accuracy_1000 : forall (C : compiler) (L : libm) (E : env (Fnum C L)) (b B : list f64) (use_fft : bool),
  fast_libm_accurate (cp_flush C) L (bpow radix2 (-50)) -> fast_fft_accurate C L E (bpow radix2 (-47)) ->
  accepted64 b -> accepted64 B ->
  Forall (fun x : f64 => B2R x = 0 \/ bpow radix2 (-900) <= B2R x) b ->
  Forall (fun x : f64 => B2R x = 0 \/ bpow radix2 (-900) <= B2R x) B ->
  List.length b = List.length B -> (1 <= List.length b <= 1000)%nat -> sort_ok E ->
  (asserts E = true -> forall i, (S i < List.length b)%nat -> nth i (map B2R b) 0 <= nth (S i) (map B2R B) 0) ->
  exists p r, is_noncrossing_probability (map B2R b) (map B2R B) p /\
    @ecdf2 (Fnum C L) E (map lit b) (map lit B) use_fft = Ok r /\ is_finite (cp_sum C r) = true /\
    Rabs (B2R (cp_sum C r) - p) <= / 10000.
Proof. exact ecdf2_fast_fft_1000. Qed.
Print Assumptions C75_accuracy_1000.
(** With and without FFTs, and in two builds. *)
Theorem C75_agree : forall (C C' : compiler) (L L' : libm) (E : env (Fnum C L)) (E' : env (Fnum C' L')) (b B : list f64) (use_fft use_fft' : bool) r r',
  fast_libm_accurate (cp_flush C) L (bpow radix2 (-50)) -> fast_fft_accurate C L E (bpow radix2 (-47)) ->
  fast_libm_accurate (cp_flush C') L' (bpow radix2 (-50)) -> fast_fft_accurate C' L' E' (bpow radix2 (-47)) ->
  accepted64 b -> accepted64 B ->
  Forall (fun x : f64 => B2R x = 0 \/ bpow radix2 (-900) <= B2R x) b ->
  Forall (fun x : f64 => B2R x = 0 \/ bpow radix2 (-900) <= B2R x) B ->
  List.length b = List.length B -> (1 <= List.length b <= 1000)%nat -> sort_ok E -> sort_ok E' ->
  (forall i, (S i < List.length b)%nat -> nth i (map B2R b) 0 <= nth (S i) (map B2R B) 0) ->
  @ecdf2 (Fnum C L) E (map lit b) (map lit B) use_fft = Ok r ->
  @ecdf2 (Fnum C' L') E' (map lit b) (map lit B) use_fft' = Ok r' ->
  Rabs (B2R (cp_sum C r) - B2R (cp_sum C' r')) <= / 5000.
Proof. exact ecdf2_fast_fft_agree. Qed.
Print Assumptions C75_agree.

(** The compiler of C74_case, transforms that round the exact result, 200 points (the FFT is used from 128 on). *)
Example C75_case : forall flush : bool,
  let C := simd_compiler flush in let E := fast_fft_env C cr_libm true in
  fast_libm_accurate (cp_flush C) cr_libm (bpow radix2 (-50)) /\ fast_fft_accurate C cr_libm E (bpow radix2 (-47)) /\ sort_ok E /\
  exists p r, is_noncrossing_probability (map B2R case200_b) (map B2R case200_B) p /\
    @ecdf2 (Fnum C cr_libm) E (map lit case200_b) (map lit case200_B) true = Ok r /\ is_finite (cp_sum C r) = true /\
    Rabs (B2R (cp_sum C r) - p) <= / 10000.
Proof.
  exact (fun flush => conj (cr_fast flush) (conj (fast_fft_ok (simd_compiler flush) cr_libm true)
    (conj (fast_fft_sort (simd_compiler flush) cr_libm true) (simd_fft_case flush)))).
Qed.
