(** * PropsFastNew: property C76, ecdf1_new_B and ecdf1_new_b as compiled with -ffast-math.

    See PropsFast.v for the model of the compiler and PropsFastFft.v for [fast_fft_accurate].
    [fft_stores C L E] (FastNewFinal.v): the transforms write numbers to memory.
    [ecdf1_new_b_stored] (FastNewLower.v): ecdf1_new_b, which writes the vector 1 - b to memory before it calls ecdf1_new_B. *)
From Coquelicot Require Import Coquelicot.
From Flocq Require Import Core.Core IEEE754.BinarySingleNaN.
From Coq Require Import ZArith Reals List.
From Verif Require Import Base Num Ecdf2 Ecdf1New Binary64 Spec XEcdf2Main Binary64Facts Binary64Cases B64Round AccPmf AccCases ExactClose FastMath FastMain FastFftMain.
From Verif Require Import AgreeB64 FastNewFinal FastNewLower.
Import List. Import ListNotations.
Local Open Scope R_scope.

(** ** C76 *)
Theorem C76_upper : forall (C : compiler) (L : libm) (eps epsf : R) (E : env (Fnum C L)) (B : list f64),
  fast_libm_accurate (cp_flush C) L eps -> bpow radix2 (-51) <= eps ->
  fast_fft_accurate C L E epsf -> bpow radix2 (-50) <= epsf -> fft_stores C L E ->
  accepted64 B -> Forall (fun x : f64 => B2R x = 0 \/ bpow radix2 (-900) <= B2R x) B ->
  (1 <= List.length B)%nat -> (asserts E = true -> (2 <= List.length B)%nat) ->
  65536 * (INR (List.length B) * INR (List.length B) * sqrt (INR (List.length B))) * eps <= 1 ->
  16384 * (INR (List.length B) * INR (List.length B) * sqrt (INR (List.length B))) * epsf <= 1 ->
  exists p r, is_prob (List.length B) (noncrossing_B (map B2R B)) p /\
    @ecdf1_new_B (Fnum C L) E (map lit B) = Ok r /\ is_finite (cp_sum C r) = true /\
    Rabs (B2R (cp_sum C r) - p) <= 60000 * (INR (List.length B) * INR (List.length B) * eps)
      + 9000 * (INR (List.length B) * INR (List.length B) * epsf) + bpow radix2 (-1022).
Proof. exact new_B_fast. Qed.
Print Assumptions C76_upper.
(** Fewer than 127 points: no FFT is used. *)
Theorem C76_upper_below_127_points : forall (C : compiler) (L : libm) (eps : R) (E : env (Fnum C L)) (B : list f64),
  fast_libm_accurate (cp_flush C) L eps -> bpow radix2 (-51) <= eps ->
  accepted64 B -> Forall (fun x : f64 => B2R x = 0 \/ bpow radix2 (-900) <= B2R x) B ->
  (1 <= List.length B < 127)%nat -> (asserts E = true -> (2 <= List.length B)%nat) ->
  65536 * (INR (List.length B) * INR (List.length B) * sqrt (INR (List.length B))) * eps <= 1 ->
  exists p r, is_prob (List.length B) (noncrossing_B (map B2R B)) p /\
    @ecdf1_new_B (Fnum C L) E (map lit B) = Ok r /\ is_finite (cp_sum C r) = true /\
    Rabs (B2R (cp_sum C r) - p) <= 60000 * (INR (List.length B) * INR (List.length B) * eps) + bpow radix2 (-1022).
Proof. exact new_B_fast_short. Qed.
Print Assumptions C76_upper_below_127_points.
Theorem C76_upper_1000 : forall (C : compiler) (L : libm) (E : env (Fnum C L)) (B : list f64),
  fast_libm_accurate (cp_flush C) L (bpow radix2 (-50)) -> fast_fft_accurate C L E (bpow radix2 (-47)) -> fft_stores C L E ->
  accepted64 B -> Forall (fun x : f64 => B2R x = 0 \/ bpow radix2 (-900) <= B2R x) B ->
  (1 <= List.length B <= 1000)%nat -> (asserts E = true -> (2 <= List.length B)%nat) ->
  exists p r, is_prob (List.length B) (noncrossing_B (map B2R B)) p /\
    @ecdf1_new_B (Fnum C L) E (map lit B) = Ok r /\ is_finite (cp_sum C r) = true /\
    Rabs (B2R (cp_sum C r) - p) <= 12 / 100000.
Proof. exact new_B_fast_1000. Qed.
Print Assumptions C76_upper_1000.
(** ecdf2 with a lower boundary of zeros returns the same up to 2.2e-4, in the same build or in another one. *)
Theorem C76_agree : forall (C C' : compiler) (L L' : libm) (E : env (Fnum C L)) (E' : env (Fnum C' L')) (B : list f64) (use_fft : bool) r r',
  fast_libm_accurate (cp_flush C) L (bpow radix2 (-50)) -> fast_fft_accurate C L E (bpow radix2 (-47)) -> fft_stores C L E ->
  fast_libm_accurate (cp_flush C') L' (bpow radix2 (-50)) -> fast_fft_accurate C' L' E' (bpow radix2 (-47)) -> sort_ok E' ->
  accepted64 B -> Forall (fun x : f64 => B2R x = 0 \/ bpow radix2 (-900) <= B2R x) B ->
  (2 <= List.length B <= 1000)%nat ->
  @ecdf1_new_B (Fnum C L) E (map lit B) = Ok r ->
  @ecdf2 (Fnum C' L') E' (map lit (repeat zero64 (List.length B))) (map lit B) use_fft = Ok r' ->
  Rabs (B2R (cp_sum C r) - B2R (cp_sum C' r')) <= 22 / 100000.
Proof. exact new_B_fast_agree. Qed.
Print Assumptions C76_agree.
Theorem C76_lower : forall (C : compiler) (L : libm) (E : env (Fnum C L)) (eps epsf : R) (b : list f64),
  fast_libm_accurate (cp_flush C) L eps -> bpow radix2 (-51) <= eps ->
  fast_fft_accurate C L E epsf -> bpow radix2 (-50) <= epsf -> fft_stores C L E ->
  accepted64 b -> Forall (fun x : f64 => B2R x = 0 \/ bpow radix2 (-900) <= B2R x) b ->
  (1 <= List.length b)%nat -> (asserts E = true -> (2 <= List.length b)%nat) ->
  65536 * (INR (List.length b) * INR (List.length b) * sqrt (INR (List.length b))) * eps <= 1 ->
  16384 * (INR (List.length b) * INR (List.length b) * sqrt (INR (List.length b))) * epsf <= 1 ->
  exists p r, is_prob (List.length b) (noncrossing_b (map B2R b)) p /\
    ecdf1_new_b_stored C L E (map lit b) = Ok r /\ is_finite (cp_sum C r) = true /\
    Rabs (B2R (cp_sum C r) - p) <= 60001 * (INR (List.length b) * INR (List.length b) * eps)
      + 9000 * (INR (List.length b) * INR (List.length b) * epsf) + bpow radix2 (-1022).
Proof. exact new_b_fast. Qed.
Print Assumptions C76_lower.
Theorem C76_lower_1000 : forall (C : compiler) (L : libm) (E : env (Fnum C L)) (b : list f64),
  fast_libm_accurate (cp_flush C) L (bpow radix2 (-50)) -> fast_fft_accurate C L E (bpow radix2 (-47)) -> fft_stores C L E ->
  accepted64 b -> Forall (fun x : f64 => B2R x = 0 \/ bpow radix2 (-900) <= B2R x) b ->
  (1 <= List.length b <= 1000)%nat -> (asserts E = true -> (2 <= List.length b)%nat) ->
  exists p r, is_prob (List.length b) (noncrossing_b (map B2R b)) p /\
    ecdf1_new_b_stored C L E (map lit b) = Ok r /\ is_finite (cp_sum C r) = true /\
    Rabs (B2R (cp_sum C r) - p) <= 12 / 100000.
Proof. exact new_b_fast_1000. Qed.
Print Assumptions C76_lower_1000.

(** The compiler of C74_case, transforms that round the exact result, 200 points whose smallest is to be at most, or all of which at least, 0.1. *)
Example C76_case : forall flush : bool,
  let C := simd_compiler flush in let E := fast_fft_env C cr_libm true in
  fast_libm_accurate (cp_flush C) cr_libm (bpow radix2 (-50)) /\ fast_fft_accurate C cr_libm E (bpow radix2 (-47)) /\ fft_stores C cr_libm E /\
  (exists p r, is_prob 200 (noncrossing_B (map B2R case200_up)) p /\
    @ecdf1_new_B (Fnum C cr_libm) E (map lit case200_up) = Ok r /\ is_finite (cp_sum C r) = true /\
    Rabs (B2R (cp_sum C r) - p) <= 12 / 100000) /\
  exists p r, is_prob 200 (noncrossing_b (map B2R case200_b)) p /\
    ecdf1_new_b_stored C cr_libm E (map lit case200_b) = Ok r /\ is_finite (cp_sum C r) = true /\
    Rabs (B2R (cp_sum C r) - p) <= 12 / 100000.
Proof.
  exact (fun flush => conj (cr_fast flush) (conj (fast_fft_ok (simd_compiler flush) cr_libm true)
    (conj (fast_fft_stores (simd_compiler flush) cr_libm true) (conj (simd_new_case flush) (simd_lower_case flush))))).
Qed.
