(** * PropsAccuracy: properties C49 and C50, the rounding error of ecdf2 in IEEE-754 binary64.

    [libm_accurate L eps] (AccPmf.v) is what is assumed of the C library: log and lgamma have
    relative error at most eps, exp too up to an underflow of the smallest subnormal.
    [fft_accurate E e] (AccFft.v) is what is assumed of FFTW: every output is finite and within
    e times the sum of the magnitudes of the input of the exact transform, up to an underflow.
    [is_noncrossing_probability b B p] (Spec.v): p is the probability, by integration over
    the unit cube, that n uniform points have order statistics between b and B. *)
From Coquelicot Require Import Coquelicot.
From Flocq Require Import Core.Core IEEE754.BinarySingleNaN.
From Coq Require Import ZArith Reals List String.
From Verif Require Import Base Num Ecdf2 Binary64 Spec XEcdf2Main Binary64Facts Binary64Cases B64Round AccPmf AccFft AccMain AccCases.
Import List. Import ListNotations.
Local Open Scope R_scope.

(** ** C49 *)
Theorem C49_ecdf2_accurate : forall (L : libm) (eps : R) (E : env (Bnum L)) (b B : list f64),
  libm_accurate L eps -> bpow radix2 (-53) <= eps ->
  accepted64 b -> accepted64 B -> List.length b = List.length B -> sort_ok E ->
  65536 * (INR (List.length b) * INR (List.length b)) * eps <= 1 ->
  (asserts E = true -> forall i, (S i < List.length b)%nat -> nth i (map B2R b) 0 <= nth (S i) (map B2R B) 0) ->
  exists p r, is_noncrossing_probability (map B2R b) (map B2R B) p /\ @ecdf2 (Bnum L) E b B false = Ok r /\
    is_finite (r : f64) = true /\
    Rabs (B2R (r : f64) - p) <= 40000 * (INR (List.length b) * INR (List.length b) * eps) * p + bpow radix2 (-1000).
Proof. exact ecdf2_accurate. Qed.
Print Assumptions C49_ecdf2_accurate.

Theorem C49_up_to_1000_points : forall (L : libm) (E : env (Bnum L)) (b B : list f64),
  libm_accurate L (bpow radix2 (-52)) ->
  accepted64 b -> accepted64 B -> List.length b = List.length B -> (List.length b <= 1000)%nat -> sort_ok E ->
  (asserts E = true -> forall i, (S i < List.length b)%nat -> nth i (map B2R b) 0 <= nth (S i) (map B2R B) 0) ->
  exists p r, is_noncrossing_probability (map B2R b) (map B2R B) p /\ @ecdf2 (Bnum L) E b B false = Ok r /\
    is_finite (r : f64) = true /\ Rabs (B2R (r : f64) - p) <= p / 100000 + bpow radix2 (-1000).
Proof. exact ecdf2_accurate_1000. Qed.
Print Assumptions C49_up_to_1000_points.

(** A correctly rounded library, and b = (-0.0, 0.1, 0.5), B = (0.1, 0.5, 1.0). *)
Example C49_case :
  libm_accurate cr_libm u64 /\ u64 = bpow radix2 (-53) /\ accepted64 case64_b /\ accepted64 case64_B /\
  sort_ok (env64 cr_libm true) /\ ~ bad_pair (map B2R case64_b) (map B2R case64_B).
Proof.
  exact (conj cr_accurate (conj eq_refl (conj (proj1 case64_accepted) (conj (proj2 case64_accepted)
    (conj (env64_sort cr_libm true) case64_good))))).
Qed.

(** ** C50 *)
Theorem C50_ecdf2_fft_accurate : forall (L : libm) (eps epsf : R) (E : env (Bnum L)) (b B : list f64),
  libm_accurate L eps -> bpow radix2 (-53) <= eps -> fft_accurate E epsf -> bpow radix2 (-53) <= epsf ->
  accepted64 b -> accepted64 B -> List.length b = List.length B -> sort_ok E ->
  65536 * (INR (List.length b) * INR (List.length b)) * eps <= 1 ->
  16384 * (INR (List.length b) * INR (List.length b)) * epsf <= 1 ->
  (asserts E = true -> forall i, (S i < List.length b)%nat -> nth i (map B2R b) 0 <= nth (S i) (map B2R B) 0) ->
  exists p r, is_noncrossing_probability (map B2R b) (map B2R B) p /\ @ecdf2 (Bnum L) E b B true = Ok r /\
    is_finite (r : f64) = true /\
    Rabs (B2R (r : f64) - p) <= 40000 * (INR (List.length b) * INR (List.length b) * eps) * p
                               + 10000 * (INR (List.length b) * INR (List.length b) * epsf).
Proof. exact ecdf2_fft_accurate. Qed.
Print Assumptions C50_ecdf2_fft_accurate.

Theorem C50_up_to_1000_points : forall (L : libm) (E : env (Bnum L)) (b B : list f64),
  libm_accurate L (bpow radix2 (-52)) -> fft_accurate E (bpow radix2 (-47)) ->
  accepted64 b -> accepted64 B -> List.length b = List.length B -> (List.length b <= 1000)%nat -> sort_ok E ->
  (asserts E = true -> forall i, (S i < List.length b)%nat -> nth i (map B2R b) 0 <= nth (S i) (map B2R B) 0) ->
  exists p r, is_noncrossing_probability (map B2R b) (map B2R B) p /\ @ecdf2 (Bnum L) E b B true = Ok r /\
    is_finite (r : f64) = true /\ Rabs (B2R (r : f64) - p) <= 1 / 10000.
Proof. exact ecdf2_fft_accurate_1000. Qed.
Print Assumptions C50_up_to_1000_points.

(** Correctly rounded transforms and library functions, and 200 points to stay between the constants
    0.1 and 1.0 (with 200 points the convolutions are long enough to use FFTs). *)
Example C50_case :
  libm_accurate cr_libm u64 /\ fft_accurate (cr_env true) u64 /\ u64 = bpow radix2 (-53) /\ sort_ok (cr_env true) /\
  accepted64 case200_b /\ accepted64 case200_B /\ List.length case200_b = 200%nat /\ List.length case200_B = 200%nat /\
  forall i, (S i < List.length case200_b)%nat -> nth i (map B2R case200_b) 0 <= nth (S i) (map B2R case200_B) 0.
Proof. exact (conj cr_accurate (conj (cr_fft_accurate true) (conj eq_refl (conj (cr_sort true) case200_ok)))). Qed.
