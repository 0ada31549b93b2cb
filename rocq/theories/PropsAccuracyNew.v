(** * PropsAccuracyNew: properties C57-C59, the rounding error of ecdf1_new_B and ecdf1_new_b in
    IEEE-754 binary64, and how far a change of the boundaries can move a result.

    [libm_accurate L eps] (AccPmf.v) is what is assumed of the C library and [fft_accurate E e]
    (AccFft.v) what is assumed of FFTW; [is_prob], [noncrossing_b], [noncrossing_B] and [distance]
    (the sum of |u_i - v_i|) are in Spec.v. *)
From Coquelicot Require Import Coquelicot.
From Flocq Require Import Core.Core IEEE754.BinarySingleNaN.
From Coq Require Import ZArith Reals List String.
From Verif Require Import Base Num XReal Ecdf2 Ecdf1New Ecdf1Mns XCommon XFft Binary64 Spec Cases Binary64Facts Binary64Cases B64Round AccPmf AccFft AccCases AccNewFinal ExactClose.
Import List. Import ListNotations.
Local Open Scope R_scope.

(** ** C57 *)
Theorem C57_ecdf1_new_B_accurate : forall (L : libm) (E : env (Bnum L)) (eps epsf : R) (B : list f64),
  libm_accurate L eps -> bpow radix2 (-53) <= eps -> fft_accurate E epsf -> bpow radix2 (-53) <= epsf ->
  accepted64 B -> (1 <= List.length B)%nat -> (asserts E = true -> (2 <= List.length B)%nat) ->
  65536 * (INR (List.length B) * INR (List.length B) * sqrt (INR (List.length B))) * eps <= 1 ->
  16384 * (INR (List.length B) * INR (List.length B) * sqrt (INR (List.length B))) * epsf <= 1 ->
  exists p r, is_prob (List.length B) (noncrossing_B (map B2R B)) p /\ @ecdf1_new_B (Bnum L) E B = Ok r /\
    is_finite (r : f64) = true /\
    Rabs (B2R (r : f64) - p) <= 60000 * (INR (List.length B) * INR (List.length B) * eps)
                               + 9000 * (INR (List.length B) * INR (List.length B) * epsf).
Proof. exact new_B_accurate. Qed.
Print Assumptions C57_ecdf1_new_B_accurate.

(** Fewer than 127 points: nothing needs to be assumed of FFTW. *)
Theorem C57_below_127_points : forall (L : libm) (E : env (Bnum L)) (eps : R) (B : list f64),
  libm_accurate L eps -> bpow radix2 (-53) <= eps ->
  accepted64 B -> (1 <= List.length B < 127)%nat -> (asserts E = true -> (2 <= List.length B)%nat) ->
  65536 * (INR (List.length B) * INR (List.length B) * sqrt (INR (List.length B))) * eps <= 1 ->
  exists p r, is_prob (List.length B) (noncrossing_B (map B2R B)) p /\ @ecdf1_new_B (Bnum L) E B = Ok r /\
    is_finite (r : f64) = true /\
    Rabs (B2R (r : f64) - p) <= 60000 * (INR (List.length B) * INR (List.length B) * eps).
Proof. exact new_B_accurate_short. Qed.
Print Assumptions C57_below_127_points.

Theorem C57_up_to_1000_points : forall (L : libm) (E : env (Bnum L)) (B : list f64),
  libm_accurate L (bpow radix2 (-52)) -> fft_accurate E (bpow radix2 (-47)) ->
  accepted64 B -> (1 <= List.length B <= 1000)%nat -> (asserts E = true -> (2 <= List.length B)%nat) ->
  exists p r, is_prob (List.length B) (noncrossing_B (map B2R B)) p /\ @ecdf1_new_B (Bnum L) E B = Ok r /\
    is_finite (r : f64) = true /\ Rabs (B2R (r : f64) - p) <= 1 / 10000.
Proof. exact new_B_accurate_1000. Qed.
Print Assumptions C57_up_to_1000_points.

(** Correctly rounded transforms and library functions, and 200 points whose smallest is to be at most 0.1. *)
Example C57_case : libm_accurate cr_libm u64 /\ fft_accurate (cr_env true) u64 /\ u64 = bpow radix2 (-53) /\
  accepted64 case200_up /\ List.length case200_up = 200%nat.
Proof. exact (conj cr_accurate (conj (cr_fft_accurate true) (conj eq_refl case200_up_ok))). Qed.

(** ** C58 *)
Theorem C58_ecdf1_new_b_accurate : forall (L : libm) (E : env (Bnum L)) (eps epsf : R) (b : list f64),
  libm_accurate L eps -> bpow radix2 (-53) <= eps -> fft_accurate E epsf -> bpow radix2 (-53) <= epsf ->
  accepted64 b -> (1 <= List.length b)%nat -> (asserts E = true -> (2 <= List.length b)%nat) ->
  65536 * (INR (List.length b) * INR (List.length b) * sqrt (INR (List.length b))) * eps <= 1 ->
  16384 * (INR (List.length b) * INR (List.length b) * sqrt (INR (List.length b))) * epsf <= 1 ->
  exists p r, is_prob (List.length b) (noncrossing_b (map B2R b)) p /\ @ecdf1_new_b (Bnum L) E b = Ok r /\
    is_finite (r : f64) = true /\
    Rabs (B2R (r : f64) - p) <= 60001 * (INR (List.length b) * INR (List.length b) * eps)
                               + 9000 * (INR (List.length b) * INR (List.length b) * epsf).
Proof. exact new_b_accurate. Qed.
Print Assumptions C58_ecdf1_new_b_accurate.

Theorem C58_below_127_points : forall (L : libm) (E : env (Bnum L)) (eps : R) (b : list f64),
  libm_accurate L eps -> bpow radix2 (-53) <= eps ->
  accepted64 b -> (1 <= List.length b < 127)%nat -> (asserts E = true -> (2 <= List.length b)%nat) ->
  65536 * (INR (List.length b) * INR (List.length b) * sqrt (INR (List.length b))) * eps <= 1 ->
  exists p r, is_prob (List.length b) (noncrossing_b (map B2R b)) p /\ @ecdf1_new_b (Bnum L) E b = Ok r /\
    is_finite (r : f64) = true /\
    Rabs (B2R (r : f64) - p) <= 60001 * (INR (List.length b) * INR (List.length b) * eps).
Proof. exact new_b_accurate_short. Qed.
Print Assumptions C58_below_127_points.

Theorem C58_up_to_1000_points : forall (L : libm) (E : env (Bnum L)) (b : list f64),
  libm_accurate L (bpow radix2 (-52)) -> fft_accurate E (bpow radix2 (-47)) ->
  accepted64 b -> (1 <= List.length b <= 1000)%nat -> (asserts E = true -> (2 <= List.length b)%nat) ->
  exists p r, is_prob (List.length b) (noncrossing_b (map B2R b)) p /\ @ecdf1_new_b (Bnum L) E b = Ok r /\
    is_finite (r : f64) = true /\ Rabs (B2R (r : f64) - p) <= 1 / 10000.
Proof. exact new_b_accurate_1000. Qed.
Print Assumptions C58_up_to_1000_points.

(** b = (-0.0, 0.1, 0.5). *)
Example C58_case : libm_accurate cr_libm u64 /\ u64 = bpow radix2 (-53) /\ accepted64 case64_b /\ List.length case64_b = 3%nat.
Proof. exact (conj cr_accurate (conj eq_refl (conj (proj1 case64_accepted) eq_refl))). Qed.

(** ** C59 *)
Theorem C59_ecdf2_stable : forall (frexp frexp' : xr -> Z) (E : env (Xnum frexp)) (E' : env (Xnum frexp'))
  (b B b' B' : list R) (use_fft use_fft' : bool) (p p' : R),
  valid_boundary b -> valid_boundary B -> List.length b = List.length B ->
  valid_boundary b' -> valid_boundary B' -> List.length b' = List.length b -> List.length B' = List.length B ->
  sort_ok E -> (use_fft = true -> fft_ok E) ->
  sort_ok E' -> (use_fft' = true -> fft_ok E') ->
  ecdf2 E (map Fin b) (map Fin B) use_fft = Ok (Fin p) ->
  ecdf2 E' (map Fin b') (map Fin B') use_fft' = Ok (Fin p') ->
  Rabs (p - p') <= INR (List.length b) * (distance b b' + distance B B').
Proof. exact @ecdf2_close. Qed.
Print Assumptions C59_ecdf2_stable.

Theorem C59_one_sided_stable : forall (frexp frexp' : xr -> Z) (E : env (Xnum frexp)) (E' : env (Xnum frexp')) (v v' : list R),
  valid_boundary v -> valid_boundary v' -> List.length v' = List.length v -> fft_ok E -> fft_ok E' -> long_double_ok E -> long_double_ok E' ->
  (2 <= List.length v)%nat -> (Z.of_nat (List.length v) <= INT_MAX)%Z ->
  (exists p p', ecdf1_new_B E (map Fin v) = Ok (Fin p) /\ ecdf1_mns2016_B E (map Fin v) = Ok (Fin p) /\
     ecdf1_new_B E' (map Fin v') = Ok (Fin p') /\ ecdf1_mns2016_B E' (map Fin v') = Ok (Fin p') /\
     Rabs (p - p') <= INR (List.length v) * distance v v') /\
  (exists p p', ecdf1_new_b E (map Fin v) = Ok (Fin p) /\ ecdf1_mns2016_b E (map Fin v) = Ok (Fin p) /\
     ecdf1_new_b E' (map Fin v') = Ok (Fin p') /\ ecdf1_mns2016_b E' (map Fin v') = Ok (Fin p') /\
     Rabs (p - p') <= INR (List.length v) * distance v v').
Proof. exact @one_sided_close. Qed.
Print Assumptions C59_one_sided_stable.

(** Results 3/4 and 0 for boundaries at distance 1: the bound is 2. *)
Example C59_case : ecdf2 (some_env true) (map Fin case_b) (map Fin ones2) false = Ok (Fin (3/4)) /\
  ecdf2 (some_env false) (map Fin case_b) (map Fin touch_B) true = Ok (Fin 0) /\
  distance case_b case_b + distance ones2 touch_B = 1.
Proof. exact (conj (case_ecdf2 true false) (conj (case_touch false true) case_close)). Qed.
