(** * PropsFast: property C74, ecdf2 as compiled with -ffast-math.

    [compiler], [Fnum] and [fast_libm_accurate] are defined in FastMath.v: a compiler may evaluate sums in any order,
    contract multiplications and additions, divide by reciprocals and let subnormal numbers count as zero.
    [lit x]: the number x; [cp_sum C r]: the number that the compiled code returns for the expression r. *)
From Coquelicot Require Import Coquelicot.
From Flocq Require Import Core.Core IEEE754.BinarySingleNaN.
From Coq Require Import ZArith Reals List.
From Verif Require Import Base Num Ecdf2 Binary64 Spec XEcdf2Main Binary64Facts Binary64Cases B64Round AccPmf AccCases FastMath FastMain.
Import List. Import ListNotations.
Local Open Scope R_scope.

(** ** C74 *)
Theorem C74_accuracy : forall (C : compiler) (L : libm) (eps : R) (E : env (Fnum C L)) (b B : list f64) (use_fft : bool),
  fast_libm_accurate (cp_flush C) L eps -> bpow radix2 (-51) <= eps ->
  accepted64 b -> accepted64 B ->
  Forall (fun x : f64 => B2R x = 0 \/ bpow radix2 (-900) <= B2R x) b ->
  Forall (fun x : f64 => B2R x = 0 \/ bpow radix2 (-900) <= B2R x) B ->
  List.length b = List.length B -> (1 <= List.length b)%nat -> sort_ok E ->
  65536 * (INR (List.length b) * INR (List.length b)) * eps <= 1 ->
  (use_fft = true -> (List.length b <= 126)%nat) ->
  (asserts E = true -> forall i, (S i < List.length b)%nat -> nth i (map B2R b) 0 <= nth (S i) (map B2R B) 0) ->
  exists p r, is_noncrossing_probability (map B2R b) (map B2R B) p /\
    @ecdf2 (Fnum C L) E (map lit b) (map lit B) use_fft = Ok r /\ is_finite (cp_sum C r) = true /\
    Rabs (B2R (cp_sum C r) - p) <= 40000 * (INR (List.length b) * INR (List.length b) * eps) * p + bpow radix2 (-900).
Proof. exact ecdf2_fast. Qed.
Print Assumptions C74_accuracy.
(** Up to 1000 points, with a library whose errors are at most 4 units in the last place. *)
Theorem C74_accuracy_1000 : forall (C : compiler) (L : libm) (E : env (Fnum C L)) (b B : list f64),
  fast_libm_accurate (cp_flush C) L (bpow radix2 (-50)) ->
  accepted64 b -> accepted64 B ->
  Forall (fun x : f64 => B2R x = 0 \/ bpow radix2 (-900) <= B2R x) b ->
  Forall (fun x : f64 => B2R x = 0 \/ bpow radix2 (-900) <= B2R x) B ->
  List.length b = List.length B -> (1 <= List.length b <= 1000)%nat -> sort_ok E ->
  (asserts E = true -> forall i, (S i < List.length b)%nat -> nth i (map B2R b) 0 <= nth (S i) (map B2R B) 0) ->
  exists p r, is_noncrossing_probability (map B2R b) (map B2R B) p /\
    @ecdf2 (Fnum C L) E (map lit b) (map lit B) false = Ok r /\ is_finite (cp_sum C r) = true /\
    Rabs (B2R (cp_sum C r) - p) <= 4 * p / 100000 + bpow radix2 (-900).
Proof. exact ecdf2_fast_1000. Qed.
Print Assumptions C74_accuracy_1000.
(** Two builds, with different compilers and libraries, give nearly the same results. *)
Theorem C74_builds_agree : forall (C C' : compiler) (L L' : libm) (E : env (Fnum C L)) (E' : env (Fnum C' L')) (b B : list f64) r r',
  fast_libm_accurate (cp_flush C) L (bpow radix2 (-50)) -> fast_libm_accurate (cp_flush C') L' (bpow radix2 (-50)) ->
  accepted64 b -> accepted64 B ->
  Forall (fun x : f64 => B2R x = 0 \/ bpow radix2 (-900) <= B2R x) b ->
  Forall (fun x : f64 => B2R x = 0 \/ bpow radix2 (-900) <= B2R x) B ->
  List.length b = List.length B -> (1 <= List.length b <= 1000)%nat -> sort_ok E -> sort_ok E' ->
  (forall i, (S i < List.length b)%nat -> nth i (map B2R b) 0 <= nth (S i) (map B2R B) 0) ->
  @ecdf2 (Fnum C L) E (map lit b) (map lit B) false = Ok r ->
  @ecdf2 (Fnum C' L') E' (map lit b) (map lit B) false = Ok r' ->
  Rabs (B2R (cp_sum C r) - B2R (cp_sum C' r')) <= / 10000.
Proof. exact ecdf2_fast_agree. Qed.
Print Assumptions C74_builds_agree.
(** The hypothesis on the library follows from the one used for strict binary64 (C50). *)
Theorem C74_library : forall (flush : bool) (L : libm) (eps : R),
  libm_accurate L eps -> 0 <= eps <= / 2 -> fast_libm_accurate flush L eps.
Proof. exact libm_fast. Qed.
Print Assumptions C74_library.

(** Two vector lanes with contracted products, division by reciprocals, with and without flushing; 200 points. *)
Example C74_case : forall flush : bool,
  let C := simd_compiler flush in let E := fast_env C cr_libm true in
  fast_libm_accurate (cp_flush C) cr_libm (bpow radix2 (-50)) /\ sort_ok E /\
  exists p r, is_noncrossing_probability (map B2R case200_b) (map B2R case200_B) p /\
    @ecdf2 (Fnum C cr_libm) E (map lit case200_b) (map lit case200_B) false = Ok r /\ is_finite (cp_sum C r) = true /\
    Rabs (B2R (cp_sum C r) - p) <= 4 * p / 100000 + bpow radix2 (-900).
Proof. exact (fun flush => conj (cr_fast flush) (conj (fast_sort (simd_compiler flush) cr_libm true) (simd_case flush))). Qed.
