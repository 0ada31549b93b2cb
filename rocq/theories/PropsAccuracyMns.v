(** * PropsAccuracyMns: properties C60 and C61, ecdf1_mns2016_b and ecdf1_mns2016_B with FLOAT the
    80-bit long double of x86 and double IEEE-754 binary64.

    [libml_accurate M eps] (AccMnsEval.v) is the relative accuracy assumed of expl, logl, lgammal and powl,
    [libml_special M] (AccMns.v) what the C standard says of logl and expl at negative numbers, zero, NaN
    and minus infinity, [powl_correct M] (MnsNan.v) that powl is correctly rounded on [0,1]; [x87 L M]
    (LongDouble.v) is the format and its conversions; [is_prob], [noncrossing_b] and [noncrossing_B] are
    in Spec.v. *)
From Coquelicot Require Import Coquelicot.
From Flocq Require Import Core.Core IEEE754.BinarySingleNaN.
From Coq Require Import ZArith Reals List String.
From Verif Require Import Base Num Binary64 Spec Binary64Facts Binary64Cases LongDouble Ecdf1Mns AccCases AccMnsEval AccMns AccMnsCase MnsNan AccMnsMain.
Import List. Import ListNotations.
Local Open Scope R_scope.

(** ** C60 *)
Theorem C60_ecdf1_mns2016_b_number_refuted : exists (L : libm) (M : libml) (E : env (Bnum L)) (b : list f64) (p : R),
  libml_accurate M (bpow radix2 (-64)) /\ libml_special M /\ powl_correct M /\ long_dbl E = x87 L M /\ accepted64 b /\
  is_prob (List.length b) (noncrossing_b (map B2R b)) p /\ 0 < p /\
  @ecdf1_mns2016_b (Bnum L) E b = Ok (B754_nan : f64).
Proof. exact mns_number_refuted. Qed.
Print Assumptions C60_ecdf1_mns2016_b_number_refuted.

(** The same boundary, (0, 1/8, 1/8, 1 - 2^-53, 1 - 2^-53), for every library of that kind. *)
Theorem C60_ecdf1_mns2016_b_returns_nan : forall (L : libm) (E : env (Bnum L)) (M : libml),
  powl_correct M -> libml_special M -> long_dbl E = x87 L M ->
  @ecdf1_mns2016_b (Bnum L) E nan_b = Ok (B754_nan : f64).
Proof. exact mns_nan. Qed.
Print Assumptions C60_ecdf1_mns2016_b_returns_nan.

Example C60_case : map B2R nan_b = [0; 1/8; 1/8; 9007199254740991 / 9007199254740992; 9007199254740991 / 9007199254740992] /\
  powl_correct cr_libml /\ libml_special cr_libml /\ long_dbl (cr80_env true) = x87 cr_libm cr_libml.
Proof. exact (conj nan_b_values (conj cr80_pow (conj cr80_special eq_refl))). Qed.

(** ** C61 *)
Theorem C61_ecdf1_mns2016_b_accurate : forall (L : libm) (M : libml) (eps : R) (E : env (Bnum L)),
  libml_accurate M eps -> bpow radix2 (-64) <= eps -> eps <= bpow radix2 (-40) -> long_dbl E = x87 L M ->
  forall b : list f64, accepted64 b -> (List.length b <= 4096)%nat ->
  exists p r, is_prob (List.length b) (noncrossing_b (map B2R b)) p /\ @ecdf1_mns2016_b (Bnum L) E b = Ok r /\
  ((56 * (INR (S (List.length b)) * INR (S (List.length b))) + 57 * INR (S (List.length b))) * eps < p ->
   is_finite (r : f64) = true /\
   Rabs (B2R (r : f64) - p) <=
     (56 * (INR (S (List.length b)) * INR (S (List.length b))) + 410 * INR (S (List.length b))) * eps + bpow radix2 (-52)).
Proof. exact mns_b_accurate. Qed.
Print Assumptions C61_ecdf1_mns2016_b_accurate.

Theorem C61_ecdf1_mns2016_b_nan_or_accurate : forall (L : libm) (M : libml) (eps : R) (E : env (Bnum L)),
  libml_accurate M eps -> bpow radix2 (-64) <= eps -> eps <= bpow radix2 (-40) -> long_dbl E = x87 L M ->
  forall b : list f64, accepted64 b -> (List.length b <= 4096)%nat -> libml_special M ->
  exists p r, is_prob (List.length b) (noncrossing_b (map B2R b)) p /\ @ecdf1_mns2016_b (Bnum L) E b = Ok r /\
  ((r : f64) = B754_nan /\
   p <= (56 * (INR (S (List.length b)) * INR (S (List.length b))) + 57 * INR (S (List.length b))) * eps \/
   is_finite (r : f64) = true /\
   Rabs (B2R (r : f64) - p) <=
     (56 * (INR (S (List.length b)) * INR (S (List.length b))) + 410 * INR (S (List.length b))) * eps + bpow radix2 (-52)).
Proof. exact mns_b_nan_or_accurate. Qed.
Print Assumptions C61_ecdf1_mns2016_b_nan_or_accurate.

Theorem C61_ecdf1_mns2016_B_nan_or_accurate : forall (L : libm) (M : libml) (eps : R) (E : env (Bnum L)),
  libml_accurate M eps -> bpow radix2 (-64) <= eps -> eps <= bpow radix2 (-40) -> long_dbl E = x87 L M ->
  forall B : list f64, libml_special M -> accepted64 B -> (List.length B <= 4096)%nat ->
  exists p r, is_prob (List.length B) (noncrossing_B (map B2R B)) p /\ @ecdf1_mns2016_B (Bnum L) E B = Ok r /\
  ((r : f64) = B754_nan /\
   p <= (56 * (INR (S (List.length B)) * INR (S (List.length B))) + 57 * INR (S (List.length B))) * eps
        + INR (List.length B) * INR (List.length B) * bpow radix2 (-53) \/
   is_finite (r : f64) = true /\
   Rabs (B2R (r : f64) - p) <=
     (56 * (INR (S (List.length B)) * INR (S (List.length B))) + 410 * INR (S (List.length B))) * eps + bpow radix2 (-52)
     + INR (List.length B) * INR (List.length B) * bpow radix2 (-53)).
Proof. exact mns_B_nan_or_accurate. Qed.
Print Assumptions C61_ecdf1_mns2016_B_nan_or_accurate.

Theorem C61_up_to_1000_points : forall (L : libm) (M : libml) (E : env (Bnum L)),
  libml_accurate M (bpow radix2 (-63)) -> libml_special M -> long_dbl E = x87 L M ->
  forall b : list f64, accepted64 b -> (List.length b <= 1000)%nat ->
  exists p r, is_prob (List.length b) (noncrossing_b (map B2R b)) p /\ @ecdf1_mns2016_b (Bnum L) E b = Ok r /\
  ((r : f64) = B754_nan /\ p <= 1 / 100000000000 \/
   is_finite (r : f64) = true /\ Rabs (B2R (r : f64) - p) <= 1 / 100000000000).
Proof. exact mns_b_1000. Qed.
Print Assumptions C61_up_to_1000_points.

Theorem C61_upper_up_to_1000_points : forall (L : libm) (M : libml) (E : env (Bnum L)),
  libml_accurate M (bpow radix2 (-63)) -> libml_special M -> long_dbl E = x87 L M ->
  forall B : list f64, accepted64 B -> (List.length B <= 1000)%nat ->
  exists p r, is_prob (List.length B) (noncrossing_B (map B2R B)) p /\ @ecdf1_mns2016_B (Bnum L) E B = Ok r /\
  ((r : f64) = B754_nan /\ p <= 1 / 1000000000 \/
   is_finite (r : f64) = true /\ Rabs (B2R (r : f64) - p) <= 1 / 1000000000).
Proof. exact mns_B_1000. Qed.
Print Assumptions C61_upper_up_to_1000_points.

(** b = (-0.0, 0.1, 0.5) and correctly rounded library functions. *)
Example C61_case : libml_accurate cr_libml (bpow radix2 (-64)) /\ libml_special cr_libml /\
  long_dbl (cr80_env true) = x87 cr_libm cr_libml /\ accepted64 case64_b /\ List.length case64_b = 3%nat.
Proof. exact (conj cr80_accurate (conj cr80_special (conj eq_refl (conj (proj1 case64_accepted) eq_refl)))). Qed.
