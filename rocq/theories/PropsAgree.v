(** * PropsAgree: property C73, the algorithms in binary64 agree with each other and react to their input as they should.

    [accepted64 v]: finite, sorted and within [0,1].  [close_or_nan d r s] (AgreeB64.v): r is finite, and s is finite
    and within d of it, or s is NaN and r at most d.  [distance v w]: the sum of the |v_i - w_i|. *)
From Coquelicot Require Import Coquelicot.
From Flocq Require Import Core.Core IEEE754.BinarySingleNaN.
From Coq Require Import ZArith Reals List.
From Verif Require Import Base Num Ecdf2 Ecdf1New Ecdf1Mns Binary64 LongDouble LdRound Spec ProbLipschitz XEcdf2Main Binary64Facts Binary64Cases B64Round.
From Verif Require Import AccPmf AccFft AccCases AccMnsEval AccMns AccMnsCase AgreeB64.
Import List. Import ListNotations.
Local Open Scope R_scope.

(** ** C73 *)
Theorem C73_agree_b : forall (L : libm) (M : libml) (E : env (Bnum L)),
  libm_accurate L (bpow radix2 (-52)) -> fft_accurate E (bpow radix2 (-47)) -> sort_ok E ->
  libml_accurate M (bpow radix2 (-63)) -> libml_special M -> long_dbl E = x87 L M ->
  forall b : list f64, accepted64 b -> (2 <= List.length b <= 1000)%nat ->
  exists r1 r2 r3 r4 : f64, @ecdf2 (Bnum L) E b (repeat one64 (List.length b)) false = Ok r1 /\
    @ecdf2 (Bnum L) E b (repeat one64 (List.length b)) true = Ok r2 /\
    @ecdf1_new_b (Bnum L) E b = Ok r3 /\ @ecdf1_mns2016_b (Bnum L) E b = Ok r4 /\
    close_or_nan (2 / 10000) r1 r2 /\ close_or_nan (2 / 10000) r1 r3 /\ close_or_nan (2 / 10000) r2 r3 /\
    is_finite r2 = true /\ is_finite r3 = true /\
    close_or_nan (2 / 10000) r1 r4 /\ close_or_nan (2 / 10000) r2 r4 /\ close_or_nan (2 / 10000) r3 r4.
Proof. exact agree_b64. Qed.
Print Assumptions C73_agree_b.
Theorem C73_agree_B : forall (L : libm) (M : libml) (E : env (Bnum L)),
  libm_accurate L (bpow radix2 (-52)) -> fft_accurate E (bpow radix2 (-47)) -> sort_ok E ->
  libml_accurate M (bpow radix2 (-63)) -> libml_special M -> long_dbl E = x87 L M ->
  forall B : list f64, accepted64 B -> (2 <= List.length B <= 1000)%nat ->
  exists r1 r2 r3 r4 : f64, @ecdf2 (Bnum L) E (repeat zero64 (List.length B)) B false = Ok r1 /\
    @ecdf2 (Bnum L) E (repeat zero64 (List.length B)) B true = Ok r2 /\
    @ecdf1_new_B (Bnum L) E B = Ok r3 /\ @ecdf1_mns2016_B (Bnum L) E B = Ok r4 /\
    close_or_nan (2 / 10000) r1 r2 /\ close_or_nan (2 / 10000) r1 r3 /\ close_or_nan (2 / 10000) r2 r3 /\
    is_finite r2 = true /\ is_finite r3 = true /\
    close_or_nan (2 / 10000) r1 r4 /\ close_or_nan (2 / 10000) r2 r4 /\ close_or_nan (2 / 10000) r3 r4.
Proof. exact agree_B64. Qed.
Print Assumptions C73_agree_B.
(** Wider boundaries: the result does not decrease by more than 2e-4. *)
Theorem C73_widening : forall (L L' : libm) (E : env (Bnum L)) (E' : env (Bnum L')),
  libm_accurate L (bpow radix2 (-52)) -> fft_accurate E (bpow radix2 (-47)) -> sort_ok E ->
  libm_accurate L' (bpow radix2 (-52)) -> fft_accurate E' (bpow radix2 (-47)) -> sort_ok E' ->
  forall (b B b' B' : list f64) (use_fft use_fft' : bool) (r r' : f64),
  accepted64 b -> accepted64 B -> accepted64 b' -> accepted64 B' ->
  List.length b = List.length B -> List.length b' = List.length B' -> (List.length b <= 1000)%nat ->
  (asserts E = true -> forall i, (S i < List.length b)%nat -> nth i (map B2R b) 0 <= nth (S i) (map B2R B) 0) ->
  (asserts E' = true -> forall i, (S i < List.length b')%nat -> nth i (map B2R b') 0 <= nth (S i) (map B2R B') 0) ->
  Forall2 Rle (map B2R b') (map B2R b) -> Forall2 Rle (map B2R B) (map B2R B') ->
  @ecdf2 (Bnum L) E b B use_fft = Ok r -> @ecdf2 (Bnum L') E' b' B' use_fft' = Ok r' -> B2R r <= B2R r' + 2 / 10000.
Proof. exact widen64. Qed.
Print Assumptions C73_widening.
(** Slightly different boundaries, libraries or variants: slightly different results. *)
Theorem C73_stable : forall (L L' : libm) (E : env (Bnum L)) (E' : env (Bnum L')),
  libm_accurate L (bpow radix2 (-52)) -> fft_accurate E (bpow radix2 (-47)) -> sort_ok E ->
  libm_accurate L' (bpow radix2 (-52)) -> fft_accurate E' (bpow radix2 (-47)) -> sort_ok E' ->
  forall (b B b' B' : list f64) (use_fft use_fft' : bool) (r r' : f64),
  accepted64 b -> accepted64 B -> accepted64 b' -> accepted64 B' ->
  List.length b = List.length B -> List.length b' = List.length b -> List.length B' = List.length B -> (List.length b <= 1000)%nat ->
  (asserts E = true -> forall i, (S i < List.length b)%nat -> nth i (map B2R b) 0 <= nth (S i) (map B2R B) 0) ->
  (asserts E' = true -> forall i, (S i < List.length b')%nat -> nth i (map B2R b') 0 <= nth (S i) (map B2R B') 0) ->
  @ecdf2 (Bnum L) E b B use_fft = Ok r -> @ecdf2 (Bnum L') E' b' B' use_fft' = Ok r' ->
  Rabs (B2R r - B2R r') <= 2 / 10000 + INR (List.length b) * (distance (map B2R b) (map B2R b') + distance (map B2R B) (map B2R B')).
Proof. exact stable64. Qed.
Print Assumptions C73_stable.
(** Results are probabilities up to 1e-4, and at most 1e-4 if the boundaries touch or cross. *)
Theorem C73_range : forall (L : libm) (E : env (Bnum L)),
  libm_accurate L (bpow radix2 (-52)) -> fft_accurate E (bpow radix2 (-47)) -> sort_ok E ->
  forall (b B : list f64) (use_fft : bool) (r : f64),
  accepted64 b -> accepted64 B -> List.length b = List.length B -> (List.length b <= 1000)%nat ->
  (asserts E = true -> forall i, (S i < List.length b)%nat -> nth i (map B2R b) 0 <= nth (S i) (map B2R B) 0) ->
  @ecdf2 (Bnum L) E b B use_fft = Ok r ->
  - (1 / 10000) <= B2R r <= 1 + 1 / 10000 /\
  ((exists i, (i < List.length b)%nat /\ nth i (map B2R B) 0 <= nth i (map B2R b) 0) -> B2R r <= 1 / 10000).
Proof. exact range64. Qed.
Print Assumptions C73_range.
(** One library that meets all the hypotheses, and boundaries that do. *)
Example C73_case : libm_accurate cr_libm (bpow radix2 (-52)) /\ fft_accurate (cr80_env true) (bpow radix2 (-47)) /\ sort_ok (cr80_env true) /\
  libml_accurate cr_libml (bpow radix2 (-63)) /\ libml_special cr_libml /\ long_dbl (cr80_env true) = x87 cr_libm cr_libml /\
  accepted64 case64_b /\ List.length case64_b = 3%nat /\ accepted64 case200_b /\ List.length case200_b = 200%nat.
Proof. exact agree_case. Qed.
