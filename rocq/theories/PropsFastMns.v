(** * PropsFastMns: property C79, ecdf1_mns2016_b and ecdf1_mns2016_B as compiled with -ffast-math, and the
    command ecdf1-mns2016 of the crossprob program.

    See PropsFast.v for the model of the compiler for double.  [fast87 C L D M] (FastLong.v) is the 80-bit long
    double under -ffast-math: D evaluates sums in any order and divides or multiplies by the reciprocal.
    [libml_accurate M eps] (AccMnsEval.v) is the relative accuracy of expl, logl, lgammal and powl.  Nothing is said of
    the result when the probability is below the bound: without -ffast-math it may be a NaN (C60), and
    -ffinite-math-only, part of -ffast-math, leaves unspecified what a program does with a NaN. *)
From Coquelicot Require Import Coquelicot.
From Flocq Require Import Core.Core IEEE754.BinarySingleNaN.
From Coq Require Import ZArith Reals List String.
From Verif Require Import Base Num XReal StringUtils MonteCarlo Cli Binary64 Spec StringSpec CliSpec CliFacts Binary64Facts Binary64Cases LongDouble Ecdf1Mns AccCases AccMnsEval AccMns AccMnsCase.
From Verif Require Import StrtodSpec AccCliCase FastMath FastMain FastLong FastMnsMain FastMnsCase FastMnsCli.
Import List. Import ListNotations.
Local Open Scope R_scope.

(** ** C79 *)
Theorem C79_lower : forall (C : compiler) (L : libm) (D : lcompiler) (M : libml) (eps : R) (E : env (Fnum C L)),
  libml_accurate M eps -> bpow radix2 (-64) <= eps -> eps <= bpow radix2 (-40) -> long_dbl E = fast87 C L D M ->
  forall b : list f64, accepted64 b -> (List.length b <= 4096)%nat ->
  exists p r, is_prob (List.length b) (noncrossing_b (map B2R b)) p /\ @ecdf1_mns2016_b (Fnum C L) E (map lit b) = Ok r /\
  ((56 * (INR (S (List.length b)) * INR (S (List.length b))) + 57 * INR (S (List.length b))) * eps < p ->
   is_finite (cp_sum C r) = true /\
   Rabs (B2R (cp_sum C r) - p) <=
     (56 * (INR (S (List.length b)) * INR (S (List.length b))) + 410 * INR (S (List.length b))) * eps + bpow radix2 (-52)).
Proof. exact mns_b_fast. Qed.
Print Assumptions C79_lower.

(** The upper boundary: B -> 1 - B costs n^2 * 2^-53 more. *)
Theorem C79_upper : forall (C : compiler) (L : libm) (D : lcompiler) (M : libml) (eps : R) (E : env (Fnum C L)),
  libml_accurate M eps -> bpow radix2 (-64) <= eps -> eps <= bpow radix2 (-40) -> long_dbl E = fast87 C L D M ->
  forall B : list f64, accepted64 B -> Forall (fun x : f64 => B2R x = 0 \/ bpow radix2 (-900) <= B2R x) B -> (List.length B <= 4096)%nat ->
  exists p r, is_prob (List.length B) (noncrossing_B (map B2R B)) p /\ @ecdf1_mns2016_B (Fnum C L) E (map lit B) = Ok r /\
  ((56 * (INR (S (List.length B)) * INR (S (List.length B))) + 57 * INR (S (List.length B))) * eps
     + INR (List.length B) * INR (List.length B) * bpow radix2 (-53) < p ->
   is_finite (cp_sum C r) = true /\
   Rabs (B2R (cp_sum C r) - p) <=
     (56 * (INR (S (List.length B)) * INR (S (List.length B))) + 410 * INR (S (List.length B))) * eps + bpow radix2 (-52)
     + INR (List.length B) * INR (List.length B) * bpow radix2 (-53)).
Proof. exact mns_B_fast. Qed.
Print Assumptions C79_upper.

Theorem C79_lower_1000 : forall (C : compiler) (L : libm) (D : lcompiler) (M : libml) (E : env (Fnum C L)),
  libml_accurate M (bpow radix2 (-63)) -> long_dbl E = fast87 C L D M ->
  forall b : list f64, accepted64 b -> (List.length b <= 1000)%nat ->
  exists p r, is_prob (List.length b) (noncrossing_b (map B2R b)) p /\ @ecdf1_mns2016_b (Fnum C L) E (map lit b) = Ok r /\
  (1 / 100000000000 < p -> is_finite (cp_sum C r) = true /\ Rabs (B2R (cp_sum C r) - p) <= 1 / 100000000000).
Proof. exact mns_b_fast_1000. Qed.
Print Assumptions C79_lower_1000.

Theorem C79_upper_1000 : forall (C : compiler) (L : libm) (D : lcompiler) (M : libml) (E : env (Fnum C L)),
  libml_accurate M (bpow radix2 (-63)) -> long_dbl E = fast87 C L D M ->
  forall B : list f64, accepted64 B -> Forall (fun x : f64 => B2R x = 0 \/ bpow radix2 (-900) <= B2R x) B -> (List.length B <= 1000)%nat ->
  exists p r, is_prob (List.length B) (noncrossing_B (map B2R B)) p /\ @ecdf1_mns2016_B (Fnum C L) E (map lit B) = Ok r /\
  (1 / 1000000000 < p -> is_finite (cp_sum C r) = true /\ Rabs (B2R (cp_sum C r) - p) <= 1 / 1000000000).
Proof. exact mns_B_fast_1000. Qed.
Print Assumptions C79_upper_1000.

(** Two builds with -ffast-math, and a build with and one without. *)
Theorem C79_builds_agree : forall (C C' : compiler) (L L' : libm) (D D' : lcompiler) (M M' : libml) (E : env (Fnum C L)) (E' : env (Fnum C' L')) (b : list f64) r r' p,
  libml_accurate M (bpow radix2 (-63)) -> long_dbl E = fast87 C L D M ->
  libml_accurate M' (bpow radix2 (-63)) -> long_dbl E' = fast87 C' L' D' M' ->
  accepted64 b -> (List.length b <= 1000)%nat ->
  is_prob (List.length b) (noncrossing_b (map B2R b)) p -> 1 / 100000000000 < p ->
  @ecdf1_mns2016_b (Fnum C L) E (map lit b) = Ok r -> @ecdf1_mns2016_b (Fnum C' L') E' (map lit b) = Ok r' ->
  Rabs (B2R (cp_sum C r) - B2R (cp_sum C' r')) <= 2 / 100000000000.
Proof. exact mns_b_builds. Qed.
Print Assumptions C79_builds_agree.

Theorem C79_ieee_agree : forall (C : compiler) (L L' : libm) (D : lcompiler) (M M' : libml) (E : env (Fnum C L)) (E' : env (Bnum L')) (b : list f64) r (r' : f64) p,
  libml_accurate M (bpow radix2 (-63)) -> long_dbl E = fast87 C L D M ->
  libml_accurate M' (bpow radix2 (-63)) -> libml_special M' -> long_dbl E' = x87 L' M' ->
  accepted64 b -> (List.length b <= 1000)%nat ->
  is_prob (List.length b) (noncrossing_b (map B2R b)) p -> 1 / 100000000000 < p ->
  @ecdf1_mns2016_b (Fnum C L) E (map lit b) = Ok r -> @ecdf1_mns2016_b (Bnum L') E' b = Ok r' ->
  Rabs (B2R (cp_sum C r) - B2R r') <= 2 / 100000000000.
Proof. exact mns_b_ieee. Qed.
Print Assumptions C79_ieee_agree.

(** crossprob ecdf1-mns2016 FILE, from the decimal numbers in the file to the number printed; [show] is operator<<. *)
Theorem C79_program : forall (C : compiler) (L : libm) (E : env (Fnum C L)) (frexp : xr -> Z) (fs : filesystem) (prog f contents : string) (show : f64 -> string),
  strtod_correct L -> (forall r, @show_double (Fnum C L) E r = show (cp_sum C r)) -> fs f = Some contents ->
  forall (D : lcompiler) (M : libml) (eps : R) (v : list R),
  libml_accurate M eps -> bpow radix2 (-64) <= eps -> eps <= bpow radix2 (-40) -> long_dbl E = fast87 C L D M ->
  (1 <= List.length v <= 4096)%nat -> valid_boundary v -> Forall (fun x => x = 0 \/ bpow radix2 (-900) <= x) v ->
  let N := INR (S (List.length v)) in
  let nu := INR (List.length v) * INR (List.length v) * bpow radix2 (-53) in
  (file_holds (N := Xnum frexp) contents (map Fin v) [] ->
   exists p (r : f64), is_prob (List.length v) (noncrossing_b v) p /\
    @cli_main (Fnum C L) E fs [prog; "ecdf1-mns2016"%string; f] = Ok ([Text (show r)], 0%Z) /\
    ((56 * (N * N) + 57 * N) * eps + nu < p ->
     is_finite r = true /\ Rabs (B2R r - p) <= (56 * (N * N) + 410 * N) * eps + bpow radix2 (-52) + nu)) /\
  (file_holds (N := Xnum frexp) contents [] (map Fin v) ->
   exists p (r : f64), is_prob (List.length v) (noncrossing_B v) p /\
    @cli_main (Fnum C L) E fs [prog; "ecdf1-mns2016"%string; f] = Ok ([Text (show r)], 0%Z) /\
    ((56 * (N * N) + 57 * N) * eps + 2 * nu < p ->
     is_finite r = true /\ Rabs (B2R r - p) <= (56 * (N * N) + 410 * N) * eps + bpow radix2 (-52) + 2 * nu)).
Proof. exact cli_mns_fast. Qed.
Print Assumptions C79_program.

(** A compiler that adds in two lanes and contracts double, adds long double from the last term to the first and
    multiplies by reciprocals: the boundaries (-0.0, 1/2) and (1/2, 1), both of probability 3/4, and the files
    "0.1, 0.3" and "0.8, 1" (second line). *)
Example C79_case : forall flush : bool, let C := simd_compiler flush in let E := fast80_env C true in
  libml_accurate cr_libml (bpow radix2 (-63)) /\ long_dbl E = fast87 C cr_libm back_compiler cr_libml /\
  (exists r, @ecdf1_mns2016_b (Fnum C cr_libm) E (map lit mns_low) = Ok r /\ is_finite (cp_sum C r) = true /\
     Rabs (B2R (cp_sum C r) - 3 / 4) <= 1 / 100000000000) /\
  (exists r, @ecdf1_mns2016_B (Fnum C cr_libm) E (map lit mns_up) = Ok r /\ is_finite (cp_sum C r) = true /\
     Rabs (B2R (cp_sum C r) - 3 / 4) <= 1 / 1000000000).
Proof. exact mns_fast_case. Qed.
Example C79_case_program : forall (flush : bool) (show : f64 -> string),
  let E := fast80_text_env (simd_compiler flush) show true in
  (exists r : f64, cli_main E text_fs ["crossprob"%string; "ecdf1-mns2016"%string; "b.txt"%string] = Ok ([Text (show r)], 0%Z) /\
     is_finite r = true /\ Rabs (B2R r - 77 / 100) <= 1 / 1000000000000) /\
  (exists r : f64, cli_main E text_fs ["crossprob"%string; "ecdf1-mns2016"%string; "B.txt"%string] = Ok ([Text (show r)], 0%Z) /\
     is_finite r = true /\ Rabs (B2R r - 96 / 100) <= 1 / 1000000000000).
Proof. exact fast80_text. Qed.
