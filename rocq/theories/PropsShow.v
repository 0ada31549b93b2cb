(** * PropsShow: property C66, the digits the programs print.

    ShowSpec.v says which text an ostream writes for a number ([printed], [show_ok]), which number a text
    stands for ([text_value]) and that a program prints one number ([prints]); the other hypotheses are those
    of C31 (exact arithmetic) and C62 (binary64). *)
From Coquelicot Require Import Coquelicot.
From Flocq Require Import Core.Core IEEE754.BinarySingleNaN.
From Coq Require Import ZArith Reals List String.
From Verif Require Import Base Num XReal StringUtils MonteCarlo Cli Spec StringSpec CliSpec CliFacts XFft Ecdf2 Cases StrtodSpec Binary64.
From Verif Require Import AccPmf AccFft AccCliCase TinyMT McSpec ShowSpec ShowFacts ShowMore ShowCli ShowCases.
Import List. Import ListNotations.
Local Open Scope R_scope.
Local Open Scope string_scope.

(** ** The text of one number *)
Theorem C66_reads_back : forall v s, printed v s -> exists w, text_value s w /\
  Rabs (w - v) <= 5 / 1000000 * Rabs v /\
  (Rabs v <= 1 -> Rabs (w - v) <= 5 / 10000000) /\
  (0 <= v <= 1 -> 0 <= w <= 1).
Proof. exact printed_reads. Qed.
Print Assumptions C66_reads_back.
Theorem C66_determined : forall v s s', v <> 0 -> printed v s -> printed v s' -> s = s'.
Proof. exact printed_unique. Qed.
Print Assumptions C66_determined.
Example C66_case_texts : (forall v, printed v (show6 v)) /\
  show6 (3/4) = "0.75" /\ show6 (1/3) = "0.333333" /\ show6 (1/30000) = "3.33333e-05".
Proof. exact (conj show6_ok (conj show_three_quarters (conj show_third show_small))). Qed.

(** ** crossprob in exact arithmetic *)
Theorem C66_two_sided : forall frexp (E : env (Xnum frexp)) fs prog f contents,
  show_ok real_of_xr E -> fs f = Some contents ->
  forall (b B : list R) use_fft, file_holds (N := Xnum frexp) contents (map Fin b) (map Fin B) ->
  valid_boundary b -> valid_boundary B -> List.length b = List.length B -> sort_ok E -> (use_fft = true -> fft_ok E) ->
  (asserts E = true -> forall i, (S i < List.length b)%nat -> nth i b 0 <= nth (S i) B 0) ->
  exists p w, is_noncrossing_probability b B p /\ prints (cli_main E fs [prog; ecdf2_command use_fft; f]) w /\
    Rabs (w - p) <= 5 / 1000000 * p /\ Rabs (w - p) <= 5 / 10000000 /\ 0 <= w <= 1 /\
    (1 - 5 / 10000000 <= p -> cli_main E fs [prog; ecdf2_command use_fft; f] = Ok ([Text "1"], 0%Z)).
Proof. exact (@exact_two). Qed.
Print Assumptions C66_two_sided.
Theorem C66_one_sided_new : forall frexp (E : env (Xnum frexp)) fs prog f contents,
  show_ok real_of_xr E -> fs f = Some contents ->
  forall v : list R, valid_boundary v -> fft_ok E ->
  (1 <= List.length v)%nat -> (Z.of_nat (List.length v) <= INT_MAX)%Z -> (asserts E = true -> (2 <= List.length v)%nat) ->
  let near p := exists w, prints (cli_main E fs [prog; "ecdf1-new"; f]) w /\
    Rabs (w - p) <= 5 / 1000000 * p /\ Rabs (w - p) <= 5 / 10000000 /\ 0 <= w <= 1 /\
    (1 - 5 / 10000000 <= p -> cli_main E fs [prog; "ecdf1-new"; f] = Ok ([Text "1"], 0%Z)) in
  (file_holds (N := Xnum frexp) contents (map Fin v) [] -> exists p, is_prob (List.length v) (noncrossing_b v) p /\ near p) /\
  (file_holds (N := Xnum frexp) contents [] (map Fin v) -> exists p, is_prob (List.length v) (noncrossing_B v) p /\ near p).
Proof. exact (@exact_new). Qed.
Print Assumptions C66_one_sided_new.
Theorem C66_one_sided_mns2016 : forall frexp (E : env (Xnum frexp)) fs prog f contents,
  show_ok real_of_xr E -> fs f = Some contents ->
  forall v : list R, valid_boundary v -> v <> [] -> long_double_ok E ->
  let near p := exists w, prints (cli_main E fs [prog; "ecdf1-mns2016"; f]) w /\
    Rabs (w - p) <= 5 / 1000000 * p /\ Rabs (w - p) <= 5 / 10000000 /\ 0 <= w <= 1 /\
    (1 - 5 / 10000000 <= p -> cli_main E fs [prog; "ecdf1-mns2016"; f] = Ok ([Text "1"], 0%Z)) in
  (file_holds (N := Xnum frexp) contents (map Fin v) [] -> exists p, is_prob (List.length v) (noncrossing_b v) p /\ near p) /\
  (file_holds (N := Xnum frexp) contents [] (map Fin v) -> exists p, is_prob (List.length v) (noncrossing_B v) p /\ near p).
Proof. exact (@exact_mns). Qed.
Print Assumptions C66_one_sided_mns2016.

(** ** crossprob in binary64 *)
Theorem C66_two_sided_binary64 : forall (L : libm) (E : env (Bnum L)) (frexp : xr -> Z) fs prog f contents,
  strtod_correct L -> show_ok real_of_f64 E -> fs f = Some contents ->
  forall (eps epsf : R) (use_fft : bool) (b B : list R),
  libm_accurate L eps -> bpow radix2 (-53) <= eps ->
  (use_fft = true -> fft_accurate E epsf /\ bpow radix2 (-53) <= epsf /\
     16384 * (INR (List.length b) * INR (List.length b)) * epsf <= 1) ->
  sort_ok E -> 65536 * (INR (List.length b) * INR (List.length b)) * eps <= 1 ->
  file_holds (N := Xnum frexp) contents (map Fin b) (map Fin B) ->
  valid_boundary b -> valid_boundary B -> Forall normal b -> Forall normal B -> List.length b = List.length B ->
  (asserts E = true -> forall i, (S i < List.length b)%nat -> nth i b 0 <= nth (S i) B 0) ->
  let tol := 40002 * (INR (List.length b) * INR (List.length b) * eps) +
      (if use_fft then 10000 * (INR (List.length b) * INR (List.length b) * epsf) else bpow radix2 (-1000)) in
  tol <= 5 / 1000000 ->
  exists p w, is_noncrossing_probability b B p /\
    prints (@cli_main (Bnum L) E fs [prog; ecdf2_command use_fft; f]) w /\ Rabs (w - p) <= tol + 5 / 10000000.
Proof. exact rounded_two. Qed.
Print Assumptions C66_two_sided_binary64.
Theorem C66_one_sided_new_binary64 : forall (L : libm) (E : env (Bnum L)) (frexp : xr -> Z) fs prog f contents,
  strtod_correct L -> show_ok real_of_f64 E -> fs f = Some contents ->
  forall (eps epsf : R) (v : list R),
  libm_accurate L eps -> bpow radix2 (-53) <= eps -> fft_accurate E epsf -> bpow radix2 (-53) <= epsf ->
  (1 <= List.length v)%nat -> (asserts E = true -> (2 <= List.length v)%nat) ->
  65536 * (INR (List.length v) * INR (List.length v) * sqrt (INR (List.length v))) * eps <= 1 ->
  16384 * (INR (List.length v) * INR (List.length v) * sqrt (INR (List.length v))) * epsf <= 1 ->
  valid_boundary v -> Forall normal v ->
  let tol := 60002 * (INR (List.length v) * INR (List.length v) * eps) + 9000 * (INR (List.length v) * INR (List.length v) * epsf) in
  tol <= 5 / 1000000 ->
  let near p := exists w, prints (@cli_main (Bnum L) E fs [prog; "ecdf1-new"; f]) w /\ Rabs (w - p) <= tol + 5 / 10000000 in
  (file_holds (N := Xnum frexp) contents (map Fin v) [] -> exists p, is_prob (List.length v) (noncrossing_b v) p /\ near p) /\
  (file_holds (N := Xnum frexp) contents [] (map Fin v) -> exists p, is_prob (List.length v) (noncrossing_B v) p /\ near p).
Proof. exact rounded_new. Qed.
Print Assumptions C66_one_sided_new_binary64.

(** ** Small crossing probabilities are lost: the file "0 / 0.9999999" *)
Theorem C66_small_probability_refuted :
  is_noncrossing_probability [0] tail_B (9999999/10000000) /\
  (forall frexp, file_holds (N := Xnum frexp) tail_text (map Fin [0]) (map Fin tail_B)) /\
  (forall frexp (E : env (Xnum frexp)) fs prog f, fs f = Some tail_text -> show_ok real_of_xr E -> sort_ok E ->
     cli_main E fs [prog; "ecdf2-ks2001"; f] = Ok ([Text "1"], 0%Z)) /\
  (forall (L : libm) (E : env (Bnum L)) fs prog f eps, fs f = Some tail_text -> show_ok real_of_f64 E -> sort_ok E ->
     strtod_correct L -> libm_accurate L eps -> bpow radix2 (-53) <= eps <= 1 / 1000000000000 ->
     @cli_main (Bnum L) E fs [prog; "ecdf2-ks2001"; f] = Ok ([Text "1"], 0%Z)).
Proof. exact (conj tail_prob (conj tail_holds (conj (@tail_exact) tail_rounded))). Qed.
Print Assumptions C66_small_probability_refuted.

(** ** crossprob_mc in binary64 *)
Theorem C66_mc_ecdf : forall (L : libm) (E : env (Bnum L)), show_ok real_of_f64 E ->
  forall uninit now fs prog f nsim num contents (b B : list (car (Bnum L))),
  nul_free nsim -> integer_text nsim num -> (1 <= num <= INT_MAX)%Z -> fs f = Some contents -> file_holds contents b B ->
  (b <> [] \/ B <> []) -> (b = [] \/ (size B <= size b)%Z) ->
  let n := Z.max (size b) (size B) in
  exists cs, Z.of_nat (List.length cs) = num /\
    simulations (does_random_ecdf_cross (N := Bnum L) b B (Z.to_nat n)) (rng_make uninit (now + n * 2 ^ 20)) cs /\
    forall fuel, (Z.to_nat num <= fuel)%nat -> exists w,
      prints (mc_main E fuel uninit now fs [prog; "ecdf"; f; nsim]) w /\
      Rabs (w - (1 - IZR (crossings cs) / IZR num)) <= 5 / 10000000 + bpow radix2 (-51) /\
      ((num < 1000000)%Z -> Rabs (IZR num * (1 - w) - IZR (crossings cs)) < 1/2).
Proof. exact mc_ecdf_prints64. Qed.
Print Assumptions C66_mc_ecdf.
Theorem C66_mc_poisson : forall (L : libm) (E : env (Bnum L)), show_ok real_of_f64 E ->
  forall uninit now fs prog f nsim num contents (b B : list (car (Bnum L))),
  nul_free nsim -> integer_text nsim num -> (1 <= num <= INT_MAX)%Z -> fs f = Some contents -> file_holds contents b B ->
  (b = [] \/ (size B <= size b)%Z) ->
  let n := Z.max (size b) (size B) in
  (n <= 2147)%Z ->
  exists cs, Z.of_nat (List.length cs) = num /\
    simulations (does_random_poisson_process_cross (N := Bnum L) b B (@n_div (Bnum L) n1 (n_of_Z n))) (rng_make uninit (now + n * 1000000)) cs /\
    forall fuel, (Z.to_nat num <= fuel)%nat -> exists w,
      prints (mc_main E fuel uninit now fs [prog; "poisson"; f; nsim]) w /\
      Rabs (w - (1 - IZR (crossings cs) / IZR num)) <= 5 / 10000000 + bpow radix2 (-51) /\
      ((num < 1000000)%Z -> Rabs (IZR num * (1 - w) - IZR (crossings cs)) < 1/2).
Proof. exact mc_poisson_prints64. Qed.
Print Assumptions C66_mc_poisson.

(** Environments and a C library that meet the hypotheses. *)
Example C66_case_exact : forall a, show_ok real_of_xr (show_env a) /\ sort_ok (show_env a) /\ fft_ok (show_env a) /\ long_double_ok (show_env a).
Proof. exact show_env_ok. Qed.
Example C66_case_binary64 : strtod_correct text_libm /\ libm_accurate text_libm (bpow radix2 (-53)) /\
  forall a, show_ok real_of_f64 (show_text_env a) /\ sort_ok (show_text_env a) /\ fft_accurate (show_text_env a) (bpow radix2 (-53)).
Proof. exact (conj text_strtod (conj text_accurate show_text_ok)). Qed.
