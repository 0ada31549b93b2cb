(** * FastSuite: the crossprob program as compiled with -ffast-math on the files of the test suite. *)
From Coquelicot Require Import Coquelicot.
From Flocq Require Import Core.Core IEEE754.BinarySingleNaN.
From Coq Require Import ZArith Reals List Bool Lia Lra String Permutation Sorted.
From Verif Require Import Base Num XReal Ecdf2 StringUtils MonteCarlo Cli Spec SpecFacts StringSpec CliSpec CliFacts XFft ExactEnv ExactFacts.
From Verif Require Import StrtodSpec Binary64 Binary64Facts B64Round AccPmf AccFft LongDouble AccMnsEval AccMns AccMnsCase AccCli AccCliCase ShowSpec ShowMore ShowCases ShowCli UsageSpec UsageFacts RatProb TestSpec TestProb TestCli TestCase.
From Verif Require Import FastMath FastInst FastMain FastFft FastFftMain FastNewFinal FastNewLower FastLong FastMnsMain FastMnsCase FastCli FastMnsCli.
Import List. Import ListNotations.
Local Open Scope R_scope.
Local Open Scope string_scope.

Lemma plain_big v : 1/100 <= v -> plain v.
Proof. intros H. right. apply Rle_trans with (bpow radix2 (-7)); [apply bpow_le; lia|simpl; lra]. Qed.
Lemma plain_all t : In t test_files -> Forall plain (lower t) /\ Forall plain (upper t).
Proof.
  intros H. repeat destruct H as [<-|H]; [..|destruct H];
    unfold bounds_0_1, bounds_0, bounds__1, bounds2, bounds8, bounds_cksplus_10, bounds_cksminus_10; cbn [lower upper map];
    split; repeat (apply Forall_cons; [first [left; reflexivity|apply plain_big; unfold over; lra]|]); apply Forall_nil.
Qed.

Section Fast.
Context (C : compiler) (L : libm) (E : env (Fnum C L)) (D : lcompiler) (M : libml) (fs : filesystem) (prog : string) (show : f64 -> string).
Context (eps epsf epsl : R).
Notation FN := (Fnum C L).
Hypothesis HT : strtod_correct L.
Hypothesis Hshow : forall r, @show_double FN E r = show (cp_sum C r).
Hypothesis HS : forall x : f64, is_finite x = true -> printed (B2R x) (show x).
Hypothesis HF : forall t, In t test_files -> fs (name t) = Some (text t).
Hypothesis Hsort : sort_ok E.
Hypothesis HA : fast_libm_accurate (cp_flush C) L eps.
Hypothesis He : bpow radix2 (-51) <= eps <= bpow radix2 (-47).
Hypothesis HFA : fast_fft_accurate C L E epsf.
Hypothesis Hst : fft_stores C L E.
Hypothesis Hf : bpow radix2 (-50) <= epsf <= bpow radix2 (-45).
Hypothesis HM : libml_accurate M epsl.
Hypothesis Hl : bpow radix2 (-64) <= epsl <= bpow radix2 (-40).
Hypothesis HLD : long_dbl E = fast87 C L D M.
Let frexp : xr -> Z := fun _ => 0%Z.

Lemma wide_eps : bpow radix2 (-53) <= eps <= bpow radix2 (-47) /\ bpow radix2 (-53) <= epsf <= bpow radix2 (-45).
Proof.
  assert (bpow radix2 (-53) <= bpow radix2 (-51)) by (apply bpow_le; lia).
  assert (bpow radix2 (-53) <= bpow radix2 (-50)) by (apply bpow_le; lia). lra.
Qed.

Lemma row_fast cmd t out : prints_as t out ->
  (exists p (r : f64), is_noncrossing_probability (lower_of t) (upper_of t) p /\
     @cli_main FN E fs [prog; cmd; name t] = Ok ([Text (show r)], 0%Z) /\
     is_finite r = true /\ Rabs (B2R r - p) <= 1/10000000) ->
  @cli_main FN E fs [prog; cmd; name t] = Ok ([Text out], 0%Z).
Proof.
  intros (p & HP & HX) (p' & r & HP' & HO & Fr & Hr). rewrite HO. rewrite (is_prob_unique _ _ _ _ (proj2 HP') (proj2 HP)) in *.
  rewrite (HX (B2R r) _ Hr (HS r Fr)). reflexivity.
Qed.

Lemma tiny900 : bpow radix2 (-900) <= 1 / 1000000000000 /\ bpow radix2 (-1022) <= 1 / 1000000000000.
Proof.
  split; (apply Rle_trans with (bpow radix2 (-40)); [apply bpow_le; lia|simpl; lra]).
Qed.
Lemma two_small_fast u n : (n <= 10)%nat -> two_bound_fast u n eps epsf <= 1/10000000 /\ 65536 * (INR n * INR n) * eps <= 1 /\ fft_hyp_fast C L E u n epsf.
Proof.
  intros H. pose proof (squares n H) as Q. destruct wide_eps as (W1 & W2). destruct (small_eps eps epsf epsl W1 W2 Hl) as (E1 & E2 & _).
  assert (A : INR n * INR n * eps <= 100 * (8 / 1000000000000000)) by (apply Rmult_le_compat; lra).
  assert (B : INR n * INR n * epsf <= 100 * (3 / 100000000000000)) by (apply Rmult_le_compat; lra).
  pose proof (proj1 tiny900) as T.
  split; [unfold two_bound_fast; destruct u; lra|]. split; [lra|]. intros _. split; [exact HFA|]. split; [apply Hf|lra].
Qed.

Lemma two_fast u t out : prints_as t out -> In t test_files -> no_gap t -> List.length (lower t) = List.length (upper t) -> (1 <= List.length (lower t) <= 10)%nat ->
  @cli_main FN E fs [prog; ecdf2_command u; name t] = Ok ([Text out], 0%Z).
Proof.
  intros HX Ht HG HL HN. apply (row_fast _ t out HX). destruct (fine_all t Ht) as (V1 & V2 & _). destruct (plain_all t Ht) as (N1 & N2).
  destruct (two_small_fast u (List.length (lower t)) ltac:(lia)) as (S1 & S2 & S3).
  destruct (cli_two_fast C L E frexp fs prog (name t) (text t) show HT Hshow (HF t Ht) eps epsf u (lower t) (upper t) HA (proj1 He) S3) as (p & r & HP & HO & Fr & Hr); auto; try lia.
  - apply holds_all; exact Ht.
  - exists p, r. split; [|split; [exact HO|split; [exact Fr|lra]]]. unfold lower_of, upper_of.
    destruct (lower t); [simpl in HN; lia|]. destruct (upper t); [discriminate|]. exact HP.
Qed.
Lemma two_fast_B u t out : prints_as t out -> In t test_files -> lower t = [] -> (1 <= List.length (upper t) <= 10)%nat ->
  @cli_main FN E fs [prog; ecdf2_command u; name t] = Ok ([Text out], 0%Z).
Proof.
  intros HX Ht H1 HN. apply (row_fast _ t out HX). destruct (fine_all t Ht) as (V1 & V2 & _). destruct (plain_all t Ht) as (N1 & N2).
  destruct (two_small_fast u (List.length (upper t)) ltac:(lia)) as (S1 & S2 & S3). pose proof (holds_all frexp t Ht) as HH.
  unfold holds in HH. rewrite H1 in HH.
  destruct (cli_two_fast_B C L E frexp fs prog (name t) (text t) show HT Hshow (HF t Ht) eps epsf u (upper t) HA (proj1 He) S3) as (p & r & HP & HO & Fr & Hr); auto.
  - destruct (upper t); [simpl in HN; lia|discriminate].
  - exists p, r. split; [|split; [exact HO|split; [exact Fr|lra]]]. apply prob_zeros in HP. unfold lower_of, upper_of. rewrite H1.
    destruct (upper t); [simpl in HN; lia|]. exact HP.
Qed.
Lemma two_fast_b u t out : prints_as t out -> In t test_files -> upper t = [] -> (1 <= List.length (lower t) <= 10)%nat ->
  @cli_main FN E fs [prog; ecdf2_command u; name t] = Ok ([Text out], 0%Z).
Proof.
  intros HX Ht H1 HN. apply (row_fast _ t out HX). destruct (fine_all t Ht) as (V1 & V2 & _). destruct (plain_all t Ht) as (N1 & N2).
  destruct (two_small_fast u (List.length (lower t)) ltac:(lia)) as (S1 & S2 & S3). pose proof (holds_all frexp t Ht) as HH.
  unfold holds in HH. rewrite H1 in HH.
  destruct (cli_two_fast_b C L E frexp fs prog (name t) (text t) show HT Hshow (HF t Ht) eps epsf u (lower t) HA (proj1 He) S3) as (p & r & HP & HO & Fr & Hr); auto.
  - destruct (lower t); [simpl in HN; lia|discriminate].
  - exists p, r. split; [|split; [exact HO|split; [exact Fr|lra]]]. apply prob_ones in HP. unfold lower_of, upper_of. rewrite H1.
    destruct (lower t); [simpl in HN; lia|]. exact HP.
Qed.

Lemma new_fast t out : prints_as t out -> In t test_files -> lower t = [] -> (2 <= List.length (upper t) <= 10)%nat ->
  @cli_main FN E fs [prog; "ecdf1-new"; name t] = Ok ([Text out], 0%Z).
Proof.
  intros HX Ht H1 HN. apply (row_fast _ t out HX). destruct (fine_all t Ht) as (V1 & V2 & _). destruct (plain_all t Ht) as (N1 & N2).
  pose proof (holds_all frexp t Ht) as HH. unfold holds in HH. rewrite H1 in HH. destruct wide_eps as (W1 & W2).
  destruct (new_small eps epsf epsl W1 W2 Hl (List.length (upper t)) ltac:(lia)) as (S1 & S2 & S3). pose proof (proj2 tiny900) as T.
  destruct (cli_new_fast_B C L E frexp fs prog (name t) (text t) show HT Hshow (HF t Ht) eps epsf (upper t) HA (proj1 He) HFA (proj1 Hf) Hst ltac:(lia) ltac:(intros _; lia) S1 S2 HH V2 N2)
    as (p & r & HP & HO & Fr & Hr).
  exists p, r. split; [|split; [exact HO|split; [exact Fr|]]].
  - apply prob_zeros in HP. unfold lower_of, upper_of. rewrite H1. destruct (upper t); [simpl in HN; lia|]. exact HP.
  - pose proof (squares (List.length (upper t)) ltac:(lia)) as Q. destruct (small_eps eps epsf epsl W1 W2 Hl) as (Q1 & Q2 & _).
    assert (INR (List.length (upper t)) * INR (List.length (upper t)) * eps <= 100 * (8 / 1000000000000000)) by (apply Rmult_le_compat; lra).
    assert (INR (List.length (upper t)) * INR (List.length (upper t)) * epsf <= 100 * (3 / 100000000000000)) by (apply Rmult_le_compat; lra).
    lra.
Qed.

(** ecdf1-new of a lower boundary: the vector given to ecdf1_new_B is in memory, see FastNewLower.v. *)
Lemma new_fast_b t out : prints_as t out -> In t test_files -> upper t = [] -> (2 <= List.length (lower t) <= 10)%nat ->
  exists b r, @read_and_check_boundaries_file FN fs (name t) = Ok (b, []) /\ ecdf1_new_b_stored C L E b = Ok r /\ @show_double FN E r = out.
Proof.
  intros (p0 & HP0 & HX) Ht H1 HN. destruct (fine_all t Ht) as (V1 & V2 & _). destruct (plain_all t Ht) as (N1 & N2).
  pose proof (holds_all frexp t Ht) as HH. unfold holds in HH. rewrite H1 in HH. destruct wide_eps as (W1 & W2).
  destruct (new_small eps epsf epsl W1 W2 Hl (List.length (lower t)) ltac:(lia)) as (S1 & S2 & S3). pose proof (proj2 tiny900) as T.
  destruct (file64 L frexp HT (text t) (lower t) []) as (b6 & B6 & Hh6 & A1 & A2 & E1 & E2); auto using plain_normal; try (split; constructor).
  assert (HB6 : B6 = []) by (destruct B6; [reflexivity|discriminate]). subst B6.
  assert (L1 : List.length b6 = List.length (lower t)) by (pose proof (f_equal (@List.length R) E1) as HH1; rewrite !map_length in HH1; exact HH1).
  destruct (new_b_fast C L E eps epsf b6 HA (proj1 He) HFA (proj1 Hf) Hst A1 (plain_read _ b6 E1 N1)) as (p' & r & Hp' & Hr & Fr & Vr).
  { lia. } { intros _. lia. } { rewrite L1. exact S1. } { rewrite L1. exact S2. }
  rewrite E1, L1 in Hp'. rewrite L1 in Vr.
  destruct (written_b (lower t) p' V1 (plain_normal _ N1) Hp') as (p & Hp & Hd).
  exists (map lit b6), r. split; [apply (read_file_holds fs (name t) (text t)); auto; apply (ffile C L _ b6 []); exact Hh6|]. split; [exact Hr|].
  rewrite Hshow. apply (HX (B2R (cp_sum C r))); [|apply HS; exact Fr].
  assert (HP' : is_noncrossing_probability (lower_of t) (upper_of t) p).
  { apply prob_ones in Hp. unfold lower_of, upper_of. rewrite H1. destruct (lower t); [simpl in HN; lia|]. exact Hp. }
  rewrite (is_prob_unique _ _ _ _ (proj2 HP0) (proj2 HP')) in *.
  pose proof (squares (List.length (lower t)) ltac:(lia)) as Q. destruct (small_eps eps epsf epsl W1 W2 Hl) as (Q1 & Q2 & _).
  assert (INR (List.length (lower t)) * INR (List.length (lower t)) * eps <= 100 * (8 / 1000000000000000)) by (apply Rmult_le_compat; lra).
  assert (INR (List.length (lower t)) * INR (List.length (lower t)) * epsf <= 100 * (3 / 100000000000000)) by (apply Rmult_le_compat; lra).
  assert (HU : u64 <= 1 / 1000000000000).
  { unfold u64. apply Rle_trans with (bpow radix2 (-40)); [apply bpow_le; lia|simpl; lra]. }
  assert (INR (List.length (lower t)) * INR (List.length (lower t)) * u64 <= 100 * (1 / 1000000000000)).
  { apply Rmult_le_compat; [lra|pose proof u64_pos; lra|lra|exact HU]. }
  replace (B2R (cp_sum C r) - p) with ((B2R (cp_sum C r) - p') + (p' - p)) by ring.
  eapply Rle_trans; [apply Rabs_triang|]. lra.
Qed.

Lemma mns_fast t out : prints_as t out -> near t (1/2) 1 -> In t test_files -> one_sided t ->
  @cli_main FN E fs [prog; "ecdf1-mns2016"; name t] = Ok ([Text out], 0%Z).
Proof.
  intros HX (p0 & HP0 & HB0) Ht HO. apply (row_fast _ t out HX). destruct (fine_all t Ht) as (V1 & V2 & _). destruct (plain_all t Ht) as (N1 & N2).
  pose proof (holds_all frexp t Ht) as HH. unfold holds in HH. destruct wide_eps as (W1 & W2).
  destruct HO as [(H1 & HN)|(H1 & HN)]; rewrite H1 in HH.
  - destruct (mns_small eps epsf epsl W1 W2 Hl (List.length (upper t)) ltac:(lia)) as (S1 & S2 & S3).
    destruct (cli_mns_fast C L E frexp fs prog (name t) (text t) show HT Hshow (HF t Ht) D M epsl (upper t) HM (proj1 Hl) (proj2 Hl) HLD ltac:(lia) V2 N2) as [_ K].
    destruct (K HH) as (p & r & HP & HO & Hr).
    assert (HP' : is_noncrossing_probability (lower_of t) (upper_of t) p).
    { apply prob_zeros in HP. unfold lower_of, upper_of. rewrite H1. destruct (upper t); [simpl in HN; lia|]. exact HP. }
    rewrite (is_prob_unique _ _ _ _ (proj2 HP0) (proj2 HP')) in HB0.
    destruct Hr as [Fr Hr]; [lra|]. exists p, r. split; [exact HP'|split; [exact HO|split; [exact Fr|lra]]].
  - destruct (mns_small eps epsf epsl W1 W2 Hl (List.length (lower t)) ltac:(lia)) as (S1 & S2 & S3).
    destruct (cli_mns_fast C L E frexp fs prog (name t) (text t) show HT Hshow (HF t Ht) D M epsl (lower t) HM (proj1 Hl) (proj2 Hl) HLD ltac:(lia) V1 N1) as [K _].
    destruct (K HH) as (p & r & HP & HO & Hr).
    assert (HP' : is_noncrossing_probability (lower_of t) (upper_of t) p).
    { apply prob_ones in HP. unfold lower_of, upper_of. rewrite H1. destruct (lower t); [simpl in HN; lia|]. exact HP. }
    rewrite (is_prob_unique _ _ _ _ (proj2 HP0) (proj2 HP')) in HB0.
    destruct Hr as [Fr Hr]; [lra|]. exists p, r. split; [exact HP'|split; [exact HO|split; [exact Fr|lra]]].
Qed.

Theorem suite_fast : Forall (fun row => match row with (cmd, t, out) =>
  cmd <> "ecdf1-new" \/ upper t <> [] -> @cli_main FN E fs [prog; cmd; name t] = Ok ([Text out], 0%Z) end) suite.
Proof.
  destruct text_ones as (O1 & O2 & O3). pose proof text_bounds2 as T2. pose proof text_bounds8 as T8. pose proof text_cksplus as TP. pose proof text_cksminus as TM.
  assert (OM : one_sided bounds_cksminus_10) by (left; split; [reflexivity|simpl; lia]).
  assert (OP : one_sided bounds_cksplus_10) by (right; split; [reflexivity|simpl; lia]).
  assert (OA : one_sided bounds_0) by (right; split; [reflexivity|simpl; lia]).
  assert (OB : one_sided bounds__1) by (left; split; [reflexivity|simpl; lia]).
  assert (NM : near bounds_cksminus_10 (1/2) 1) by (eapply near_weaken; [exact near_cksminus|lra|lra]).
  assert (NP : near bounds_cksplus_10 (1/2) 1) by (eapply near_weaken; [exact near_cksplus|lra|lra]).
  assert (NA : near bounds_0 (1/2) 1) by (eapply near_weaken; [exact near_bounds_0|lra|lra]).
  assert (NB : near bounds__1 (1/2) 1) by (eapply near_weaken; [exact near_bounds__1|lra|lra]).
  unfold suite. change "ecdf2-ks2001" with (ecdf2_command false). change "ecdf2-mn2017" with (ecdf2_command true).
  repeat (apply Forall_cons; [intros Hrow; first
    [ exfalso; destruct Hrow as [Hrow|Hrow]; apply Hrow; reflexivity
    | apply new_fast; [assumption|member|reflexivity|simpl; lia] | apply mns_fast; [assumption|assumption|member|assumption]
    | apply two_fast; [assumption|member|first [exact gap_bounds_0_1|exact gap_bounds2|exact gap_bounds8]|reflexivity|simpl; lia]
    | apply two_fast_b; [assumption|member|reflexivity|simpl; lia]
    | apply two_fast_B; [assumption|member|reflexivity|simpl; lia] ]|]).
  apply Forall_nil.
Qed.
Theorem suite_fast_lower : Forall (fun row => match row with (cmd, t, out) =>
  cmd = "ecdf1-new" -> upper t = [] -> exists b r, @read_and_check_boundaries_file FN fs (name t) = Ok (b, []) /\
    ecdf1_new_b_stored C L E b = Ok r /\ @show_double FN E r = out end) suite.
Proof.
  destruct text_ones as (O1 & O2 & O3). pose proof text_cksplus as TP.
  unfold suite.
  repeat (apply Forall_cons; [intros Hc Hu; first [discriminate Hc|discriminate Hu|apply new_fast_b; [assumption|member|reflexivity|simpl; lia]]|]).
  apply Forall_nil.
Qed.
End Fast.
Lemma suite_fast_new_lower : forall (C : compiler) (L : libm) (E : env (Fnum C L)) (fs : filesystem) (show : f64 -> string) (eps epsf : R),
  strtod_correct L -> (forall r, @show_double (Fnum C L) E r = show (cp_sum C r)) ->
  (forall x : f64, is_finite x = true -> printed (B2R x) (show x)) ->
  (forall t, In t test_files -> fs (name t) = Some (text t)) ->
  fast_libm_accurate (cp_flush C) L eps -> bpow radix2 (-51) <= eps <= bpow radix2 (-47) ->
  fast_fft_accurate C L E epsf -> fft_stores C L E -> bpow radix2 (-50) <= epsf <= bpow radix2 (-45) ->
  Forall (fun row => match row with (cmd, t, out) =>
    cmd = "ecdf1-new" -> upper t = [] -> exists b r, @read_and_check_boundaries_file (Fnum C L) fs (name t) = Ok (b, []) /\
      ecdf1_new_b_stored C L E b = Ok r /\ @show_double (Fnum C L) E r = out end) suite.
Proof.
  intros C L E fs show eps epsf H1 H2 H3 H4 H5 H6 H7 H8 H9.
  apply (suite_fast_lower C L E fs show eps epsf (bpow radix2 (-40)) H1 H2 H3 H4 H5 H6 H7 H8 H9).
  split; [apply bpow_le; lia|apply Rle_refl].
Qed.

(** ** A case *)
Definition show_f64 (x : f64) : string := show6 (B2R x).
Lemma show_f64_ok (x : f64) : is_finite x = true -> printed (B2R x) (show_f64 x).
Proof. intros _. apply show6_ok. Qed.
Lemma suite_fast_case (C : compiler) (a : bool) : let E := fast80_text_env C show_f64 a in
  strtod_correct text_libm /\ (forall r, @show_double _ E r = show_f64 (cp_sum C r)) /\
  (forall x : f64, is_finite x = true -> printed (B2R x) (show_f64 x)) /\
  (forall t, In t test_files -> test_fs (name t) = Some (text t)) /\ sort_ok E /\
  fast_libm_accurate (cp_flush C) text_libm (bpow radix2 (-50)) /\ fast_fft_accurate C text_libm E (bpow radix2 (-47)) /\ fft_stores C text_libm E /\
  libml_accurate cr_libml (bpow radix2 (-64)) /\ long_dbl E = fast87 C text_libm back_compiler cr_libml.
Proof.
  intros E. split; [exact text_strtod|]. split; [reflexivity|]. split; [exact show_f64_ok|]. split; [exact test_fs_ok|].
  split; [apply isort_ok; reflexivity|]. split; [apply text_fast|]. split; [exact (fast_text_fft C show_f64 a)|].
  split; [exact (fast_text_stores C show_f64 a)|]. split; [exact cr80_accurate|reflexivity].
Qed.
