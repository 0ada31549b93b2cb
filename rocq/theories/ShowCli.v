(** * ShowCli: the numbers the programs print. *)
From Coquelicot Require Import Coquelicot.
From Flocq Require Import Core.Core IEEE754.BinarySingleNaN.
From Coq Require Import ZArith Reals List Bool Lia Lra String.
From Verif Require Import Base Num XReal Ecdf2 StringUtils MonteCarlo Cli Spec StringSpec CliSpec CliFacts XFft ExactEnv SpecFacts Cases.
From Verif Require Import StrtodSpec Binary64 Binary64Facts B64Round AccPmf AccFft LongDouble AccMnsEval AccMns AccCli McSpec McLoop McMore.
From Verif Require Import ShowSpec ShowFacts ShowMore.
Import List. Import ListNotations.
Local Open Scope R_scope.
Local Open Scope string_scope.

(** ** Numbers that are printed as 1 *)
Lemma six_one v : 1 - 5 / 10000000 <= v <= 1 + 5 / 1000000 -> six_digits v (10 ^ 5)%Z 0%Z.
Proof.
  intros H. assert (A : Rabs v = v) by (apply Rabs_pos_eq; lra).
  destruct (Rle_lt_dec 1 v) as [G|G].
  - apply six_within; [rewrite A; simpl; lra| |lia]. change (5 - 0)%Z with 5%Z. rewrite A, <- power_nat by lia.
    assert (E : 0 <= v * IZR (10 ^ 5) - IZR (10 ^ 5) <= 1/2) by (simpl; lra).
    split; [rewrite Rabs_pos_eq; lra|reflexivity].
  - apply (six_carried v (-1)); [rewrite A; simpl; lra|]. change (5 - -1)%Z with 6%Z. rewrite A, <- power_nat by lia.
    assert (E : 0 <= IZR (10 ^ 6) - v * IZR (10 ^ 6) <= 1/2) by (simpl; lra).
    split; [rewrite Rabs_minus_sym, Rabs_pos_eq; lra|reflexivity].
Qed.
Lemma printed_one v s : 1 - 5 / 10000000 <= v <= 1 + 5 / 1000000 -> printed v s -> s = "1".
Proof.
  intros H P. apply (printed_unique v); [lra|exact P|].
  apply (printed_pos v (10 ^ 5)%Z 0%Z); [lra|apply six_one; exact H|]. exact (general_of_ok (10 ^ 5)%Z 0%Z ltac:(lia)).
Qed.
Lemma one_value : text_value "1" 1.
Proof.
  exists (LDec false 1 (0 - 0)). split; [|simpl; ring].
  apply (numeral_intro "" "" false "1"); [constructor|constructor|]. apply (un_dec false "1" 1 0 "" 0); [|constructor].
  apply man_int; [|discriminate]. change 1%Z with (1 * 10 ^ slen "" + 0)%Z. constructor; [split; [lia|reflexivity]|constructor].
Qed.

(** ** A number near a probability *)
Lemma printed_near v s p tol : printed v s -> 0 <= p <= 1 -> Rabs (v - p) <= tol -> tol <= 5 / 1000000 ->
  exists w, text_value s w /\ Rabs (w - p) <= tol + 5 / 10000000.
Proof.
  intros P Hp Hv Ht. pose proof (Rabs_le_inv _ _ Hv) as B.
  destruct (Rle_lt_dec v 1) as [L|L].
  - destruct (printed_reads v s P) as (w & HW & _ & HB & _). exists w. split; [exact HW|].
    replace (w - p) with ((w - v) + (v - p)) by ring. eapply Rle_trans; [apply Rabs_triang|].
    assert (Rabs (w - v) <= 5 / 10000000) by (apply HB; apply Rabs_le; lra). lra.
  - exists 1. rewrite (printed_one v s) by (exact P || lra). split; [exact one_value|]. rewrite Rabs_pos_eq by lra. lra.
Qed.

(** ** The crossprob program, in exact arithmetic and in binary64 *)
Lemma exact_prints {frexp} (E : env (Xnum frexp)) p o : show_ok real_of_xr E -> 0 <= p <= 1 ->
  o = Ok ([Text (show_double E (Fin p : car (Xnum frexp)))], 0%Z) ->
  exists w, prints o w /\ Rabs (w - p) <= 5 / 1000000 * p /\ Rabs (w - p) <= 5 / 10000000 /\ 0 <= w <= 1 /\
    (1 - 5 / 10000000 <= p -> o = Ok ([Text "1"], 0%Z)).
Proof.
  intros HS Hp ->. pose proof (HS (Fin p : car (Xnum frexp)) p eq_refl) as P.
  destruct (printed_reads p _ P) as (w & HW & H1 & H2 & H3). rewrite (Rabs_pos_eq p) in H1, H2 by lra.
  exists w. split; [eexists; split; [reflexivity|exact HW]|]. split; [exact H1|]. split; [apply H2; lra|]. split; [apply H3; exact Hp|].
  intros G. rewrite (printed_one p _ ltac:(lra) P). reflexivity.
Qed.
Lemma binary64_prints {L : libm} (E : env (Bnum L)) (r : f64) p tol o : show_ok real_of_f64 E -> 0 <= p <= 1 ->
  o = Ok ([Text (@show_double (Bnum L) E r)], 0%Z) -> is_finite r = true -> Rabs (B2R r - p) <= tol -> tol <= 5 / 1000000 ->
  exists w, prints o w /\ Rabs (w - p) <= tol + 5 / 10000000.
Proof.
  intros HS Hp -> Hr Ht Hs. pose proof (HS (r : car (Bnum L)) (B2R r) (conj Hr eq_refl)) as P.
  destruct (printed_near _ _ p tol P Hp Ht Hs) as (w & HW & H). exists w. split; [|exact H]. eexists. split; [reflexivity|exact HW].
Qed.

Section Exact.
Context {frexp : xr -> Z} (E : env (Xnum frexp)) (fs : filesystem) (prog f contents : string).
Hypothesis HS : show_ok real_of_xr E.
Hypothesis HF : fs f = Some contents.

Lemma exact_two (b B : list R) u : file_holds (N := Xnum frexp) contents (map Fin b) (map Fin B) ->
  valid_boundary b -> valid_boundary B -> List.length b = List.length B -> sort_ok E -> (u = true -> fft_ok E) ->
  (asserts E = true -> forall i, (S i < List.length b)%nat -> nth i b 0 <= nth (S i) B 0) ->
  exists p w, is_noncrossing_probability b B p /\ prints (cli_main E fs [prog; ecdf2_command u; f]) w /\
    Rabs (w - p) <= 5 / 1000000 * p /\ Rabs (w - p) <= 5 / 10000000 /\ 0 <= w <= 1 /\
    (1 - 5 / 10000000 <= p -> cli_main E fs [prog; ecdf2_command u; f] = Ok ([Text "1"], 0%Z)).
Proof.
  intros HH Vb VB HL Hs Hf Ha. destruct (cli_two_sided E fs prog f contents b B u) as (p & HP & HO); auto.
  exists p. destruct (exact_prints E p _ HS (is_prob_range _ _ _ (proj2 HP)) HO) as (w & H).
  exists w. split; [exact HP|exact H].
Qed.
Lemma exact_new (v : list R) : valid_boundary v -> fft_ok E ->
  (1 <= List.length v)%nat -> (Z.of_nat (List.length v) <= INT_MAX)%Z -> (asserts E = true -> (2 <= List.length v)%nat) ->
  let near p := exists w, prints (cli_main E fs [prog; "ecdf1-new"; f]) w /\
    Rabs (w - p) <= 5 / 1000000 * p /\ Rabs (w - p) <= 5 / 10000000 /\ 0 <= w <= 1 /\
    (1 - 5 / 10000000 <= p -> cli_main E fs [prog; "ecdf1-new"; f] = Ok ([Text "1"], 0%Z)) in
  (file_holds (N := Xnum frexp) contents (map Fin v) [] -> exists p, is_prob (List.length v) (noncrossing_b v) p /\ near p) /\
  (file_holds (N := Xnum frexp) contents [] (map Fin v) -> exists p, is_prob (List.length v) (noncrossing_B v) p /\ near p).
Proof.
  intros V Hf H1 H2 Ha near. destruct (cli_new E fs prog f contents v) as [K1 K2]; auto.
  split; intros HH; [destruct (K1 HH) as (p & HP & HO)|destruct (K2 HH) as (p & HP & HO)]; exists p; (split; [exact HP|]);
    exact (exact_prints E p _ HS (is_prob_range _ _ _ HP) HO).
Qed.
Lemma exact_mns (v : list R) : valid_boundary v -> v <> [] -> long_double_ok E ->
  let near p := exists w, prints (cli_main E fs [prog; "ecdf1-mns2016"; f]) w /\
    Rabs (w - p) <= 5 / 1000000 * p /\ Rabs (w - p) <= 5 / 10000000 /\ 0 <= w <= 1 /\
    (1 - 5 / 10000000 <= p -> cli_main E fs [prog; "ecdf1-mns2016"; f] = Ok ([Text "1"], 0%Z)) in
  (file_holds (N := Xnum frexp) contents (map Fin v) [] -> exists p, is_prob (List.length v) (noncrossing_b v) p /\ near p) /\
  (file_holds (N := Xnum frexp) contents [] (map Fin v) -> exists p, is_prob (List.length v) (noncrossing_B v) p /\ near p).
Proof.
  intros V Hn Hl near. destruct (cli_mns E fs prog f contents v) as [K1 K2]; auto.
  split; intros HH; [destruct (K1 HH) as (p & HP & HO)|destruct (K2 HH) as (p & HP & HO)]; exists p; (split; [exact HP|]);
    exact (exact_prints E p _ HS (is_prob_range _ _ _ HP) HO).
Qed.
End Exact.

Section Rounded.
Context (L : libm) (E : env (Bnum L)) (frexp : xr -> Z) (fs : filesystem) (prog f contents : string).
Hypothesis HT : strtod_correct L.
Hypothesis HS : show_ok real_of_f64 E.
Hypothesis HF : fs f = Some contents.

Lemma rounded_two (eps epsf : R) (u : bool) (b B : list R) :
  libm_accurate L eps -> bpow radix2 (-53) <= eps ->
  (u = true -> fft_accurate E epsf /\ bpow radix2 (-53) <= epsf /\
     16384 * (INR (List.length b) * INR (List.length b)) * epsf <= 1) ->
  sort_ok E -> 65536 * (INR (List.length b) * INR (List.length b)) * eps <= 1 ->
  file_holds (N := Xnum frexp) contents (map Fin b) (map Fin B) ->
  valid_boundary b -> valid_boundary B -> Forall normal b -> Forall normal B -> List.length b = List.length B ->
  (asserts E = true -> forall i, (S i < List.length b)%nat -> nth i b 0 <= nth (S i) B 0) ->
  let tol := 40002 * (INR (List.length b) * INR (List.length b) * eps) +
      (if u then 10000 * (INR (List.length b) * INR (List.length b) * epsf) else bpow radix2 (-1000)) in
  tol <= 5 / 1000000 ->
  exists p w, is_noncrossing_probability b B p /\
    prints (@cli_main (Bnum L) E fs [prog; ecdf2_command u; f]) w /\ Rabs (w - p) <= tol + 5 / 10000000.
Proof.
  intros H1 H2 H3 H4 H5 H6 H7 H8 H9 H10 H11 H12 tol Ht.
  destruct (cli_two64 L E frexp fs prog f contents HT HF eps epsf u b B) as (p & r & HP & HO & Fr & HR); auto.
  destruct (binary64_prints E r p tol _ HS (is_prob_range _ _ _ (proj2 HP)) HO Fr HR Ht) as (w & HW & H).
  exists p, w. auto.
Qed.
Lemma rounded_new (eps epsf : R) (v : list R) :
  libm_accurate L eps -> bpow radix2 (-53) <= eps -> fft_accurate E epsf -> bpow radix2 (-53) <= epsf ->
  (1 <= List.length v)%nat -> (asserts E = true -> (2 <= List.length v)%nat) ->
  65536 * (INR (List.length v) * INR (List.length v) * sqrt (INR (List.length v))) * eps <= 1 ->
  16384 * (INR (List.length v) * INR (List.length v) * sqrt (INR (List.length v))) * epsf <= 1 ->
  valid_boundary v -> Forall normal v ->
  let tol := 60002 * (INR (List.length v) * INR (List.length v) * eps) + 9000 * (INR (List.length v) * INR (List.length v) * epsf) in
  tol <= 5 / 1000000 ->
  let near p := exists w, prints (@cli_main (Bnum L) E fs [prog; "ecdf1-new"; f]) w /\ Rabs (w - p) <= tol + 5 / 10000000 in
  (file_holds (N := Xnum frexp) contents (map Fin v) [] -> exists p, is_prob (List.length v) (noncrossing_b v) p /\ near p) /\
  (file_holds (N := Xnum frexp) contents [] (map Fin v) -> exists p, is_prob (List.length v) (noncrossing_B v) p /\ near p).
Proof.
  intros H1 H2 H3 H4 H5 H6 H7 H8 H9 H10 tol Ht near.
  destruct (cli_new64 L E frexp fs prog f contents HT HF eps epsf v) as [K1 K2]; auto.
  split; intros HH; [destruct (K1 HH) as (p & r & HP & HO & Fr & HR)|destruct (K2 HH) as (p & r & HP & HO & Fr & HR)]; exists p; (split; [exact HP|]);
    exact (binary64_prints E r p tol _ HS (is_prob_range _ _ _ HP) HO Fr HR Ht).
Qed.
End Rounded.

(** ** The crossprob_mc program in binary64 *)
Section Frequency.
Context (L : libm).
Lemma frequency64 c num : (0 <= c <= num)%Z -> (1 <= num <= INT_MAX)%Z ->
  exists r : f64, @n_sub (Bnum L) n1 (n_div (n_of_Z c) (n_of_Z num)) = r /\ is_finite r = true /\
    Rabs (B2R r - (1 - IZR c / IZR num)) <= bpow radix2 (-51) /\ B2R r <= 1.
Proof.
  intros Hc Hn. unfold INT_MAX in Hn.
  destruct (of_Z_ok c) as [Fc Vc]; [lia|]. destruct (of_Z_ok num) as [Fn Vn]; [lia|]. destruct one_ok as [F1 V1].
  assert (Pn : 0 < IZR num) by (apply IZR_lt; lia).
  assert (Q : 0 <= IZR c / IZR num <= 1).
  { split; [apply Rmult_le_pos; [apply IZR_le; lia|left; apply Rinv_0_lt_compat; exact Pn]|].
    apply Rmult_le_reg_r with (IZR num); [exact Pn|]. unfold Rdiv. rewrite Rmult_assoc, Rinv_l, Rmult_1_r, Rmult_1_l by lra. apply IZR_le. lia. }
  assert (B60 : 2 <= bpow radix2 60) by (change 2 with (bpow radix2 1); apply bpow_le; lia).
  destruct (div_err (b64_of_Z c) (b64_of_Z num)) as [FD ED].
  { exact Fc. } { rewrite Vn. lra. } { rewrite Vc, Vn, Rabs_pos_eq; lra. }
  rewrite Vc, Vn in ED. rewrite (Rabs_pos_eq (IZR c / IZR num)) in ED by lra.
  set (q := Bdiv mode_NE (b64_of_Z c) (b64_of_Z num)) in *.
  assert (U : u64 = bpow radix2 (-53)) by reflexivity. assert (Et : eta64 <= bpow radix2 (-60)) by (apply bpow_le; lia).
  assert (U60 : bpow radix2 (-60) <= / 128 * bpow radix2 (-53)).
  { change (-60)%Z with (-7 + -53)%Z. rewrite bpow_plus. simpl (bpow radix2 (-7)). pose proof (bpow_gt_0 radix2 (-53)). lra. }
  assert (U51 : bpow radix2 (-51) = 4 * bpow radix2 (-53)).
  { change (-51)%Z with (2 + -53)%Z. rewrite bpow_plus. simpl (bpow radix2 2). lra. }
  assert (US : 0 < bpow radix2 (-53) <= 1/100).
  { split; [apply bpow_gt_0|]. apply Rle_trans with (bpow radix2 (-7)); [apply bpow_le; lia|simpl; lra]. }
  rewrite U in ED. apply Rabs_le_inv in ED as ED'.
  assert (Q0 : 0 <= B2R q).
  { unfold q. pose proof (Bdiv_correct 53 1024 prec_ok emax_ok mode_NE (b64_of_Z c) (b64_of_Z num) ltac:(rewrite Vn; lra)) as H.
    cbn [round_mode] in H. rewrite Vc, Vn in H. rewrite no_overflow60 in H by (rewrite Rabs_pos_eq; lra). destruct H as (H & _).
    rewrite H. rewrite <- (round_0 radix2 (FLT_exp (-1074) 53) ZnearestE). apply round_le; [typeclasses eauto|typeclasses eauto|lra]. }
  destruct (minus_err (b64_of_Z 1) q F1 FD) as [FS ES].
  { rewrite V1. apply Rabs_le. nra. }
  rewrite V1 in ES. exists (Bminus mode_NE (b64_of_Z 1) q). split; [reflexivity|]. split; [exact FS|].
  assert (A : Rabs (1 - B2R q) <= 1 + 1/10) by (apply Rabs_le; nra).
  split.
  - rewrite U in ES. replace (B2R (Bminus mode_NE (b64_of_Z 1) q) - (1 - IZR c / IZR num)) with
      ((B2R (Bminus mode_NE (b64_of_Z 1) q) - (1 - B2R q)) - (B2R q - IZR c / IZR num)) by ring.
    eapply Rle_trans; [apply Rabs_triang|]. rewrite Rabs_Ropp. rewrite U51. nra.
  - pose proof (Bminus_correct 53 1024 prec_ok emax_ok mode_NE (b64_of_Z 1) q F1 FD) as H.
    cbn [round_mode] in H. rewrite V1 in H. rewrite no_overflow60 in H by (apply Rabs_le; nra). destruct H as (H & _). rewrite H.
    apply Rle_trans with (rnd 1); [apply round_le; [typeclasses eauto|typeclasses eauto|lra]|]. right. apply (bpow_format 0). lia.
Qed.
Lemma seed64 n : (0 <= n <= 2147)%Z -> seed_converts (N := Bnum L) (n_of_Z n) (n * 1000000).
Proof.
  intros H. split; [|unfold INT_MIN, INT_MAX; lia].
  destruct (of_Z_ok n) as [Fn Vn]; [lia|]. destruct (of_Z_ok 1000000) as [Fm Vm]; [lia|]. destruct (of_Z_ok (n * 1000000)) as [Fp Vp]; [lia|].
  change (b64_trunc (Bmult mode_NE (b64_of_Z n) (b64_of_Z 1000000)) = Some (n * 1000000)%Z).
  pose proof (Bmult_correct 53 1024 prec_ok emax_ok mode_NE (b64_of_Z n) (b64_of_Z 1000000)) as M.
  cbn [round_mode] in M. rewrite Vn, Vm, <- mult_IZR, <- Vp in M. rewrite (round_generic _ _ _ (B2R (b64_of_Z (n * 1000000)))) in M by apply generic_format_B2R.
  rewrite Rlt_bool_true in M by (rewrite Vp, <- abs_IZR; change (bpow radix2 1024) with (IZR (2 ^ 1024)); apply IZR_lt; lia).
  destruct M as (M1 & M2 & _). unfold b64_trunc. rewrite M2, Fn, Fm. cbn [andb]. f_equal. apply eq_IZR.
  rewrite (Btrunc_correct 53 1024 emax_ok), round_FIX_IZR, M1, Vp, Ztrunc_IZR. reflexivity.
Qed.
End Frequency.

Section McPrints.
Context (L : libm) (E : env (Bnum L)).
Hypothesis HS : show_ok real_of_f64 E.
Notation BN := (Bnum L).
Lemma frequency_prints c num o : (0 <= c <= num)%Z -> (1 <= num <= INT_MAX)%Z ->
  o = Ok ([Text (show_double E (@n_sub BN n1 (n_div (n_of_Z c) (n_of_Z num))))], 0%Z) ->
  exists w, prints o w /\ Rabs (w - (1 - IZR c / IZR num)) <= 5 / 10000000 + bpow radix2 (-51) /\
    ((num < 1000000)%Z -> Rabs (IZR num * (1 - w) - IZR c) < 1/2).
Proof.
  intros Hc Hn ->. destruct (frequency64 L c num Hc Hn) as (r & -> & Fr & Hr & R1).
  pose proof (HS (r : car BN) (B2R r) (conj Fr eq_refl)) as P.
  assert (S51 : 0 < bpow radix2 (-51) <= 1 / 1000000000000000).
  { split; [apply bpow_gt_0|]. change (-51)%Z with (-(51))%Z. rewrite bpow_opp. change (bpow radix2 51) with 2251799813685248. lra. }
  assert (Pn : 0 < IZR num) by (apply IZR_lt; lia).
  assert (Q : 0 <= IZR c / IZR num <= 1).
  { split; [apply Rmult_le_pos; [apply IZR_le; lia|left; apply Rinv_0_lt_compat; exact Pn]|].
    apply Rmult_le_reg_r with (IZR num); [exact Pn|]. unfold Rdiv. rewrite Rmult_assoc, Rinv_l, Rmult_1_r, Rmult_1_l by lra. apply IZR_le. lia. }
  apply Rabs_le_inv in Hr as Hr'.
  destruct (printed_reads _ _ P) as (w & HW & _ & HB & _). exists w. split; [eexists; split; [reflexivity|exact HW]|].
  assert (K : Rabs (w - (1 - IZR c / IZR num)) <= 5 / 10000000 + bpow radix2 (-51)).
  { replace (w - (1 - IZR c / IZR num)) with ((w - B2R r) + (B2R r - (1 - IZR c / IZR num))) by ring.
    eapply Rle_trans; [apply Rabs_triang|]. apply Rplus_le_compat; [|exact Hr]. apply HB. apply Rabs_le. lra. }
  split; [exact K|]. intros Hs.
  replace (IZR num * (1 - w) - IZR c) with (- (IZR num * (w - (1 - IZR c / IZR num)))) by (field; lra).
  rewrite Rabs_Ropp, Rabs_mult, (Rabs_pos_eq (IZR num)) by lra.
  assert (IZR num <= 999999) by (apply IZR_le; lia). pose proof (Rabs_pos (w - (1 - IZR c / IZR num))). nra.
Qed.

Lemma mc_ecdf_prints64 uninit now fs prog f nsim num contents (b B : list (car BN)) :
  nul_free nsim -> integer_text nsim num -> (1 <= num <= INT_MAX)%Z -> fs f = Some contents -> file_holds contents b B ->
  (b <> [] \/ B <> []) -> (b = [] \/ (size B <= size b)%Z) ->
  let n := Z.max (size b) (size B) in
  exists cs, Z.of_nat (List.length cs) = num /\
    simulations (does_random_ecdf_cross (N := BN) b B (Z.to_nat n)) (rng_make uninit (now + n * 2 ^ 20)) cs /\
    forall fuel, (Z.to_nat num <= fuel)%nat -> exists w,
      prints (mc_main E fuel uninit now fs [prog; "ecdf"; f; nsim]) w /\
      Rabs (w - (1 - IZR (crossings cs) / IZR num)) <= 5 / 10000000 + bpow radix2 (-51) /\
      ((num < 1000000)%Z -> Rabs (IZR num * (1 - w) - IZR (crossings cs)) < 1/2).
Proof.
  intros HN HI Hnum HF HH NE Hb n.
  assert (Hn : (1 <= n)%Z).
  { unfold n, size. destruct b, B; cbn [List.length]; try lia. destruct NE; congruence. }
  destruct (ecdf_estimate (N := BN) uninit now n b B num) as (cs & HL & S & V); try (unfold n; lia).
  { destruct Hb as [->|Hb]; [left; reflexivity|right; unfold n; lia]. }
  exists cs. split; [exact HL|]. split; [exact S|]. intros fuel Hf.
  destruct (mc_run E fuel uninit now fs prog "ecdf" f nsim num contents b B HN HI) as (R & _); auto; [unfold INT_MAX in Hnum; lia|].
  specialize (R eq_refl _ (V fuel Hf)).
  apply frequency_prints; [pose proof (crossings_range cs); lia|exact Hnum|exact R].
Qed.
Lemma mc_poisson_prints64 uninit now fs prog f nsim num contents (b B : list (car BN)) :
  nul_free nsim -> integer_text nsim num -> (1 <= num <= INT_MAX)%Z -> fs f = Some contents -> file_holds contents b B ->
  (b = [] \/ (size B <= size b)%Z) ->
  let n := Z.max (size b) (size B) in
  (n <= 2147)%Z ->
  exists cs, Z.of_nat (List.length cs) = num /\
    simulations (does_random_poisson_process_cross (N := BN) b B (@n_div BN n1 (n_of_Z n))) (rng_make uninit (now + n * 1000000)) cs /\
    forall fuel, (Z.to_nat num <= fuel)%nat -> exists w,
      prints (mc_main E fuel uninit now fs [prog; "poisson"; f; nsim]) w /\
      Rabs (w - (1 - IZR (crossings cs) / IZR num)) <= 5 / 10000000 + bpow radix2 (-51) /\
      ((num < 1000000)%Z -> Rabs (IZR num * (1 - w) - IZR (crossings cs)) < 1/2).
Proof.
  intros HN HI Hnum HF HH Hb n Hk.
  destruct (poisson_estimate (N := BN) uninit now (n_of_Z n) b B num (n * 1000000) Hb) as (cs & HL & S & V); [apply seed64; unfold n, size in *; lia|lia|].
  exists cs. split; [exact HL|]. split; [exact S|]. intros fuel Hf.
  destruct (mc_run E fuel uninit now fs prog "poisson" f nsim num contents b B HN HI) as (_ & R & _); auto; [unfold INT_MAX in Hnum; lia|].
  specialize (R eq_refl _ (V fuel Hf)).
  apply frequency_prints; [pose proof (crossings_range cs); lia|exact Hnum|exact R].
Qed.
End McPrints.
