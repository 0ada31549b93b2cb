(** * FastShow: the digits the crossprob program prints when compiled with -ffast-math; Kolmogorov-Smirnov p-values from a file. *)
From Coquelicot Require Import Coquelicot.
From Flocq Require Import Core.Core IEEE754.BinarySingleNaN.
From Coq Require Import ZArith Reals List Bool Lia Lra String Permutation Sorted.
From Verif Require Import Base Num XReal StringUtils MonteCarlo Cli Spec SpecFacts StringSpec CliSpec CliFacts Ecdf2 XEcdf2Main Cases StrtodSpec Binary64 Binary64Facts B64Round.
From Verif Require Import LongDouble AccMnsEval AccMnsCase AccCases AccCli AccCliCase ShowSpec ShowFacts ShowMore ShowCli ShowCases FastSuite GofSpec GofKs ProbSums.
From Verif Require Import FastMath FastInst FastMain FastFft FastFftMain FastNewFinal FastLong FastMnsCase FastCli FastMnsCli GofFast.
Import List. Import ListNotations.
Local Open Scope R_scope.
Local Open Scope string_scope.

(** A number within tol of a probability, written with six digits. *)
Lemma printed_within (v : R) s p tol : printed v s -> 0 <= p <= 1 -> Rabs (v - p) <= tol ->
  exists w, text_value s w /\ (tol <= 1 -> Rabs (w - p) <= tol + 1 / 100000) /\
    (tol <= 5 / 1000000 -> Rabs (w - p) <= tol + 5 / 10000000).
Proof.
  intros P Hp Hv. destruct (Rle_lt_dec tol (5 / 1000000)) as [Ht|Ht].
  - destruct (ShowCli.printed_near v s p tol P Hp Hv Ht) as (w & HW & H). exists w. split; [exact HW|]. split; intros; [lra|exact H].
  - destruct (printed_reads v s P) as (w & HW & HB & _). exists w. split; [exact HW|]. split; [|lra]. intros H1.
    replace (w - p) with ((w - v) + (v - p)) by ring. eapply Rle_trans; [apply Rabs_triang|].
    assert (Rabs v <= 2) by (apply Rabs_le_inv in Hv; apply Rabs_le; lra). lra.
Qed.

Section Fast.
Context (C : compiler) (L : libm) (E : env (Fnum C L)) (frexp : xr -> Z) (fs : filesystem) (prog f contents : string) (show : f64 -> string).
Context (HT : strtod_correct L) (Hshow : forall r, @show_double (Fnum C L) E r = show (cp_sum C r))
  (HS : forall x : f64, is_finite x = true -> printed (B2R x) (show x)) (HF : fs f = Some contents).
Notation FN := (Fnum C L).

Definition prints_near (o : outcome (list item * Z)) (p tol : R) : Prop :=
  exists w, prints o w /\ (tol <= 1 -> Rabs (w - p) <= tol + 1 / 100000) /\ (tol <= 5 / 1000000 -> Rabs (w - p) <= tol + 5 / 10000000).
Lemma near_of (o : outcome (list item * Z)) (r : f64) p tol : 0 <= p <= 1 -> o = Ok ([Text (show r)], 0%Z) -> is_finite r = true ->
  Rabs (B2R r - p) <= tol -> prints_near o p tol.
Proof.
  intros Hp -> Fr Hr. destruct (printed_within _ _ p tol (HS r Fr) Hp Hr) as (w & HW & H). exists w. split; [|exact H].
  eexists. split; [reflexivity|exact HW].
Qed.

Lemma fast_shows_two eps epsf use_fft (b B : list R) :
  fast_libm_accurate (cp_flush C) L eps -> bpow radix2 (-51) <= eps -> fft_hyp_fast C L E use_fft (List.length b) epsf ->
  sort_ok E -> 65536 * (INR (List.length b) * INR (List.length b)) * eps <= 1 ->
  file_holds (N := Xnum frexp) contents (map Fin b) (map Fin B) ->
  valid_boundary b -> valid_boundary B -> Forall plain b -> Forall plain B -> List.length b = List.length B -> (1 <= List.length b)%nat ->
  (asserts E = true -> forall i, (S i < List.length b)%nat -> nth i b 0 <= nth (S i) B 0) ->
  exists p, is_noncrossing_probability b B p /\
    prints_near (@cli_main FN E fs [prog; ecdf2_command use_fft; f]) p (two_bound_fast use_fft (List.length b) eps epsf).
Proof.
  intros H1 H2 H3 H4 H5 H6 H7 H8 H9 H10 H11 H12 H13.
  destruct (cli_two_fast C L E frexp fs prog f contents show HT Hshow HF eps epsf use_fft b B) as (p & r & HP & HO & Fr & HR); auto.
  exists p. split; [exact HP|]. exact (near_of _ r p _ (is_prob_range _ _ _ (proj2 HP)) HO Fr HR).
Qed.
Lemma fast_shows_one eps epsf use_fft (v : list R) :
  fast_libm_accurate (cp_flush C) L eps -> bpow radix2 (-51) <= eps -> fft_hyp_fast C L E use_fft (List.length v) epsf ->
  sort_ok E -> 65536 * (INR (List.length v) * INR (List.length v)) * eps <= 1 -> valid_boundary v -> Forall plain v -> v <> [] ->
  let near p := prints_near (@cli_main FN E fs [prog; ecdf2_command use_fft; f]) p (two_bound_fast use_fft (List.length v) eps epsf) in
  (file_holds (N := Xnum frexp) contents (map Fin v) [] -> exists p, is_prob (List.length v) (noncrossing_b v) p /\ near p) /\
  (file_holds (N := Xnum frexp) contents [] (map Fin v) -> exists p, is_prob (List.length v) (noncrossing_B v) p /\ near p).
Proof.
  intros H1 H2 H3 H4 H5 H6 H7 H8 near. split; intros HH.
  - destruct (cli_two_fast_b C L E frexp fs prog f contents show HT Hshow HF eps epsf use_fft v) as (p & r & HP & HO & Fr & HR); auto.
    exists p. split; [exact HP|]. exact (near_of _ r p _ (is_prob_range _ _ _ HP) HO Fr HR).
  - destruct (cli_two_fast_B C L E frexp fs prog f contents show HT Hshow HF eps epsf use_fft v) as (p & r & HP & HO & Fr & HR); auto.
    exists p. split; [exact HP|]. exact (near_of _ r p _ (is_prob_range _ _ _ HP) HO Fr HR).
Qed.
Lemma fast_shows_new eps epsf (B : list R) :
  fast_libm_accurate (cp_flush C) L eps -> bpow radix2 (-51) <= eps ->
  fast_fft_accurate C L E epsf -> bpow radix2 (-50) <= epsf -> fft_stores C L E ->
  (1 <= List.length B)%nat -> (asserts E = true -> (2 <= List.length B)%nat) ->
  65536 * (INR (List.length B) * INR (List.length B) * sqrt (INR (List.length B))) * eps <= 1 ->
  16384 * (INR (List.length B) * INR (List.length B) * sqrt (INR (List.length B))) * epsf <= 1 ->
  file_holds (N := Xnum frexp) contents [] (map Fin B) -> valid_boundary B -> Forall plain B ->
  exists p, is_prob (List.length B) (noncrossing_B B) p /\
    prints_near (@cli_main FN E fs [prog; "ecdf1-new"; f]) p
      (60001 * (INR (List.length B) * INR (List.length B) * eps) + 9000 * (INR (List.length B) * INR (List.length B) * epsf) + bpow radix2 (-1022)).
Proof.
  intros H1 H2 H3 H4 H5 H6 H7 H8 H9 H10 H11 H12.
  destruct (cli_new_fast_B C L E frexp fs prog f contents show HT Hshow HF eps epsf B) as (p & r & HP & HO & Fr & HR); auto.
  exists p. split; [exact HP|]. exact (near_of _ r p _ (is_prob_range _ _ _ HP) HO Fr HR).
Qed.
Lemma fast_shows_mns (D : lcompiler) (M : libml) (eps : R) (v : list R) :
  libml_accurate M eps -> bpow radix2 (-64) <= eps -> eps <= bpow radix2 (-40) -> long_dbl E = fast87 C L D M ->
  (1 <= List.length v <= 4096)%nat -> valid_boundary v -> Forall plain v ->
  let N := INR (S (List.length v)) in
  let nu := INR (List.length v) * INR (List.length v) * bpow radix2 (-53) in
  (file_holds (N := Xnum frexp) contents (map Fin v) [] ->
   exists p, is_prob (List.length v) (noncrossing_b v) p /\ ((56 * (N * N) + 57 * N) * eps + nu < p ->
    prints_near (@cli_main FN E fs [prog; "ecdf1-mns2016"; f]) p ((56 * (N * N) + 410 * N) * eps + bpow radix2 (-52) + nu))) /\
  (file_holds (N := Xnum frexp) contents [] (map Fin v) ->
   exists p, is_prob (List.length v) (noncrossing_B v) p /\ ((56 * (N * N) + 57 * N) * eps + 2 * nu < p ->
    prints_near (@cli_main FN E fs [prog; "ecdf1-mns2016"; f]) p ((56 * (N * N) + 410 * N) * eps + bpow radix2 (-52) + 2 * nu))).
Proof.
  intros H1 H2 H3 H4 H5 H6 H7 N nu.
  destruct (cli_mns_fast C L E frexp fs prog f contents show HT Hshow HF D M eps v H1 H2 H3 H4 H5 H6 H7) as [K1 K2].
  split; intros HH.
  - destruct (K1 HH) as (p & r & HP & HO & HR). exists p. split; [exact HP|]. intros Hlt. destruct (HR Hlt) as [Fr Vr].
    exact (near_of _ r p _ (is_prob_range _ _ _ HP) HO Fr Vr).
  - destruct (K2 HH) as (p & r & HP & HO & HR). exists p. split; [exact HP|]. intros Hlt. destruct (HR Hlt) as [Fr Vr].
    exact (near_of _ r p _ (is_prob_range _ _ _ HP) HO Fr Vr).
Qed.

(** A file with the boundaries of a Kolmogorov-Smirnov test, up to delta. *)
Lemma fast_shows_ks (n : nat) (d delta : R) (b B : list R) (use_fft : bool) :
  fast_libm_accurate (cp_flush C) L (bpow radix2 (-50)) -> (use_fft = true -> fast_fft_accurate C L E (bpow radix2 (-47))) -> sort_ok E ->
  (1 <= n <= 1000)%nat -> 2 * delta <= d -> 2 * delta <= 1 -> 0 <= d ->
  file_holds (N := Xnum frexp) contents (map Fin b) (map Fin B) ->
  valid_boundary b -> valid_boundary B -> Forall plain b -> Forall plain B ->
  close delta b (ks_lower n d) -> close delta B (ks_upper n d) ->
  exists p w, is_prob n (fun l => ~ ks_at_most d l) p /\ prints (@cli_main FN E fs [prog; ecdf2_command use_fft; f]) w /\
    Rabs (w - (1 - p)) <= 11 / 100000 + 2 * (INR n * (INR n * delta)).
Proof.
  intros HL HFF Hs Hn Hd1 Hd2 Hd Hh Vb VB Nb NB Wb WB.
  assert (Lb : List.length b = n) by exact (eq_trans (proj1 Wb) (ks_lower_length n d)).
  assert (LB : List.length B = n) by exact (eq_trans (proj1 WB) (ks_upper_length n d)).
  destruct (cli_two_fast_1000 C L E frexp fs prog f contents show HT Hshow HF use_fft b B) as (q & r & Hq & HO & Fr & HR); auto; try lia.
  { intros _ i Hi. apply (ks_asserts n d delta); auto; lia. }
  destruct (near_of _ r q _ (is_prob_range _ _ _ (proj2 Hq)) HO Fr HR) as (w & HW & H1 & _). specialize (H1 ltac:(lra)).
  destruct (ks_from_two n d delta b B q ltac:(lia) Hd Vb VB Wb WB Hq) as (p & Hp & Ep). exists p, w. split; [exact Hp|]. split; [exact HW|].
  replace (w - (1 - p)) with ((w - q) + (q - (1 - p))) by ring. eapply Rle_trans; [apply Rabs_triang|]. lra.
Qed.
End Fast.

(** ** The file "0, 0.5" / "0.5, 1": two points, d = 1/2 *)
Definition half_text : string := "0, 0.5" ++ String newline ("0.5, 1" ++ String newline "").
Definition half_fs (f : string) : option string := if f =? "ks.txt" then Some half_text else None.
Definition half_b : list R := [0; 1/2].
Definition half_B : list R := [1/2; 1].
Lemma half_bands : ks_lower 2 (1 / 2) = half_b /\ ks_upper 2 (1 / 2) = half_B.
Proof.
  unfold ks_lower, ks_upper, half_b, half_B. simpl. split.
  - rewrite (Rmax_left 0) by lra. rewrite Rmax_right by lra. f_equal. f_equal. lra.
  - rewrite !Rmin_right by lra. f_equal; [lra|]. f_equal. lra.
Qed.
Lemma half_holds : file_holds (N := Xnum some_frexp) half_text (map Fin half_b) (map Fin half_B).
Proof.
  assert (X : read_and_check_boundaries_file (N := Xnum some_frexp) half_fs "ks.txt" =
    Ok ([Fin (1 * IZR 0 * powerRZ 10 0); Fin (1 * IZR 5 * powerRZ 10 (-1))],
        [Fin (1 * IZR 5 * powerRZ 10 (-1)); Fin (1 * IZR 1 * powerRZ 10 0)])) by read_text.
  assert (V0 : 1 * IZR 0 * powerRZ 10 0 = 0) by (simpl; lra). assert (V5 : 1 * IZR 5 * powerRZ 10 (-1) = 1/2) by (simpl; lra).
  assert (V1 : 1 * IZR 1 * powerRZ 10 0 = 1) by (simpl; lra). rewrite V0, V5, V1 in X.
  destruct (holds_read (N := Xnum some_frexp) half_fs "ks.txt" (map Fin half_b) (map Fin half_B) X) as (c & Fc & H). cbn in Fc. injection Fc as <-. exact H.
Qed.
Lemma half_event (x y : R) : 0 <= x <= 1 -> 0 <= y <= 1 ->
  noncrossing half_b half_B [x; y] <-> (x <= 1/2 /\ 1/2 <= y \/ y <= 1/2 /\ 1/2 <= x).
Proof.
  intros Hx Hy. unfold half_b, half_B. split.
  - intros (o & HP & HS & HB & HT). inversion HB as [|? u ? t H0 HF1]; subst. inversion HF1 as [|? v ? t' H1 HF2]; subst. inversion HF2; subst.
    inversion HT as [|? ? ? ? G0 GF1]; subst. inversion GF1 as [|? ? ? ? G1 GF2]; subst.
    apply Permutation_length_2_inv in HP. destruct HP as [HP|HP]; injection HP as ? ?; subst; auto.
  - intros H. destruct (Rle_or_lt x y) as [Hxy|Hxy].
    + exists [x; y]. split; [apply Permutation_refl|]. repeat split; repeat first [apply Sorted_nil|apply Sorted_cons|apply HdRel_nil|apply HdRel_cons|apply Forall2_nil|apply Forall2_cons]; lra.
    + exists [y; x]. split; [apply perm_swap|]. repeat split; repeat first [apply Sorted_nil|apply Sorted_cons|apply HdRel_nil|apply HdRel_cons|apply Forall2_nil|apply Forall2_cons]; lra.
Qed.
Lemma halves (g : R -> R) u w : (forall t, 0 < t < 1/2 -> g t = u) -> (forall t, 1/2 < t < 1 -> g t = w) -> is_RInt g 0 1 (u * (1/2) + w * (1/2)).
Proof.
  intros H1 H2. apply (is_RInt_Chasles_R _ 0 (1/2) 1 (u * (1/2)) (w * (1/2))); [| |lra].
  - eapply is_RInt_ext; [|apply (is_RInt_const_eq u); lra]. intros t Ht. rewrite Rmin_left, Rmax_right in Ht by lra. symmetry. apply H1, Ht.
  - eapply is_RInt_ext; [|apply (is_RInt_const_eq w); lra]. intros t Ht. rewrite Rmin_left, Rmax_right in Ht by lra. symmetry. apply H2, Ht.
Qed.
Lemma half_known : is_prob 2 (noncrossing half_b half_B) (1 / 2).
Proof.
  cbn [is_prob]. exists (fun x => if Req_EM_T x (1/2) then 1 else 1/2). split.
  - intros x Hx. exists (fun y => if Rle_dec x (1/2) then (if Rle_dec (1/2) y then 1 else if Rle_dec (1/2) x then 1 else 0) else if Rle_dec y (1/2) then 1 else 0). split.
    + intros y Hy. pose proof (half_event x y ltac:(lra) ltac:(lra)) as He.
      destruct (Rle_dec x (1/2)); [destruct (Rle_dec (1/2) y); [|destruct (Rle_dec (1/2) x)]|destruct (Rle_dec y (1/2))];
        first [left; split; [rewrite He; lra|reflexivity]|right; split; [rewrite He; lra|reflexivity]].
    + destruct (Req_EM_T x (1/2)) as [->|N].
      * apply (is_RInt_val _ _ _ (1 * (1/2) + 1 * (1/2))); [|lra]. apply halves; intros t Ht;
          destruct (Rle_dec (1/2) (1/2)); try lra; destruct (Rle_dec (1/2) t); reflexivity.
      * destruct (Rle_dec x (1/2)) as [Hh|Hh].
        -- apply (is_RInt_val _ _ _ (0 * (1/2) + 1 * (1/2))); [|lra]. apply halves; intros t Ht;
             destruct (Rle_dec (1/2) t); destruct (Rle_dec (1/2) x); lra.
        -- apply (is_RInt_val _ _ _ (1 * (1/2) + 0 * (1/2))); [|lra]. apply halves; intros t Ht; destruct (Rle_dec t (1/2)); lra.
  - apply (is_RInt_val _ _ _ (1/2 * (1/2) + 1/2 * (1/2))); [|lra]. apply halves; intros t Ht; destruct (Req_EM_T t (1/2)); lra.
Qed.
Lemma half_prob : is_prob 2 (fun l => ~ ks_at_most (1 / 2) l) (1 / 2).
Proof.
  pose proof (is_prob_not 2 _ _ half_known) as H. destruct half_bands as [E1 E2]. replace (1 - 1 / 2) with (1 / 2) in H by lra.
  apply (is_prob_ext 2 (fun l => ~ noncrossing half_b half_B l)); [|exact H].
  intros l Hl HR. rewrite (ks_event 2 (1 / 2) l) by (auto; lra || lia). rewrite E1, E2. tauto.
Qed.

(** ** Concrete cases *)
Lemma half_case (flush use_fft : bool) : exists w,
  prints (cli_main (fast_text_env (simd_compiler flush) show_f64 true) half_fs ["crossprob"; ecdf2_command use_fft; "ks.txt"]) w /\ Rabs (w - 1 / 2) <= 11 / 100000.
Proof.
  assert (P0 : plain 0) by (left; reflexivity).
  assert (VB : valid_boundary half_b /\ valid_boundary half_B) by (unfold half_b, half_B; split; (split; [repeat constructor; lra|repeat constructor; lra])).
  assert (PB : Forall plain half_b /\ Forall plain half_B).
  { unfold half_b, half_B. split; (apply Forall_cons; [try exact P0; apply big_plain; lra|apply Forall_cons; [apply big_plain; lra|apply Forall_nil]]). }
  destruct half_bands as [E1 E2].
  assert (CL : forall v, close 0 v v) by (intros v; split; [reflexivity|]; intros i _; rewrite Rminus_diag_eq, Rabs_R0 by reflexivity; lra).
  destruct (fast_shows_ks (simd_compiler flush) text_libm (fast_text_env (simd_compiler flush) show_f64 true) some_frexp half_fs "crossprob" "ks.txt" half_text show_f64
    text_strtod (fast_text_show _ _ _) show_f64_ok eq_refl 2 (1 / 2) 0 half_b half_B use_fft (text_fast flush) (fun _ => fast_text_fft _ _ _) (fast_text_sort _ _ _)) as (p & w & Hp & HW & HB);
    try tauto; try lra; try lia.
  - exact half_holds.
  - rewrite E1. apply CL.
  - rewrite E2. apply CL.
  - exists w. split; [exact HW|]. rewrite (is_prob_unique _ _ _ _ Hp half_prob) in HB. simpl INR in HB.
    replace (1 / 2) with (1 - 1 / 2) by lra. eapply Rle_trans; [exact HB|]. lra.
Qed.
Lemma shows_case (flush : bool) : exists p w, is_noncrossing_probability text_b text_B p /\ prints (cli_main (fast_text_env (simd_compiler flush) show_f64 true) text_fs ["crossprob"; "ecdf2-mn2017"; "two.txt"]) w /\ Rabs (w - p) <= 6 / 10000000.
Proof.
  assert (V50 : bpow radix2 (-50) = / 1125899906842624) by reflexivity.
  assert (V47 : bpow radix2 (-47) = / 140737488355328) by reflexivity.
  assert (V900 : bpow radix2 (-900) <= / 1125899906842624) by (rewrite <- V50; apply bpow_le; lia).
  destruct (fast_shows_two (simd_compiler flush) text_libm (fast_text_env (simd_compiler flush) show_f64 true) some_frexp text_fs "crossprob" "two.txt" two_text show_f64
    text_strtod (fast_text_show _ _ _) show_f64_ok eq_refl (bpow radix2 (-50)) (bpow radix2 (-47)) true text_b text_B (text_fast flush)) as (p & Hp & w & HW & _ & HB).
  - apply bpow_le. lia.
  - intros _. split; [apply fast_text_fft|]. split; [apply bpow_le; lia|]. rewrite V47. simpl. lra.
  - apply fast_text_sort.
  - rewrite V50. simpl. lra.
  - exact two_holds.
  - apply text_valid.
  - apply text_valid.
  - apply text_plain.
  - apply text_plain.
  - reflexivity.
  - simpl. lia.
  - intros _. exact text_no_gap.
  - exists p, w. split; [exact Hp|]. split; [exact HW|].
    assert (HT : two_bound_fast true (List.length text_b) (bpow radix2 (-50)) (bpow radix2 (-47)) <= 1 / 100000000).
    { unfold two_bound_fast. rewrite V50, V47. change (List.length text_b) with 2%nat. simpl INR. lra. }
    eapply Rle_trans; [apply HB; lra|]. lra.
Qed.
Lemma ks_case (flush use_fft : bool) : let C := simd_compiler flush in let E := fast_fft_env C AccCases.cr_libm true in
  exists r, @ecdf2 (Fnum C AccCases.cr_libm) E (map lit (map of_R half_b)) (map lit (map of_R half_B)) use_fft = Ok r /\ is_finite (cp_sum C r) = true /\ Rabs (B2R (cp_sum C r) - 1 / 2) <= 2 / 10000.
Proof.
  intros C E. destruct half_bands as [E1 E2].
  assert (VB : valid_boundary half_b /\ valid_boundary half_B) by (rewrite <- E1, <- E2; split; [apply ks_lower_valid|apply ks_upper_valid]; lra).
  assert (P0 : forall v, plain v -> v = 0 \/ bpow radix2 (-900) <= v) by (intros v H; exact H).
  assert (PB : Forall (fun t => t = 0 \/ bpow radix2 (-900) <= t) half_b /\ Forall (fun t => t = 0 \/ bpow radix2 (-900) <= t) half_B).
  { unfold half_b, half_B. split; (apply Forall_cons; [try (left; reflexivity); apply P0, big_plain; lra|apply Forall_cons; [apply P0, big_plain; lra|apply Forall_nil]]). }
  assert (V52 : bpow radix2 (-52) = / 4503599627370496) by reflexivity.
  destruct (GofAcc.rounded_within _ (proj1 VB)) as [A1 W1]. destruct (GofAcc.rounded_within _ (proj2 VB)) as [A2 W2].
  destruct (ks_two_sided_fast C AccCases.cr_libm E 2 (1 / 2) (bpow radix2 (-52)) (map of_R half_b) (map of_R half_B) use_fft) as (p & r & Hp & Hr & Fr & HB);
    auto using rounded_plain; try (rewrite V52; lra); try lia; try lra.
  - apply cr_fast.
  - intros _. apply fast_fft_ok.
  - apply fast_fft_sort.
  - apply rounded_plain; tauto.
  - apply rounded_plain; tauto.
  - rewrite E1. exact W1.
  - rewrite E2. exact W2.
  - exists r. split; [exact Hr|]. split; [exact Fr|]. rewrite (is_prob_unique _ _ _ _ Hp half_prob) in HB. simpl INR in HB. rewrite V52 in HB.
    replace (1 / 2) with (1 - 1 / 2) by lra. eapply Rle_trans; [exact HB|]. lra.
Qed.
