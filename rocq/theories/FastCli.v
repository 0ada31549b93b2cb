(** * FastCli: the crossprob program as compiled with -ffast-math, from the text of the file to the number printed. *)
From Coquelicot Require Import Coquelicot.
From Flocq Require Import Core.Core IEEE754.BinarySingleNaN Relative.
From Coq Require Import ZArith Reals List Bool Lia Lra String Sorted.
From Verif Require Import Base Num XReal Common Ecdf2 Ecdf1New StringUtils MonteCarlo Cli.
From Verif Require Import Spec StringSpec CliSpec CliFacts XCommon XFft ExactEnv ExactFacts SpecFacts XEcdf2Main MnsMath NewMath Reflect Cases.
From Verif Require Import StrtodSpec FastInst Binary64 Binary64Facts B64Round AccPmf AccCli AccCliCase FastMath FastMain FastFft FastFftMain FastNewFinal.
Import List. Import ListNotations.
Local Open Scope R_scope.

(** 0 or at least 2^-900 *)
Definition plain (v : R) : Prop := v = 0 \/ bpow radix2 (-900) <= v.
Lemma plain_normal b : Forall plain b -> Forall normal b.
Proof.
  apply Forall_impl. intros v [H|H]; [left; exact H|right]. eapply Rle_trans; [|exact H]. apply bpow_le. lia.
Qed.
Lemma plain_rnd v : plain v -> plain (rnd v).
Proof.
  intros [->|H]; [left; apply rnd_0|right]. rewrite <- (bpow_format (-900)) by lia. apply rnd_le. exact H.
Qed.
Lemma plain_01 v n : v = 0 \/ v = 1 -> Forall plain (repeat v n).
Proof.
  intros Hv. apply Forall_forall. intros x Hx. apply repeat_spec in Hx. subst x.
  destruct Hv as [->| ->]; [left; reflexivity|right; apply (bpow_le radix2 (-900) 0); lia].
Qed.
Lemma plain_read (b : list R) (b6 : list f64) : map B2R b6 = map (fun v => rnd v) b -> Forall plain b ->
  Forall (fun x : f64 => B2R x = 0 \/ bpow radix2 (-900) <= B2R x) b6.
Proof.
  revert b6. induction b as [|v b IH]; intros [|x b6] H Hb; try discriminate; [constructor|].
  cbn [map] in H. injection H as H1 H2. inversion Hb; subst. constructor; [|apply IH; assumption].
  change (plain (B2R x)). rewrite H1. apply plain_rnd. assumption.
Qed.

Section Fast.
Context (C : compiler) (L : libm) (E : env (Fnum C L)).
Notation FN := (Fnum C L).

(** Reading: the same numbers, not yet part of an expression. *)
Lemma ffield q (x : f64) : field_value (N := Bnum L) q x -> field_value (N := FN) q (lit x).
Proof.
  intros (t & p & l & rest & H1 & H2 & H3). exists t, p, l, rest. split; [exact H1|]. split; [exact H2|].
  change ((lit (fst (lm_strtod L l)), snd (lm_strtod L l)) = (lit x, false)). change (lm_strtod L l = (x, false)) in H3.
  rewrite H3. reflexivity.
Qed.
Lemma ffields qs : forall b : list f64, Forall2 (field_value (N := Bnum L)) qs b -> Forall2 (field_value (N := FN)) qs (map lit b).
Proof. induction qs as [|q qs IH]; intros b H; inversion H; subst; cbn [map]; constructor; [apply ffield; assumption|apply IH; assumption]. Qed.
Lemma ffile contents (b B : list f64) : file_holds (N := Bnum L) contents b B -> file_holds (N := FN) contents (map lit b) (map lit B).
Proof.
  intros (l1 & l2 & H & (p1 & q1 & A1 & A2 & A3) & (p2 & q2 & B1 & B2 & B3)).
  exists l1, l2. split; [exact H|]. split; [exists p1, q1|exists p2, q2]; (split; [assumption|]); (split; [assumption|]); apply ffields; assumption.
Qed.

Definition fft_hyp_fast (use_fft : bool) (n : nat) (epsf : R) : Prop :=
  use_fft = true -> fast_fft_accurate C L E epsf /\ bpow radix2 (-50) <= epsf /\ 16384 * (INR n * INR n) * epsf <= 1.
Definition two_bound_fast (use_fft : bool) (n : nat) (eps epsf : R) : R :=
  40001 * (INR n * INR n * eps) + (if use_fft then 8400 * (INR n * INR n * epsf) else 0) + bpow radix2 (-900).

Lemma ecdf2_rounded_fast eps epsf use_fft (b B : list R) (b6 B6 : list f64) :
  fast_libm_accurate (cp_flush C) L eps -> bpow radix2 (-51) <= eps -> fft_hyp_fast use_fft (List.length b) epsf ->
  sort_ok E -> 65536 * (INR (List.length b) * INR (List.length b)) * eps <= 1 ->
  valid_boundary b -> valid_boundary B -> Forall plain b -> Forall plain B -> List.length b = List.length B -> (1 <= List.length b)%nat ->
  (asserts E = true -> no_gap b B) ->
  accepted64 b6 -> accepted64 B6 -> map B2R b6 = map (fun v => rnd v) b -> map B2R B6 = map (fun v => rnd v) B ->
  exists p r, is_noncrossing_probability b B p /\ @ecdf2 FN E (map lit b6) (map lit B6) use_fft = Ok r /\ is_finite (cp_sum C r) = true /\
    Rabs (B2R (cp_sum C r) - p) <= two_bound_fast use_fft (List.length b) eps epsf.
Proof.
  intros HL He HF Hs H1 Hb HB Nb NB Hl Hn0 Hg A1 A2 E1 E2.
  assert (L1 : List.length b6 = List.length b) by (pose proof (f_equal (@List.length R) E1) as HH; rewrite !map_length in HH; exact HH).
  assert (L2 : List.length B6 = List.length B) by (pose proof (f_equal (@List.length R) E2) as HH; rewrite !map_length in HH; exact HH).
  assert (Hg' : asserts E = true -> forall i, (S i < List.length b6)%nat -> nth i (map B2R b6) 0 <= nth (S i) (map B2R B6) 0).
  { intros Ha i Hi. rewrite E1, E2. rewrite L1 in Hi.
    rewrite (nth_indep _ 0 (rnd 0)) by (rewrite map_length; lia). rewrite (nth_indep (map (fun v => rnd v) B) 0 (rnd 0)) by (rewrite map_length; lia).
    rewrite !(map_nth (fun v => rnd v)). apply rnd_le. apply Hg; auto. }
  pose proof (plain_read b b6 E1 Nb) as P1. pose proof (plain_read B B6 E2 NB) as P2.
  assert (Hn : 0 <= INR (List.length b) * INR (List.length b)) by (apply Rmult_le_pos; apply pos_INR).
  assert (He4 : 4 * u64 <= eps).
  { unfold u64. change (bpow radix2 (-51)) with (bpow radix2 (2 + -53)) in He. rewrite bpow_plus in He. change (bpow radix2 2) with 4 in He. exact He. }
  assert (Hu : INR (List.length b) * INR (List.length b) * (4 * u64) <= INR (List.length b) * INR (List.length b) * eps) by (apply Rmult_le_compat_l; [exact Hn|exact He4]).
  assert (He0 : 0 <= INR (List.length b) * INR (List.length b) * eps) by (apply Rmult_le_pos; [exact Hn|pose proof u64_pos; lra]).
  assert (Hfin : forall p' r t, is_noncrossing_probability (map B2R b6) (map B2R B6) p' ->
    Rabs (B2R (r : f64) - p') <= 40000 * (INR (List.length b) * INR (List.length b) * eps) * p' + t ->
    exists p, is_noncrossing_probability b B p /\ Rabs (B2R r - p) <= 40001 * (INR (List.length b) * INR (List.length b) * eps) + t).
  { intros p' r t Hp' Hr. rewrite E1, E2 in Hp'. pose proof (is_prob_range _ _ _ (proj2 Hp')) as Hrange.
    destruct (written_two b B p' Hb HB (plain_normal _ Nb) (plain_normal _ NB) Hl Hp') as (p & Hp & Hd). exists p. split; [exact Hp|].
    assert (Hm : 40000 * (INR (List.length b) * INR (List.length b) * eps) * p' <= 40000 * (INR (List.length b) * INR (List.length b) * eps)).
    { rewrite <- (Rmult_1_r (40000 * (INR (List.length b) * INR (List.length b) * eps))) at 2. apply Rmult_le_compat_l; lra. }
    replace (B2R r - p) with ((B2R r - p') + (p' - p)) by ring.
    eapply Rle_trans; [apply Rabs_triang|]. lra. }
  unfold two_bound_fast. destruct use_fft.
  - destruct (HF eq_refl) as (F1 & F2 & F3).
    destruct (ecdf2_fast_fft C L eps epsf E b6 B6 true) as (p' & r & Hp' & Hr & Fr & Vr); rewrite ?L1; try assumption; try (rewrite ?L1 in Hg'; assumption); try congruence.
    rewrite L1, Rplus_assoc in Vr. destruct (Hfin p' (cp_sum C r) _ Hp' Vr) as (p & Hp & Hd). exists p, r. rewrite Rplus_assoc. auto.
  - destruct (ecdf2_fast C L eps E b6 B6 false) as (p' & r & Hp' & Hr & Fr & Vr); rewrite ?L1; try assumption; try (rewrite ?L1 in Hg'; assumption); try congruence.
    rewrite L1 in Vr. destruct (Hfin p' (cp_sum C r) _ Hp' Vr) as (p & Hp & Hd). exists p, r. rewrite Rplus_0_r. auto.
Qed.

Context (frexp : xr -> Z) (fs : filesystem) (prog f contents : string) (show : f64 -> string).
Hypothesis HS : strtod_correct L.
Hypothesis Hshow : forall r, @show_double FN E r = show (cp_sum C r).
Hypothesis HF : fs f = Some contents.

Lemma cli_two_fast eps epsf use_fft (b B : list R) :
  fast_libm_accurate (cp_flush C) L eps -> bpow radix2 (-51) <= eps -> fft_hyp_fast use_fft (List.length b) epsf ->
  sort_ok E -> 65536 * (INR (List.length b) * INR (List.length b)) * eps <= 1 ->
  file_holds (N := Xnum frexp) contents (map Fin b) (map Fin B) ->
  valid_boundary b -> valid_boundary B -> Forall plain b -> Forall plain B -> List.length b = List.length B -> (1 <= List.length b)%nat ->
  (asserts E = true -> forall i, (S i < List.length b)%nat -> nth i b 0 <= nth (S i) B 0) ->
  exists p (r : f64), is_noncrossing_probability b B p /\
    @cli_main FN E fs [prog; ecdf2_command use_fft; f] = Ok ([Text (show r)], 0%Z) /\
    is_finite r = true /\ Rabs (B2R r - p) <= two_bound_fast use_fft (List.length b) eps epsf.
Proof.
  intros HL He HFF Hs H1 Hh Hb HB Nb NB Hl Hn Hg.
  destruct (file64 L frexp HS contents b B Hb HB (plain_normal _ Nb) (plain_normal _ NB) Hh) as (b6 & B6 & Hh6 & A1 & A2 & E1 & E2).
  destruct (ecdf2_rounded_fast eps epsf use_fft b B b6 B6) as (p & r & Hp & Hr & Fr & Vr); auto.
  exists p, (cp_sum C r). split; [exact Hp|]. split; [|auto]. rewrite <- Hshow.
  apply cli_success. exists (map lit b6), (map lit B6), r. split; [apply (read_file_holds fs f contents); auto; apply ffile; exact Hh6|]. split; [|reflexivity].
  refine (eq_ind _ (command_runs E _ _ _) _ _ Hr). apply (@runs_two FN E).
  pose proof (f_equal (@List.length R) E1) as L1. pose proof (f_equal (@List.length R) E2) as L2. rewrite !map_length in L1, L2. change (car FN) with (list term). rewrite !map_length.
  transitivity (List.length b); [exact L1|]. rewrite Hl. symmetry. exact L2.
Qed.

Lemma cli_two_fast_B eps epsf use_fft (B : list R) :
  fast_libm_accurate (cp_flush C) L eps -> bpow radix2 (-51) <= eps -> fft_hyp_fast use_fft (List.length B) epsf ->
  sort_ok E -> 65536 * (INR (List.length B) * INR (List.length B)) * eps <= 1 ->
  file_holds (N := Xnum frexp) contents [] (map Fin B) -> valid_boundary B -> Forall plain B -> B <> [] ->
  exists p (r : f64), is_prob (List.length B) (noncrossing_B B) p /\
    @cli_main FN E fs [prog; ecdf2_command use_fft; f] = Ok ([Text (show r)], 0%Z) /\
    is_finite r = true /\ Rabs (B2R r - p) <= two_bound_fast use_fft (List.length B) eps epsf.
Proof.
  intros HL He HFF Hs H1 Hh HB NB NE.
  destruct (file64 L frexp HS contents [] B) as (b6 & B6 & Hh6 & A1 & A2 & E1 & E2); auto using plain_normal; try (split; constructor).
  assert (Hb6 : b6 = []) by (destruct b6; [reflexivity|discriminate]). subst b6.
  assert (L2 : List.length B6 = List.length B) by (pose proof (f_equal (@List.length R) E2) as HH; rewrite !map_length in HH; exact HH).
  destruct (accepted_const 0 (List.length B) ltac:(lia)) as [A0 V0].
  destruct (ecdf2_rounded_fast eps epsf use_fft (repeat 0 (List.length B)) B (repeat (b64_of_Z 0) (List.length B)) B6) as (p & r & Hp & Hr & Fr & Vr);
    rewrite ?repeat_length; auto.
  { apply valid_repeat; lra. } { apply plain_01; auto. } { destruct B; [congruence|simpl; lia]. } { intros _. apply no_gap_zeros; auto. }
  rewrite repeat_length in Vr.
  exists p, (cp_sum C r). split; [apply prob_zeros; exact Hp|]. split; [|auto]. rewrite <- Hshow.
  apply cli_success. exists [], (map lit B6), r. split; [apply (read_file_holds fs f contents); auto; apply (ffile _ [] B6); exact Hh6|]. split; [|reflexivity].
  rewrite map_repeat, <- L2 in Hr.
  refine (eq_ind _ (command_runs E _ _ _) _ _ Hr).
  pose proof (@runs_two_B FN E use_fft (map lit B6)) as HR. change (car FN) with (list term) in HR. rewrite map_length in HR. apply HR.
  destruct B6; [destruct B; [congruence|discriminate]|discriminate].
Qed.

Lemma cli_two_fast_b eps epsf use_fft (b : list R) :
  fast_libm_accurate (cp_flush C) L eps -> bpow radix2 (-51) <= eps -> fft_hyp_fast use_fft (List.length b) epsf ->
  sort_ok E -> 65536 * (INR (List.length b) * INR (List.length b)) * eps <= 1 ->
  file_holds (N := Xnum frexp) contents (map Fin b) [] -> valid_boundary b -> Forall plain b -> b <> [] ->
  exists p (r : f64), is_prob (List.length b) (noncrossing_b b) p /\
    @cli_main FN E fs [prog; ecdf2_command use_fft; f] = Ok ([Text (show r)], 0%Z) /\
    is_finite r = true /\ Rabs (B2R r - p) <= two_bound_fast use_fft (List.length b) eps epsf.
Proof.
  intros HL He HFF Hs H1 Hh Hb Nb NE.
  destruct (file64 L frexp HS contents b []) as (b6 & B6 & Hh6 & A1 & A2 & E1 & E2); auto using plain_normal; try (split; constructor).
  assert (HB6 : B6 = []) by (destruct B6; [reflexivity|discriminate]). subst B6.
  assert (L1 : List.length b6 = List.length b) by (pose proof (f_equal (@List.length R) E1) as HH; rewrite !map_length in HH; exact HH).
  destruct (accepted_const 1 (List.length b) ltac:(lia)) as [A0 V0].
  destruct (ecdf2_rounded_fast eps epsf use_fft b (repeat 1 (List.length b)) b6 (repeat (b64_of_Z 1) (List.length b))) as (p & r & Hp & Hr & Fr & Vr);
    rewrite ?repeat_length; auto.
  { apply valid_repeat; lra. } { apply plain_01; auto. } { destruct b; [congruence|simpl; lia]. } { intros _. apply no_gap_ones; auto. }
  exists p, (cp_sum C r). split; [apply prob_ones; exact Hp|]. split; [|auto]. rewrite <- Hshow.
  apply cli_success. exists (map lit b6), [], r. split; [apply (read_file_holds fs f contents); auto; apply (ffile _ b6 []); exact Hh6|]. split; [|reflexivity].
  rewrite map_repeat, <- L1 in Hr.
  refine (eq_ind _ (command_runs E _ _ _) _ _ Hr).
  pose proof (@runs_two_b FN E use_fft (map lit b6)) as HR. change (car FN) with (list term) in HR. rewrite map_length in HR. apply HR.
  destruct b6; [destruct b; [congruence|discriminate]|discriminate].
Qed.

Lemma cli_new_fast_B eps epsf (B : list R) :
  fast_libm_accurate (cp_flush C) L eps -> bpow radix2 (-51) <= eps ->
  fast_fft_accurate C L E epsf -> bpow radix2 (-50) <= epsf -> fft_stores C L E ->
  (1 <= List.length B)%nat -> (asserts E = true -> (2 <= List.length B)%nat) ->
  65536 * (INR (List.length B) * INR (List.length B) * sqrt (INR (List.length B))) * eps <= 1 ->
  16384 * (INR (List.length B) * INR (List.length B) * sqrt (INR (List.length B))) * epsf <= 1 ->
  file_holds (N := Xnum frexp) contents [] (map Fin B) -> valid_boundary B -> Forall plain B ->
  exists p (r : f64), is_prob (List.length B) (noncrossing_B B) p /\
    @cli_main FN E fs [prog; "ecdf1-new"%string; f] = Ok ([Text (show r)], 0%Z) /\
    is_finite r = true /\
    Rabs (B2R r - p) <= 60001 * (INR (List.length B) * INR (List.length B) * eps)
      + 9000 * (INR (List.length B) * INR (List.length B) * epsf) + bpow radix2 (-1022).
Proof.
  intros HL He HFF Hf Hst H1 Ha H2 H3 Hh Hv Nv.
  assert (NE : B <> []) by (destruct B; [simpl in H1; lia|discriminate]).
  assert (Hn : 0 <= INR (List.length B) * INR (List.length B)) by (apply Rmult_le_pos; apply pos_INR).
  assert (He4 : 4 * u64 <= eps).
  { unfold u64. change (bpow radix2 (-51)) with (bpow radix2 (2 + -53)) in He. rewrite bpow_plus in He. change (bpow radix2 2) with 4 in He. exact He. }
  assert (Hu : INR (List.length B) * INR (List.length B) * (4 * u64) <= INR (List.length B) * INR (List.length B) * eps) by (apply Rmult_le_compat_l; [exact Hn|exact He4]).
  assert (He0 : 0 <= INR (List.length B) * INR (List.length B) * eps) by (apply Rmult_le_pos; [exact Hn|pose proof u64_pos; lra]).
  destruct (file64 L frexp HS contents [] B) as (b6 & B6 & Hh6 & A1 & A2 & E1 & E2); auto using plain_normal; try (split; constructor).
  assert (Hb6 : b6 = []) by (destruct b6; [reflexivity|discriminate]). subst b6.
  assert (L1 : List.length B6 = List.length B) by (pose proof (f_equal (@List.length R) E2) as HH; rewrite !map_length in HH; exact HH).
  destruct (new_B_fast C L eps epsf E B6) as (p' & r & Hp' & Hr & Fr & Vr); rewrite ?L1; auto.
  { exact (plain_read B B6 E2 Nv). }
  rewrite E2, L1 in *. destruct (written_B B p' Hv (plain_normal _ Nv) Hp') as (p & Hp & Hd).
  exists p, (cp_sum C r). split; [exact Hp|]. split; [|split; [exact Fr|]].
  - rewrite <- Hshow. apply cli_success. exists [], (map lit B6), r. split; [apply (read_file_holds fs f contents); auto; apply (ffile _ [] B6); exact Hh6|]. split; [|reflexivity].
    refine (eq_ind _ (command_runs E _ _ _) _ _ Hr). apply (@runs_new_B FN E).
    destruct B6; [destruct B; [congruence|discriminate]|discriminate].
  - replace (B2R (cp_sum C r) - p) with ((B2R (cp_sum C r) - p') + (p' - p)) by ring.
    eapply Rle_trans; [apply Rabs_triang|]. lra.
Qed.
End Fast.

(** Up to 1000 numbers per line *)
Lemma small_1000 n : (n <= 1000)%nat -> 0 <= INR n * INR n <= 1000000.
Proof.
  intros H. apply le_INR in H. pose proof (pos_INR n). rewrite (INR_IZR_INZ 1000) in H. simpl IZR in H.
  split; [apply Rmult_le_pos; assumption|]. replace 1000000 with (1000 * 1000) by ring. apply Rmult_le_compat; lra.
Qed.
Lemma cli_two_fast_1000 (C : compiler) (L : libm) (E : env (Fnum C L)) (frexp : xr -> Z) (fs : filesystem) (prog f contents : string) (show : f64 -> string) :
  strtod_correct L -> (forall r, @show_double (Fnum C L) E r = show (cp_sum C r)) -> fs f = Some contents ->
  forall (use_fft : bool) (b B : list R),
  fast_libm_accurate (cp_flush C) L (bpow radix2 (-50)) -> (use_fft = true -> fast_fft_accurate C L E (bpow radix2 (-47))) -> sort_ok E ->
  file_holds (N := Xnum frexp) contents (map Fin b) (map Fin B) ->
  valid_boundary b -> valid_boundary B -> Forall plain b -> Forall plain B -> List.length b = List.length B -> (1 <= List.length b <= 1000)%nat ->
  (asserts E = true -> forall i, (S i < List.length b)%nat -> nth i b 0 <= nth (S i) B 0) ->
  exists p (r : f64), is_noncrossing_probability b B p /\
    @cli_main (Fnum C L) E fs [prog; ecdf2_command use_fft; f] = Ok ([Text (show r)], 0%Z) /\
    is_finite r = true /\ Rabs (B2R r - p) <= / 10000.
Proof.
  intros HS Hsh HF use_fft b B HL HFF Hs Hh Hb HB Nb NB Hl Hn Hg.
  pose proof (small_1000 (List.length b) ltac:(lia)) as Hsm.
  assert (V50 : bpow radix2 (-50) = / 1125899906842624) by reflexivity.
  assert (V47 : bpow radix2 (-47) = / 140737488355328) by reflexivity.
  assert (V900 : bpow radix2 (-900) <= / 1125899906842624) by (rewrite <- V50; apply bpow_le; lia).
  destruct (cli_two_fast C L E frexp fs prog f contents show HS Hsh HF (bpow radix2 (-50)) (bpow radix2 (-47)) use_fft b B) as (p & r & Hp & Hr & Fr & Vr); auto; try lia.
  - apply bpow_le. lia.
  - intros Hu. split; [auto|]. split; [apply bpow_le; lia|]. rewrite V47. lra.
  - rewrite V50. lra.
  - exists p, r. repeat (split; [assumption|]). eapply Rle_trans; [exact Vr|]. unfold two_bound_fast.
    rewrite V50, V47. destruct use_fft; lra.
Qed.

(** ** A case: the files of AccCliCase.v *)
Definition fast_text_env (C : compiler) (show : f64 -> string) (a : bool) : env (Fnum C text_libm) :=
  mkEnv (Fnum C text_libm) a (fun _ _ => lit B754_nan) isort (fr_r2c C text_libm) (fr_c2r C text_libm) (fun r => show (cp_sum C r))
    (@mkLD (Fnum C text_libm) (Fnum C text_libm) (fun x => x) (fun x => x)).
Lemma fast_text_show C show a r : @show_double _ (fast_text_env C show a) r = show (cp_sum C r).
Proof. reflexivity. Qed.
Lemma fast_text_sort C show a : sort_ok (fast_text_env C show a).
Proof. apply isort_ok. reflexivity. Qed.
Lemma fast_text_fft C show a : fast_fft_accurate C text_libm (fast_text_env C show a) (bpow radix2 (-47)).
Proof. exact (fast_fft_ok C text_libm a). Qed.
Lemma fast_text_stores C show a : fft_stores C text_libm (fast_text_env C show a).
Proof. exact (fast_fft_stores C text_libm a). Qed.
Lemma text_fast flush : fast_libm_accurate flush text_libm (bpow radix2 (-50)).
Proof.
  apply fast_weaken with u64; [apply libm_fast; [apply text_accurate|]; pose proof u64_pos; pose proof u64_small; lra|].
  unfold u64. apply bpow_le. lia.
Qed.
Lemma big_plain v : 1/10 <= v -> plain v.
Proof. intros H. right. apply Rle_trans with (bpow radix2 (-4)); [apply bpow_le; lia|simpl; lra]. Qed.
Lemma text_plain : Forall plain text_b /\ Forall plain text_B.
Proof. unfold text_b, text_B. split; (apply Forall_cons; [apply big_plain; lra|apply Forall_cons; [apply big_plain; lra|apply Forall_nil]]). Qed.
Lemma fast_text_two (flush : bool) (show : f64 -> string) (use_fft : bool) :
  exists p (r : f64), is_noncrossing_probability [1/10; 3/10] [8/10; 1] p /\
    cli_main (fast_text_env (simd_compiler flush) show true) text_fs ["crossprob"%string; ecdf2_command use_fft; "two.txt"%string] = Ok ([Text (show r)], 0%Z) /\
    is_finite r = true /\ Rabs (B2R r - p) <= / 10000.
Proof.
  apply (cli_two_fast_1000 (simd_compiler flush) text_libm (fast_text_env (simd_compiler flush) show true) some_frexp text_fs "crossprob" "two.txt" two_text show
    text_strtod (fast_text_show _ _ _) eq_refl use_fft text_b text_B (text_fast flush) (fun _ => fast_text_fft _ _ _) (fast_text_sort _ _ _)
    two_holds (proj1 text_valid) (proj2 text_valid) (proj1 text_plain) (proj2 text_plain) eq_refl).
  - simpl. lia.
  - intros _. exact text_no_gap.
Qed.
