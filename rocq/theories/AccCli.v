(** * AccCli: the crossprob program in binary64, from the text of the file to the number printed. *)
From Coquelicot Require Import Coquelicot.
From Flocq Require Import Core.Core IEEE754.BinarySingleNaN Relative.
From Coq Require Import ZArith Reals List Bool Lia Lra String Sorted.
From Verif Require Import Base Num XReal Common Ecdf2 Ecdf1New Ecdf1Mns StringUtils MonteCarlo Cli.
From Verif Require Import Spec StringSpec CliSpec CliFacts XCommon XFft ExactEnv ExactFacts SpecFacts XEcdf2Main MnsMath NewMath Reflect Cases.
From Verif Require Import StrtodSpec Binary64 Binary64Facts B64Round AccPmf AccFft AccMain AccNewFinal LongDouble LdRound AccMnsEval AccMns ProbLipschitz.
Import List. Import ListNotations.
Local Open Scope R_scope.

Section Reading.
Context (L : libm) (frexp : xr -> Z).
Hypothesis HL : strtod_correct L.

Lemma field64 q v : 0 <= v <= 1 -> normal v -> field_value (N := Xnum frexp) q (Fin v) ->
  exists x : f64, field_value (N := Bnum L) q x /\ is_finite x = true /\ B2R x = rnd v.
Proof.
  intros Hv Hn (t & p & l & rest & H1 & H2 & H3).
  assert (HV : literal_value l v).
  { change (xstrtod l = (Fin v, false)) in H3. destruct l; cbn [xstrtod] in H3; cbn [literal_value].
    - assert (H : Fin v = Fin ((if neg then -1 else 1) * IZR mantissa * powerRZ 10 e10)) by congruence. congruence.
    - assert (H : Fin v = Fin ((if neg then -1 else 1) * IZR mantissa * powerRZ 2 e2)) by congruence. congruence.
    - destruct neg; discriminate.
    - discriminate. }
  destruct (HL l v HV Hv Hn) as (x & Hx & Fx & Vx). exists x. split; [|auto].
  exists t, p, l, rest. auto.
Qed.

Lemma fields64 qs : forall b, Forall (fun x : R => 0 <= x <= 1) b -> Forall normal b ->
  Forall2 (field_value (N := Xnum frexp)) qs (map Fin b) ->
  exists b6 : list f64, Forall2 (field_value (N := Bnum L)) qs b6 /\ Forall (fun x => is_finite x = true) b6 /\ map B2R b6 = map (fun v => rnd v) b.
Proof.
  induction qs as [|q qs IH]; intros [|v b] H1 H2 HF; cbn [map] in HF; inversion HF; subst.
  - exists []. repeat split; constructor.
  - inversion H1; subst. inversion H2; subst.
    destruct (IH b) as (b6 & A1 & A2 & A3); auto. destruct (field64 q v) as (x & X1 & X2 & X3); auto.
    exists (x :: b6). split; [constructor; auto|]. split; [constructor; auto|]. cbn [map]. congruence.
Qed.

Lemma valid_rnd b : valid_boundary b -> valid_boundary (map (fun v => rnd v) b).
Proof.
  intros [HS HR]. split.
  - clear HR. induction HS as [|a l HS IH HH]; [constructor|]. cbn [map]. constructor; [exact IH|].
    destruct HH; constructor. apply rnd_le. assumption.
  - apply Forall_map. eapply Forall_impl; [|exact HR]. cbv beta. intros x Hx.
    apply rnd_between; [apply rnd_0|apply rnd_1|exact Hx].
Qed.

Lemma line64 line b : valid_boundary b -> Forall normal b -> line_holds (N := Xnum frexp) line (map Fin b) ->
  exists b6 : list f64, line_holds (N := Bnum L) line b6 /\ accepted64 b6 /\ map B2R b6 = map (fun v => rnd v) b.
Proof.
  intros Hb Hn (ps & qs & H1 & H2 & H3). destruct (fields64 qs b (proj2 Hb) Hn H3) as (b6 & A1 & A2 & A3).
  exists b6. split; [exists ps, qs; auto|]. split; [|exact A3]. split; [exact A2|]. rewrite A3. apply valid_rnd, Hb.
Qed.

Lemma file64 contents b B : valid_boundary b -> valid_boundary B -> Forall normal b -> Forall normal B ->
  file_holds (N := Xnum frexp) contents (map Fin b) (map Fin B) ->
  exists b6 B6 : list f64, file_holds (N := Bnum L) contents b6 B6 /\ accepted64 b6 /\ accepted64 B6 /\
    map B2R b6 = map (fun v => rnd v) b /\ map B2R B6 = map (fun v => rnd v) B.
Proof.
  intros Hb HB Nb NB (l1 & l2 & H & H1 & H2).
  destruct (line64 l1 b Hb Nb H1) as (b6 & X1 & X2 & X3). destruct (line64 l2 B HB NB H2) as (B6 & Y1 & Y2 & Y3).
  exists b6, B6. split; [exists l1, l2; auto|]. auto.
Qed.
End Reading.

Lemma rnd_close v : 0 <= v <= 1 -> normal v -> Rabs (v - rnd v) <= u64.
Proof.
  intros Hv [->|Hn].
  - rewrite rnd_0, Rminus_0_r, Rabs_R0. apply Rlt_le, u64_pos.
  - rewrite Rabs_minus_sym.
    pose proof (relative_error_N_FLT radix2 (-1074) 53 ltac:(lia) (fun z => negb (Z.even z)) v) as H.
    change (SpecFloat.fexp 53 1024) with (FLT_exp (-1074) 53).
    eapply Rle_trans; [apply H|].
    + rewrite Rabs_pos_eq by lra. exact Hn.
    + rewrite Rabs_pos_eq by lra. assert (Hu : / 2 * bpow radix2 (- (53) + 1) = u64).
      { unfold u64. rewrite bpow_plus. change (bpow radix2 1) with 2. simpl Z.opp. field. }
      rewrite Hu. pose proof u64_pos. apply Rle_trans with (u64 * 1); [apply Rmult_le_compat_l; lra|lra].
Qed.
Lemma distance_rnd b : Forall (fun x : R => 0 <= x <= 1) b -> Forall normal b ->
  distance b (map (fun v => rnd v) b) <= INR (List.length b) * u64.
Proof.
  intros H1 H2. induction b as [|v b IH]; cbn [map distance List.length]; [simpl; lra|].
  inversion H1; subst. inversion H2; subst. rewrite S_INR. pose proof (rnd_close v H3 H5). specialize (IH H4 H6). lra.
Qed.
Lemma normal_01 v n : v = 0 \/ v = 1 -> Forall normal (repeat v n).
Proof.
  intros Hv. apply Forall_forall. intros x Hx. apply repeat_spec in Hx. subst x.
  destruct Hv as [->| ->]; [left; reflexivity|right; apply (bpow_le radix2 (-1022) 0); lia].
Qed.

Lemma map_repeat {A B : Type} (h : A -> B) x n : map h (repeat x n) = repeat (h x) n.
Proof. induction n; cbn; congruence. Qed.

(** ** The probabilities of the numbers written and of the numbers read *)
Notation rl := (map (fun v => rnd v)).
Lemma written_two b B p' : valid_boundary b -> valid_boundary B -> Forall normal b -> Forall normal B ->
  List.length b = List.length B -> is_noncrossing_probability (rl b) (rl B) p' ->
  exists p, is_noncrossing_probability b B p /\ Rabs (p' - p) <= 2 * (INR (List.length b) * INR (List.length b) * u64).
Proof.
  intros Hb HB Nb NB Hl Hp'.
  destruct (ecdf2_exact (some_env false) b B false) as (p & Hp & _); auto; try discriminate.
  { apply isort_ok. reflexivity. }
  exists p. split; [exact Hp|]. rewrite Rabs_minus_sym.
  eapply Rle_trans; [apply (prob_close b B (rl b) (rl B) p p')|]; rewrite ?map_length; auto.
  - apply Hb. - apply valid_rnd, Hb. - apply HB. - apply valid_rnd, HB.
  - pose proof (distance_rnd b (proj2 Hb) Nb). pose proof (distance_rnd B (proj2 HB) NB). rewrite <- Hl in *.
    replace (2 * (INR (List.length b) * INR (List.length b) * u64)) with (INR (List.length b) * (INR (List.length b) * u64 + INR (List.length b) * u64)) by ring.
    apply Rmult_le_compat_l; [apply pos_INR|]. lra.
Qed.
Lemma written_b b p' : valid_boundary b -> Forall normal b -> is_prob (List.length b) (noncrossing_b (rl b)) p' ->
  exists p, is_prob (List.length b) (noncrossing_b b) p /\ Rabs (p' - p) <= INR (List.length b) * INR (List.length b) * u64.
Proof.
  intros Hb Nb Hp'. pose proof (prob_is_D_b (List.length b) b Hb eq_refl) as Hp.
  eexists. split; [exact Hp|]. rewrite Rabs_minus_sym.
  eapply Rle_trans; [apply (prob_b_close b (rl b) _ p')|]; rewrite ?map_length; auto.
  - apply Hb. - apply valid_rnd, Hb.
  - rewrite Rmult_assoc. apply Rmult_le_compat_l; [apply pos_INR|]. apply distance_rnd; [apply Hb|exact Nb].
Qed.
Lemma written_B B p' : valid_boundary B -> Forall normal B -> is_prob (List.length B) (noncrossing_B (rl B)) p' ->
  exists p, is_prob (List.length B) (noncrossing_B B) p /\ Rabs (p' - p) <= INR (List.length B) * INR (List.length B) * u64.
Proof.
  intros HB NB Hp'.
  assert (Hex : exists p, is_prob (List.length B) (noncrossing_b (reflect B)) p).
  { eexists. apply prob_is_D_b; [apply valid_reflect, HB|]. apply reflect_length. }
  destruct Hex as [p Hp]. apply prob_B_reflect in Hp. exists p. split; [exact Hp|]. rewrite Rabs_minus_sym.
  eapply Rle_trans; [apply (prob_B_close B (rl B) _ p')|]; rewrite ?map_length; auto.
  - apply HB. - apply valid_rnd, HB.
  - rewrite Rmult_assoc. apply Rmult_le_compat_l; [apply pos_INR|]. apply distance_rnd; [apply HB|exact NB].
Qed.

Section Programs.
Context (L : libm) (E : env (Bnum L)).
Notation BN := (Bnum L).

(** what ecdf2 returns for boundaries rounded to binary64 *)
Definition two_bound (use_fft : bool) (n : nat) (eps epsf : R) : R :=
  40002 * (INR n * INR n * eps) + (if use_fft then 10000 * (INR n * INR n * epsf) else bpow radix2 (-1000)).
Lemma ecdf2_rounded eps epsf use_fft (b B : list R) (b6 B6 : list f64) :
  libm_accurate L eps -> bpow radix2 (-53) <= eps ->
  (use_fft = true -> fft_accurate E epsf /\ bpow radix2 (-53) <= epsf /\ 16384 * (INR (List.length b) * INR (List.length b)) * epsf <= 1) ->
  sort_ok E -> 65536 * (INR (List.length b) * INR (List.length b)) * eps <= 1 ->
  valid_boundary b -> valid_boundary B -> Forall normal b -> Forall normal B -> List.length b = List.length B ->
  (asserts E = true -> no_gap b B) ->
  accepted64 b6 -> accepted64 B6 -> map B2R b6 = rl b -> map B2R B6 = rl B ->
  exists p r, is_noncrossing_probability b B p /\ @ecdf2 BN E b6 B6 use_fft = Ok r /\ is_finite (r : f64) = true /\
    Rabs (B2R (r : f64) - p) <= two_bound use_fft (List.length b) eps epsf.
Proof.
  intros HL He HF Hs H1 Hb HB Nb NB Hl Hg A1 A2 E1 E2.
  assert (L1 : List.length b6 = List.length b) by (pose proof (f_equal (@List.length R) E1) as HH; rewrite !map_length in HH; exact HH).
  assert (L2 : List.length B6 = List.length B) by (pose proof (f_equal (@List.length R) E2) as HH; rewrite !map_length in HH; exact HH).
  assert (Hg' : asserts E = true -> forall i, (S i < List.length b6)%nat -> nth i (map B2R b6) 0 <= nth (S i) (map B2R B6) 0).
  { intros Ha i Hi. rewrite E1, E2. rewrite L1 in Hi.
    rewrite (nth_indep _ 0 (rnd 0)) by (rewrite map_length; lia). rewrite (nth_indep (rl B) 0 (rnd 0)) by (rewrite map_length; lia).
    rewrite !(map_nth (fun v => rnd v)). apply rnd_le. apply Hg; auto. }
  assert (Hn : 0 <= INR (List.length b) * INR (List.length b)) by (apply Rmult_le_pos; apply pos_INR).
  set (nn := INR (List.length b) * INR (List.length b)) in *.
  assert (Hu : nn * u64 <= nn * eps) by (apply Rmult_le_compat_l; [exact Hn|exact He]).
  assert (He0 : 0 <= nn * eps) by (apply Rmult_le_pos; [exact Hn|pose proof (bpow_gt_0 radix2 (-53)); lra]).
  assert (Hfin : forall p' r, is_noncrossing_probability (map B2R b6) (map B2R B6) p' ->
    Rabs (B2R (r : f64) - p') <= 40000 * (nn * eps) * p' + (if use_fft then 10000 * (nn * epsf) else bpow radix2 (-1000)) ->
    exists p, is_noncrossing_probability b B p /\ Rabs (B2R r - p) <= two_bound use_fft (List.length b) eps epsf).
  { intros p' r Hp' Hr. rewrite E1, E2 in Hp'. pose proof (is_prob_range _ _ _ (proj2 Hp')) as Hrange.
    destruct (written_two b B p' Hb HB Nb NB Hl Hp') as (p & Hp & Hd). fold nn in Hd. exists p. split; [exact Hp|].
    unfold two_bound. fold nn.
    assert (Hm : 40000 * (nn * eps) * p' <= 40000 * (nn * eps)).
    { rewrite <- (Rmult_1_r (40000 * (nn * eps))) at 2. apply Rmult_le_compat_l; lra. }
    replace (B2R r - p) with ((B2R r - p') + (p' - p)) by ring.
    eapply Rle_trans; [apply Rabs_triang|]. lra. }
  destruct use_fft.
  - destruct (HF eq_refl) as (F1 & F2 & F3).
    destruct (ecdf2_fft_accurate L eps epsf E b6 B6) as (p' & r & Hp' & Hr & Fr & Vr); rewrite ?L1; try assumption; try (rewrite ?L1 in Hg'; assumption); try congruence.
    rewrite L1 in Vr. destruct (Hfin p' r Hp' Vr) as (p & Hp & Hd). exists p, r. auto.
  - destruct (ecdf2_accurate L eps E b6 B6) as (p' & r & Hp' & Hr & Fr & Vr); rewrite ?L1; try assumption; try (rewrite ?L1 in Hg'; assumption); try congruence.
    rewrite L1 in Vr. destruct (Hfin p' r Hp' Vr) as (p & Hp & Hd). exists p, r. auto.
Qed.

Context (frexp : xr -> Z) (fs : filesystem) (prog f contents : string).
Hypothesis HS : strtod_correct L.
Hypothesis HF : fs f = Some contents.

Lemma accepted_const (v : Z) n : (0 <= v <= 1)%Z -> accepted64 (repeat (b64_of_Z v) n) /\ map B2R (repeat (b64_of_Z v) n) = rl (repeat (IZR v) n).
Proof.
  intros Hv. destruct (of_Z_ok v) as [Fv Vv]; [lia|].
  assert (Hm : map B2R (repeat (b64_of_Z v) n) = repeat (IZR v) n) by (rewrite map_repeat, Vv; reflexivity).
  split.
  - split; [apply Forall_forall; intros x Hx; apply repeat_spec in Hx; subst; exact Fv|].
    rewrite Hm. apply valid_repeat. assert (v = 0 \/ v = 1)%Z as [->| ->] by lia; lra.
  - rewrite Hm, map_repeat. f_equal. symmetry. apply rnd_int. lia.
Qed.

Definition fft_hyp (use_fft : bool) (n : nat) (epsf : R) : Prop :=
  use_fft = true -> fft_accurate E epsf /\ bpow radix2 (-53) <= epsf /\ 16384 * (INR n * INR n) * epsf <= 1.

Lemma cli_two64 eps epsf use_fft (b B : list R) :
  libm_accurate L eps -> bpow radix2 (-53) <= eps -> fft_hyp use_fft (List.length b) epsf ->
  sort_ok E -> 65536 * (INR (List.length b) * INR (List.length b)) * eps <= 1 ->
  file_holds (N := Xnum frexp) contents (map Fin b) (map Fin B) ->
  valid_boundary b -> valid_boundary B -> Forall normal b -> Forall normal B -> List.length b = List.length B ->
  (asserts E = true -> forall i, (S i < List.length b)%nat -> nth i b 0 <= nth (S i) B 0) ->
  exists p (r : f64), is_noncrossing_probability b B p /\
    @cli_main BN E fs [prog; ecdf2_command use_fft; f] = Ok ([Text (@show_double BN E r)], 0%Z) /\
    is_finite r = true /\ Rabs (B2R r - p) <= two_bound use_fft (List.length b) eps epsf.
Proof.
  intros HL He HFF Hs H1 Hh Hb HB Nb NB Hl Hg.
  destruct (file64 L frexp HS contents b B Hb HB Nb NB Hh) as (b6 & B6 & Hh6 & A1 & A2 & E1 & E2).
  destruct (ecdf2_rounded eps epsf use_fft b B b6 B6) as (p & r & Hp & Hr & Fr & Vr); auto.
  exists p, r. split; [exact Hp|]. split; [|auto].
  apply cli_success. exists b6, B6, r. split; [apply (read_file_holds fs f contents); auto|]. split; [|reflexivity].
  refine (eq_ind _ (command_runs E _ _ _) _ _ Hr). apply (@runs_two BN E).
  pose proof (f_equal (@List.length R) E1) as L1. pose proof (f_equal (@List.length R) E2) as L2. rewrite !map_length in L1, L2.
  transitivity (List.length b); [exact L1|]. rewrite Hl. symmetry. exact L2.
Qed.

Lemma cli_two64_B eps epsf use_fft (B : list R) :
  libm_accurate L eps -> bpow radix2 (-53) <= eps -> fft_hyp use_fft (List.length B) epsf ->
  sort_ok E -> 65536 * (INR (List.length B) * INR (List.length B)) * eps <= 1 ->
  file_holds (N := Xnum frexp) contents [] (map Fin B) -> valid_boundary B -> Forall normal B -> B <> [] ->
  exists p (r : f64), is_prob (List.length B) (noncrossing_B B) p /\
    @cli_main BN E fs [prog; ecdf2_command use_fft; f] = Ok ([Text (@show_double BN E r)], 0%Z) /\
    is_finite r = true /\ Rabs (B2R r - p) <= two_bound use_fft (List.length B) eps epsf.
Proof.
  intros HL He HFF Hs H1 Hh HB NB NE.
  destruct (file64 L frexp HS contents [] B) as (b6 & B6 & Hh6 & A1 & A2 & E1 & E2); auto; try (split; constructor).
  assert (Hb6 : b6 = []) by (destruct b6; [reflexivity|discriminate]). subst b6.
  assert (L2 : List.length B6 = List.length B) by (pose proof (f_equal (@List.length R) E2) as HH; rewrite !map_length in HH; exact HH).
  destruct (accepted_const 0 (List.length B) ltac:(lia)) as [A0 V0].
  destruct (ecdf2_rounded eps epsf use_fft (repeat 0 (List.length B)) B (repeat (b64_of_Z 0) (List.length B)) B6) as (p & r & Hp & Hr & Fr & Vr);
    rewrite ?repeat_length; auto.
  { apply valid_repeat; lra. } { apply normal_01; auto. } { intros _. apply no_gap_zeros; auto. }
  rewrite repeat_length in Vr.
  exists p, r. split; [apply prob_zeros; exact Hp|]. split; [|auto].
  apply cli_success. exists [], B6, r. split; [apply (read_file_holds fs f contents); auto|]. split; [|reflexivity].
  refine (eq_ind _ (command_runs E _ _ _) _ _ Hr). rewrite <- L2. apply (@runs_two_B BN E use_fft B6).
  destruct B6; [destruct B; [congruence|discriminate]|discriminate].
Qed.

Lemma cli_two64_b eps epsf use_fft (b : list R) :
  libm_accurate L eps -> bpow radix2 (-53) <= eps -> fft_hyp use_fft (List.length b) epsf ->
  sort_ok E -> 65536 * (INR (List.length b) * INR (List.length b)) * eps <= 1 ->
  file_holds (N := Xnum frexp) contents (map Fin b) [] -> valid_boundary b -> Forall normal b -> b <> [] ->
  exists p (r : f64), is_prob (List.length b) (noncrossing_b b) p /\
    @cli_main BN E fs [prog; ecdf2_command use_fft; f] = Ok ([Text (@show_double BN E r)], 0%Z) /\
    is_finite r = true /\ Rabs (B2R r - p) <= two_bound use_fft (List.length b) eps epsf.
Proof.
  intros HL He HFF Hs H1 Hh Hb Nb NE.
  destruct (file64 L frexp HS contents b []) as (b6 & B6 & Hh6 & A1 & A2 & E1 & E2); auto; try (split; constructor).
  assert (HB6 : B6 = []) by (destruct B6; [reflexivity|discriminate]). subst B6.
  assert (L1 : List.length b6 = List.length b) by (pose proof (f_equal (@List.length R) E1) as HH; rewrite !map_length in HH; exact HH).
  destruct (accepted_const 1 (List.length b) ltac:(lia)) as [A0 V0].
  destruct (ecdf2_rounded eps epsf use_fft b (repeat 1 (List.length b)) b6 (repeat (b64_of_Z 1) (List.length b))) as (p & r & Hp & Hr & Fr & Vr);
    rewrite ?repeat_length; auto.
  { apply valid_repeat; lra. } { apply normal_01; auto. } { intros _. apply no_gap_ones; auto. }
  exists p, r. split; [apply prob_ones; exact Hp|]. split; [|auto].
  apply cli_success. exists b6, [], r. split; [apply (read_file_holds fs f contents); auto|]. split; [|reflexivity].
  refine (eq_ind _ (command_runs E _ _ _) _ _ Hr). rewrite <- L1. apply (@runs_two_b BN E use_fft b6).
  destruct b6; [destruct b; [congruence|discriminate]|discriminate].
Qed.

Lemma cli_new64 eps epsf (v : list R) :
  libm_accurate L eps -> bpow radix2 (-53) <= eps -> fft_accurate E epsf -> bpow radix2 (-53) <= epsf ->
  (1 <= List.length v)%nat -> (asserts E = true -> (2 <= List.length v)%nat) ->
  65536 * (INR (List.length v) * INR (List.length v) * sqrt (INR (List.length v))) * eps <= 1 ->
  16384 * (INR (List.length v) * INR (List.length v) * sqrt (INR (List.length v))) * epsf <= 1 ->
  valid_boundary v -> Forall normal v ->
  (file_holds (N := Xnum frexp) contents (map Fin v) [] ->
   exists p (r : f64), is_prob (List.length v) (noncrossing_b v) p /\
    @cli_main BN E fs [prog; "ecdf1-new"%string; f] = Ok ([Text (@show_double BN E r)], 0%Z) /\
    is_finite r = true /\
    Rabs (B2R r - p) <= 60002 * (INR (List.length v) * INR (List.length v) * eps) + 9000 * (INR (List.length v) * INR (List.length v) * epsf)) /\
  (file_holds (N := Xnum frexp) contents [] (map Fin v) ->
   exists p (r : f64), is_prob (List.length v) (noncrossing_B v) p /\
    @cli_main BN E fs [prog; "ecdf1-new"%string; f] = Ok ([Text (@show_double BN E r)], 0%Z) /\
    is_finite r = true /\
    Rabs (B2R r - p) <= 60002 * (INR (List.length v) * INR (List.length v) * eps) + 9000 * (INR (List.length v) * INR (List.length v) * epsf)).
Proof.
  intros HL He HFF Hf H1 Ha H2 H3 Hv Nv.
  assert (NE : v <> []) by (destruct v; [simpl in H1; lia|discriminate]).
  assert (Hn : 0 <= INR (List.length v) * INR (List.length v)) by (apply Rmult_le_pos; apply pos_INR).
  assert (Hu : INR (List.length v) * INR (List.length v) * u64 <= INR (List.length v) * INR (List.length v) * eps) by (apply Rmult_le_compat_l; [exact Hn|exact He]).
  assert (He0 : 0 <= INR (List.length v) * INR (List.length v) * eps) by (apply Rmult_le_pos; [exact Hn|pose proof (bpow_gt_0 radix2 (-53)); lra]).
  split; intros Hh.
  - destruct (file64 L frexp HS contents v []) as (b6 & B6 & Hh6 & A1 & A2 & E1 & E2); auto; try (split; constructor).
    assert (HB6 : B6 = []) by (destruct B6; [reflexivity|discriminate]). subst B6.
    assert (L1 : List.length b6 = List.length v) by (pose proof (f_equal (@List.length R) E1) as HH; rewrite !map_length in HH; exact HH).
    destruct (new_b_accurate L E eps epsf b6) as (p' & r & Hp' & Hr & Fr & Vr); rewrite ?L1; auto.
    rewrite E1, L1 in *. destruct (written_b v p' Hv Nv Hp') as (p & Hp & Hd).
    exists p, r. split; [exact Hp|]. split; [|split; [exact Fr|]].
    + apply cli_success. exists b6, [], r. split; [apply (read_file_holds fs f contents); auto|]. split; [|reflexivity].
      refine (eq_ind _ (command_runs E _ _ _) _ _ Hr). apply (@runs_new_b BN E).
      destruct b6; [destruct v; [congruence|discriminate]|discriminate].
    + replace (B2R (r : f64) - p) with ((B2R (r : f64) - p') + (p' - p)) by ring.
      eapply Rle_trans; [apply Rabs_triang|]. lra.
  - destruct (file64 L frexp HS contents [] v) as (b6 & B6 & Hh6 & A1 & A2 & E1 & E2); auto; try (split; constructor).
    assert (Hb6 : b6 = []) by (destruct b6; [reflexivity|discriminate]). subst b6.
    assert (L1 : List.length B6 = List.length v) by (pose proof (f_equal (@List.length R) E2) as HH; rewrite !map_length in HH; exact HH).
    destruct (new_B_accurate L E eps epsf B6) as (p' & r & Hp' & Hr & Fr & Vr); rewrite ?L1; auto.
    rewrite E2, L1 in *. destruct (written_B v p' Hv Nv Hp') as (p & Hp & Hd).
    exists p, r. split; [exact Hp|]. split; [|split; [exact Fr|]].
    + apply cli_success. exists [], B6, r. split; [apply (read_file_holds fs f contents); auto|]. split; [|reflexivity].
      refine (eq_ind _ (command_runs E _ _ _) _ _ Hr). apply (@runs_new_B BN E).
      destruct B6; [destruct v; [congruence|discriminate]|discriminate].
    + replace (B2R (r : f64) - p) with ((B2R (r : f64) - p') + (p' - p)) by ring.
      eapply Rle_trans; [apply Rabs_triang|]. lra.
Qed.

Lemma cli_mns64 M eps (v : list R) :
  libml_accurate M eps -> bpow radix2 (-64) <= eps -> eps <= bpow radix2 (-40) -> libml_special M -> long_dbl E = x87 L M ->
  (1 <= List.length v <= 4096)%nat -> valid_boundary v -> Forall normal v ->
  let N := INR (S (List.length v)) in
  let nu := INR (List.length v) * INR (List.length v) * bpow radix2 (-53) in
  (file_holds (N := Xnum frexp) contents (map Fin v) [] ->
   exists p (r : f64), is_prob (List.length v) (noncrossing_b v) p /\
    @cli_main BN E fs [prog; "ecdf1-mns2016"%string; f] = Ok ([Text (@show_double BN E r)], 0%Z) /\
    (r = B754_nan /\ p <= (56 * (N * N) + 57 * N) * eps + nu \/
     is_finite r = true /\ Rabs (B2R r - p) <= (56 * (N * N) + 410 * N) * eps + bpow radix2 (-52) + nu)) /\
  (file_holds (N := Xnum frexp) contents [] (map Fin v) ->
   exists p (r : f64), is_prob (List.length v) (noncrossing_B v) p /\
    @cli_main BN E fs [prog; "ecdf1-mns2016"%string; f] = Ok ([Text (@show_double BN E r)], 0%Z) /\
    (r = B754_nan /\ p <= (56 * (N * N) + 57 * N) * eps + 2 * nu \/
     is_finite r = true /\ Rabs (B2R r - p) <= (56 * (N * N) + 410 * N) * eps + bpow radix2 (-52) + 2 * nu)).
Proof.
  intros HM He He1 HSp HLD H1 Hv Nv N nu.
  assert (NE : v <> []) by (destruct v; [simpl in H1; lia|discriminate]).
  split; intros Hh.
  - destruct (file64 L frexp HS contents v []) as (b6 & B6 & Hh6 & A1 & A2 & E1 & E2); auto; try (split; constructor).
    assert (HB6 : B6 = []) by (destruct B6; [reflexivity|discriminate]). subst B6.
    assert (L1 : List.length b6 = List.length v) by (pose proof (f_equal (@List.length R) E1) as HH; rewrite !map_length in HH; exact HH).
    destruct (mns_b_nan_or_accurate L M eps E HM He He1 HLD b6 A1 ltac:(lia) HSp) as (p' & r & Hp' & Hr & Hacc).
    unfold err_bound, mns_bound in Hacc. rewrite E1, L1 in *. fold N in Hacc.
    destruct (written_b v p' Hv Nv Hp') as (p & Hp & Hd). change (INR (List.length v) * INR (List.length v) * u64) with nu in Hd.
    exists p, r. split; [exact Hp|]. split.
    + apply cli_success. exists b6, [], r. split; [apply (read_file_holds fs f contents); auto|]. split; [|reflexivity].
      refine (eq_ind _ (command_runs E _ _ _) _ _ Hr). apply (@runs_mns_b BN E).
      destruct b6; [destruct v; [congruence|discriminate]|discriminate].
    + destruct Hacc as [[Hnan Hle]|[Fr Vr]]; [left|right]; (split; [assumption|]).
      * apply abs_split in Hd. lra.
      * replace (B2R (r : f64) - p) with ((B2R (r : f64) - p') + (p' - p)) by ring.
        eapply Rle_trans; [apply Rabs_triang|]. lra.
  - destruct (file64 L frexp HS contents [] v) as (b6 & B6 & Hh6 & A1 & A2 & E1 & E2); auto; try (split; constructor).
    assert (Hb6 : b6 = []) by (destruct b6; [reflexivity|discriminate]). subst b6.
    assert (L1 : List.length B6 = List.length v) by (pose proof (f_equal (@List.length R) E2) as HH; rewrite !map_length in HH; exact HH).
    destruct (mns_B_nan_or_accurate L M eps E HM He He1 HLD B6 HSp A2 ltac:(lia)) as (p' & r & Hp' & Hr & Hacc).
    unfold err_bound, mns_bound in Hacc. rewrite E2, L1 in *. fold N in Hacc.
    destruct (written_B v p' Hv Nv Hp') as (p & Hp & Hd). change (INR (List.length v) * INR (List.length v) * u64) with nu in Hd, Hacc.
    exists p, r. split; [exact Hp|]. split.
    + apply cli_success. exists [], B6, r. split; [apply (read_file_holds fs f contents); auto|]. split; [|reflexivity].
      refine (eq_ind _ (command_runs E _ _ _) _ _ Hr). apply (@runs_mns_B BN E).
      destruct B6; [destruct v; [congruence|discriminate]|discriminate].
    + destruct Hacc as [[Hnan Hle]|[Fr Vr]]; [left|right]; (split; [assumption|]).
      * apply abs_split in Hd. lra.
      * replace (B2R (r : f64) - p) with ((B2R (r : f64) - p') + (p' - p)) by ring.
        eapply Rle_trans; [apply Rabs_triang|]. lra.
Qed.
End Programs.
