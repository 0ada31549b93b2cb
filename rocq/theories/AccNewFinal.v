(** * AccNewFinal: rounding error of ecdf1_new_B and ecdf1_new_b. *)
From Coquelicot Require Import Coquelicot.
From Flocq Require Import Core.Core IEEE754.BinarySingleNaN.
From Coq Require Import ZArith Reals List Bool Lia Lra String.
From Verif Require Import Base Num Common Ecdf1New FFTConv Binary64 Binary64Facts.
From Verif Require Import Spec SpecFacts Reflect SafeNew NewMath ProbLipschitz B64Round AccPmf AccFft AccNewMain.
Import List. Import ListNotations.
Local Open Scope R_scope.

Section Final.
Context (L : libm) (E : env (Bnum L)).
Notation BN := (Bnum L).
Notation nn v := (INR (List.length v) * INR (List.length v)).
Notation sq v := (sqrt (INR (List.length v))).

Lemma len_ge1 (v : list f64) : (1 <= List.length v)%nat -> 1 <= nn v /\ 1 <= sq v.
Proof.
  intros H. apply le_INR in H. simpl (INR 1) in H. split; [nra|].
  rewrite <- sqrt_1 at 1. apply sqrt_le_1; lra.
Qed.

Lemma new_B_accurate eps epsf (B : list f64) :
  libm_accurate L eps -> bpow radix2 (-53) <= eps -> fft_accurate E epsf -> bpow radix2 (-53) <= epsf ->
  accepted64 B -> (1 <= List.length B)%nat -> (asserts E = true -> (2 <= List.length B)%nat) ->
  65536 * (nn B * sq B) * eps <= 1 -> 16384 * (nn B * sq B) * epsf <= 1 ->
  exists p r, is_prob (List.length B) (noncrossing_B (map B2R B)) p /\ @ecdf1_new_B BN E B = Ok r /\
    is_finite (r : f64) = true /\ Rabs (B2R (r : f64) - p) <= 60000 * (nn B * eps) + 9000 * (nn B * epsf).
Proof.
  intros HL He HF Hf HB H1 Ha H2 H3. destruct (len_ge1 B H1) as [HN HS].
  assert (Hu : 0 < bpow radix2 (-53)) by apply bpow_gt_0.
  assert (HNS : 1 <= nn B * sq B) by (rewrite <- (Rmult_1_r 1) at 1; apply Rmult_le_compat; lra).
  destruct (acc_new L E eps HL He B HB H1 H2 (400 * epsf)) as (p & r & Hp & Hr & Fr & Er).
  - lra.
  - lra.
  - intros _. exists epsf. split; [exact HF|]. split; [exact Hf|]. split; [|lra].
    assert (16384 * epsf <= 16384 * (nn B * sq B) * epsf) by (apply Rmult_le_compat_r; lra). lra.
  - intros Hl. destruct (asserts E); auto. specialize (Ha eq_refl). rewrite Hl in Ha. lia.
  - exists p, r. split; [exact Hp|]. split; [exact Hr|]. split; [exact Fr|].
    eapply Rle_trans; [exact Er|]. assert (0 <= nn B * epsf) by (apply Rmult_le_pos; lra).
    replace (22 * (nn B * (400 * epsf))) with (8800 * (nn B * epsf)) by ring. lra.
Qed.

(** with fewer than 127 points no FFT is used *)
Lemma new_B_accurate_short eps (B : list f64) :
  libm_accurate L eps -> bpow radix2 (-53) <= eps ->
  accepted64 B -> (1 <= List.length B < 127)%nat -> (asserts E = true -> (2 <= List.length B)%nat) ->
  65536 * (nn B * sq B) * eps <= 1 ->
  exists p r, is_prob (List.length B) (noncrossing_B (map B2R B)) p /\ @ecdf1_new_B BN E B = Ok r /\
    is_finite (r : f64) = true /\ Rabs (B2R (r : f64) - p) <= 60000 * (nn B * eps).
Proof.
  intros HL He HB [H1 H127] Ha H2. destruct (len_ge1 B H1) as [HN HS].
  destruct (acc_new L E eps HL He B HB H1 H2 0) as (p & r & Hp & Hr & Fr & Er).
  - lra.
  - lra.
  - unfold MINIMUM_SIZE_FOR_FFTW_CONVOLUTION. intros H. exfalso. lia.
  - intros Hl. destruct (asserts E); auto. specialize (Ha eq_refl). rewrite Hl in Ha. lia.
  - exists p, r. split; [exact Hp|]. split; [exact Hr|]. split; [exact Fr|].
    eapply Rle_trans; [exact Er|]. lra.
Qed.

(** ** The lower boundary: 1 - b is rounded *)
Lemma distance_rounded (l : list f64) : Forall (fun x => is_finite x = true) l -> Forall (fun x => 0 <= x <= 1) (map B2R l) ->
  distance (map B2R (map (fun x : f64 => @n_sub BN n1 x) l)) (map (fun x => 1 - x) (map B2R l)) <= INR (List.length l) * u64.
Proof.
  induction l as [|x l IH]; intros HF HR; [simpl; lra|]. inversion HF; inversion HR; subst.
  change (List.length (x :: l)) with (S (List.length l)). rewrite S_INR. cbn [map distance].
  specialize (IH H2 H6). enough (Rabs (B2R (@n_sub BN n1 x : f64) - (1 - B2R x)) <= u64) by (unfold f64, car in *; simpl in *; lra).
  destruct one_ok as [F1 V1]. destruct (minus_err (b64_of_Z 1) x F1 H1) as [_ H].
  - rewrite V1. apply Rle_trans with 1; [apply Rabs_le; lra|]. apply (bpow_le radix2 0 60). lia.
  - rewrite V1 in H. eapply Rle_trans; [exact H|]. assert (Rabs (1 - B2R x) <= 1) by (apply Rabs_le; lra).
    pose proof u64_pos. nra.
Qed.

Lemma reflected_close (b : list f64) : accepted64 b ->
  distance (map B2R (@reflected BN b)) (reflect (map B2R b)) <= INR (List.length b) * u64.
Proof.
  intros [HF [_ HR]]. unfold reflected, reflect. rewrite <- map_rev.
  rewrite <- (rev_length b). apply distance_rounded; [apply Forall_rev; exact HF|]. rewrite map_rev. apply Forall_rev. exact HR.
Qed.

Lemma new_b_from_B (b : list f64) q r : accepted64 b ->
  is_prob (List.length (@reflected BN b)) (noncrossing_B (map B2R (@reflected BN b))) q ->
  @ecdf1_new_B BN E (@reflected BN b) = Ok r ->
  @ecdf1_new_b BN E b = Ok r /\
  exists p, is_prob (List.length b) (noncrossing_b (map B2R b)) p /\ Rabs (q - p) <= nn b * u64.
Proof.
  intros Hb Hq Hr. split; [rewrite new_b_eq, check_accepted by exact Hb; exact Hr|].
  assert (Hlen : List.length (@reflected BN b) = List.length b) by (unfold reflected; rewrite map_length, rev_length; reflexivity).
  assert (Hex : exists p, is_prob (List.length b) (noncrossing_B (reflect (map B2R b))) p).
  { eexists. apply prob_is_D_B; [apply valid_reflect, Hb|]. rewrite reflect_length. apply map_length. }
  destruct Hex as [p Hp].
  exists p. split; [apply prob_b_reflect; exact Hp|].
  pose proof (accepted_reflected L b Hb) as Hb'.
  assert (HlB : List.length (map B2R (@reflected BN b)) = List.length b) by (rewrite <- Hlen; apply map_length).
  assert (HlR : List.length (reflect (map B2R b)) = List.length b) by (rewrite reflect_length; apply map_length).
  pose proof (prob_B_close (map B2R (@reflected BN b)) (reflect (map B2R b)) q p) as HC.
  rewrite HlB, HlR in HC.
  eapply Rle_trans; [apply HC; auto|].
  - apply Hb'.
  - apply (valid_reflect (map B2R b)), Hb.
  - rewrite <- Hlen at 1. exact Hq.
  - rewrite Rmult_assoc. apply Rmult_le_compat_l; [apply pos_INR|]. apply reflected_close, Hb.
Qed.

Lemma new_b_accurate eps epsf (b : list f64) :
  libm_accurate L eps -> bpow radix2 (-53) <= eps -> fft_accurate E epsf -> bpow radix2 (-53) <= epsf ->
  accepted64 b -> (1 <= List.length b)%nat -> (asserts E = true -> (2 <= List.length b)%nat) ->
  65536 * (nn b * sq b) * eps <= 1 -> 16384 * (nn b * sq b) * epsf <= 1 ->
  exists p r, is_prob (List.length b) (noncrossing_b (map B2R b)) p /\ @ecdf1_new_b BN E b = Ok r /\
    is_finite (r : f64) = true /\ Rabs (B2R (r : f64) - p) <= 60001 * (nn b * eps) + 9000 * (nn b * epsf).
Proof.
  intros HL He HF Hf Hb H1 Ha H2 H3. destruct (len_ge1 b H1) as [HN HS].
  assert (Hlen : List.length (@reflected BN b) = List.length b) by (unfold reflected; rewrite map_length, rev_length; reflexivity).
  pose (B' := @reflected BN b : list f64). assert (Hlen' : List.length B' = List.length b) by exact Hlen.
  destruct (new_B_accurate eps epsf B' HL He HF Hf (accepted_reflected L b Hb)) as (q & r & Hq & Hr & Fr & Er);
    try (rewrite Hlen'; assumption).
  destruct (new_b_from_B b q r Hb Hq Hr) as (Hr' & p & Hp & Ep).
  exists p, r. split; [exact Hp|]. split; [exact Hr'|]. split; [exact Fr|].
  rewrite Hlen' in Er. assert (nn b * u64 <= nn b * eps) by (apply Rmult_le_compat_l; [lra|exact He]).
  replace (B2R (r : f64) - p) with ((B2R (r : f64) - q) + (q - p)) by ring.
  eapply Rle_trans; [apply Rabs_triang|]. lra.
Qed.

Lemma new_b_accurate_short eps (b : list f64) :
  libm_accurate L eps -> bpow radix2 (-53) <= eps ->
  accepted64 b -> (1 <= List.length b < 127)%nat -> (asserts E = true -> (2 <= List.length b)%nat) ->
  65536 * (nn b * sq b) * eps <= 1 ->
  exists p r, is_prob (List.length b) (noncrossing_b (map B2R b)) p /\ @ecdf1_new_b BN E b = Ok r /\
    is_finite (r : f64) = true /\ Rabs (B2R (r : f64) - p) <= 60001 * (nn b * eps).
Proof.
  intros HL He Hb H1 Ha H2. destruct (len_ge1 b (proj1 H1)) as [HN HS].
  assert (Hlen : List.length (@reflected BN b) = List.length b) by (unfold reflected; rewrite map_length, rev_length; reflexivity).
  pose (B' := @reflected BN b : list f64). assert (Hlen' : List.length B' = List.length b) by exact Hlen.
  destruct (new_B_accurate_short eps B' HL He (accepted_reflected L b Hb)) as (q & r & Hq & Hr & Fr & Er);
    try (rewrite Hlen'; assumption).
  destruct (new_b_from_B b q r Hb Hq Hr) as (Hr' & p & Hp & Ep).
  exists p, r. split; [exact Hp|]. split; [exact Hr'|]. split; [exact Fr|].
  rewrite Hlen' in Er. assert (nn b * u64 <= nn b * eps) by (apply Rmult_le_compat_l; [lra|exact He]).
  replace (B2R (r : f64) - p) with ((B2R (r : f64) - q) + (q - p)) by ring.
  eapply Rle_trans; [apply Rabs_triang|]. lra.
Qed.

(** ** Numbers *)
Lemma sizes_1000 (v : list f64) : (1 <= List.length v <= 1000)%nat ->
  1 <= nn v <= 1000000 /\ 1 <= nn v * sq v <= 32000000.
Proof.
  intros [H1 H2]. destruct (len_ge1 v H1) as [HN HS].
  assert (H : INR (List.length v) <= 1000).
  { apply le_INR in H2. replace (INR 1000) with 1000 in H2; [exact H2|]. rewrite INR_IZR_INZ. reflexivity. }
  pose proof (pos_INR (List.length v)) as H0.
  assert (HS2 : sq v <= 32).
  { replace 32 with (sqrt (32 * 32)) by (rewrite sqrt_square; lra). apply sqrt_le_1; lra. }
  assert (HNN : nn v <= 1000000) by nra.
  split; [lra|]. split; [rewrite <- (Rmult_1_r 1) at 1; apply Rmult_le_compat; lra|].
  replace 32000000 with (1000000 * 32) by lra. apply Rmult_le_compat; lra.
Qed.

Lemma new_B_accurate_1000 (B : list f64) :
  libm_accurate L (bpow radix2 (-52)) -> fft_accurate E (bpow radix2 (-47)) ->
  accepted64 B -> (1 <= List.length B <= 1000)%nat -> (asserts E = true -> (2 <= List.length B)%nat) ->
  exists p r, is_prob (List.length B) (noncrossing_B (map B2R B)) p /\ @ecdf1_new_B BN E B = Ok r /\
    is_finite (r : f64) = true /\ Rabs (B2R (r : f64) - p) <= 1 / 10000.
Proof.
  intros HL HF HB Hn Ha. destruct (sizes_1000 B Hn) as [K1 K2].
  assert (H52 : bpow radix2 (-52) = / 4503599627370496) by reflexivity.
  assert (H47 : bpow radix2 (-47) = / 140737488355328) by reflexivity.
  destruct (new_B_accurate (bpow radix2 (-52)) (bpow radix2 (-47)) B HL) as (p & r & Hp & Hr & Fr & Er);
    try assumption; try lia; try (apply bpow_le; lia); try (rewrite ?H52, ?H47; lra).
  exists p, r. split; [exact Hp|]. split; [exact Hr|]. split; [exact Fr|].
  eapply Rle_trans; [exact Er|]. rewrite H52, H47. lra.
Qed.
Lemma new_b_accurate_1000 (b : list f64) :
  libm_accurate L (bpow radix2 (-52)) -> fft_accurate E (bpow radix2 (-47)) ->
  accepted64 b -> (1 <= List.length b <= 1000)%nat -> (asserts E = true -> (2 <= List.length b)%nat) ->
  exists p r, is_prob (List.length b) (noncrossing_b (map B2R b)) p /\ @ecdf1_new_b BN E b = Ok r /\
    is_finite (r : f64) = true /\ Rabs (B2R (r : f64) - p) <= 1 / 10000.
Proof.
  intros HL HF HB Hn Ha. destruct (sizes_1000 b Hn) as [K1 K2].
  assert (H52 : bpow radix2 (-52) = / 4503599627370496) by reflexivity.
  assert (H47 : bpow radix2 (-47) = / 140737488355328) by reflexivity.
  destruct (new_b_accurate (bpow radix2 (-52)) (bpow radix2 (-47)) b HL) as (p & r & Hp & Hr & Fr & Er);
    try assumption; try lia; try (apply bpow_le; lia); try (rewrite ?H52, ?H47; lra).
  exists p, r. split; [exact Hp|]. split; [exact Hr|]. split; [exact Fr|].
  eapply Rle_trans; [exact Er|]. rewrite H52, H47. lra.
Qed.
End Final.
