(** * GofAcc: Kolmogorov-Smirnov p-values computed in binary64. *)
From Coquelicot Require Import Coquelicot.
From Flocq Require Import Core.Core IEEE754.BinarySingleNaN.
From Coq Require Import ZArith Reals List Bool Lia Lra.
From Verif Require Import Base Num Common Ecdf2 Ecdf1New Binary64 Binary64Facts B64Round Spec SpecFacts ProbSums ProbLipschitz MnsMath NewMath ExactEnv Cases ExactFacts ExactMore.
From Verif Require Import AccPmf AccFft AccMain AccNewFinal AccCases AccCli GofSpec GofKs BjMain.
Import List. Import ListNotations.
Local Open Scope R_scope.

(** The doubles v are the numbers w up to delta. *)
Definition within (delta : R) (v : list f64) (w : list R) : Prop :=
  List.length v = List.length w /\ forall i, (i < List.length w)%nat -> Rabs (B2R (nth i v (b64_of_Z 0)) - nth i w 0) <= delta.

Lemma within_nth delta v w i : within delta v w -> (i < List.length w)%nat -> Rabs (nth i (map B2R v) 0 - nth i w 0) <= delta.
Proof.
  intros (HL & H) Hi. specialize (H i Hi). rewrite (nth_indep _ 0 (B2R (b64_of_Z 0))) by (eapply Nat.lt_le_trans; [exact Hi|]; rewrite map_length; apply Nat.eq_le_incl; symmetry; exact HL). rewrite map_nth. exact H.
Qed.
Lemma within_distance delta v w : within delta v w -> distance (map B2R v) w <= INR (List.length w) * delta.
Proof.
  intros H. pose proof (proj1 H) as HL. pose proof (distance_bound delta (map B2R v) w) as HD.
  assert (HL' : List.length (map B2R v) = List.length w) by (rewrite map_length; exact HL). rewrite HL' in HD.
  apply HD; auto. intros i Hi. apply within_nth; auto.
Qed.

Section Ks.
Context (L : libm) (E : env (Bnum L)).

Theorem ks_two_sided_64 (n : nat) (d delta : R) (b B : list f64) (use_fft : bool) :
  libm_accurate L (bpow radix2 (-52)) -> (use_fft = true -> fft_accurate E (bpow radix2 (-47))) -> sort_ok E ->
  (1 <= n <= 1000)%nat -> 2 * delta <= d -> 2 * delta <= 1 -> 0 <= d ->
  accepted64 b -> accepted64 B -> within delta b (ks_lower n d) -> within delta B (ks_upper n d) ->
  exists p r, is_prob n (fun l => ~ ks_at_most d l) p /\ @ecdf2 (Bnum L) E b B use_fft = Ok r /\
    is_finite (r : f64) = true /\ Rabs (B2R (r : f64) - (1 - p)) <= 1 / 10000 + 2 * (INR n * (INR n * delta)).
Proof.
  intros HL HF HS Hn Hd1 Hd2 Hd Hb HB Wb WB.
  assert (Lb : List.length b = n) by (rewrite (proj1 Wb); apply ks_lower_length).
  assert (LB : List.length B = n) by (rewrite (proj1 WB); apply ks_upper_length).
  assert (HA : asserts E = true -> forall i, (S i < List.length b)%nat -> nth i (map B2R b) 0 <= nth (S i) (map B2R B) 0).
  { intros _ i Hi. rewrite Lb in Hi.
    pose proof (within_nth delta b _ i Wb ltac:(rewrite ks_lower_length; lia)) as H1.
    pose proof (within_nth delta B _ (S i) WB ltac:(rewrite ks_upper_length; lia)) as H2.
    rewrite ks_lower_nth in H1 by lia. rewrite ks_upper_nth in H2 by lia. apply Rabs_le_inv in H1, H2.
    pose proof (div_ge_0 n (S i)) as G0. pose proof (div_le_1 n (S i) ltac:(lia) ltac:(lia)) as G1.
    set (t := INR (S i) / INR n) in *. unfold Rmax, Rmin in *. destruct (Rle_dec 0 (t - d)); destruct (Rle_dec 1 (t + d)); lra. }
  assert (HX : exists q r, is_noncrossing_probability (map B2R b) (map B2R B) q /\ @ecdf2 (Bnum L) E b B use_fft = Ok r /\
    is_finite (r : f64) = true /\ Rabs (B2R (r : f64) - q) <= 1 / 10000).
  { destruct use_fft.
    - apply ecdf2_fft_accurate_1000; auto; lia.
    - destruct (ecdf2_accurate_1000 L E b B) as (q & r & Hq & Hr & Fr & Er); auto; try lia.
      exists q, r. split; auto. split; auto. split; auto. eapply Rle_trans; [exact Er|].
      pose proof (is_prob_range _ _ _ (proj2 Hq)) as Rq.
      assert (bpow radix2 (-1000) <= bpow radix2 (-20)) by (apply bpow_le; lia).
      assert (bpow radix2 (-20) <= 1 / 1000000) by (change (bpow radix2 (-20)) with (/ 1048576); lra). lra. }
  destruct HX as (q & r & Hq & Hr & Fr & Er).
  assert (HP : exists p, is_noncrossing_probability (ks_lower n d) (ks_upper n d) p).
  { destruct (ecdf2_exact (some_env false) (ks_lower n d) (ks_upper n d) false) as (p & Hp & _);
      auto using ks_lower_valid, ks_upper_valid; try discriminate; [rewrite ks_lower_length, ks_upper_length; reflexivity|apply isort_ok; reflexivity|eauto]. }
  destruct HP as (p & Hp). exists (1 - p), r. split.
  { destruct Hp as (_ & Hp). rewrite ks_lower_length in Hp.
    apply (is_prob_ext n (fun l => ~ noncrossing (ks_lower n d) (ks_upper n d) l)); [|apply is_prob_not; exact Hp].
    intros l Hl HR. rewrite (ks_event n d l) by (auto; lia). tauto. }
  split; auto. split; auto.
  pose proof (prob_close (map B2R b) (map B2R B) (ks_lower n d) (ks_upper n d) q p) as HC.
  assert (Lb' : List.length (map B2R b) = n) by (rewrite map_length; exact Lb). assert (LB' : List.length (map B2R B) = n) by (rewrite map_length; exact LB).
  rewrite ks_lower_length, ks_upper_length, Lb', LB' in HC.
  specialize (HC eq_refl eq_refl (proj2 (proj2 Hb)) (proj2 (ks_lower_valid n d Hd)) (proj2 (proj2 HB)) (proj2 (ks_upper_valid n d Hd)) Hq Hp).
  pose proof (within_distance delta b _ Wb) as D1. pose proof (within_distance delta B _ WB) as D2.
  rewrite ks_lower_length in D1. rewrite ks_upper_length in D2.
  assert (INR n * (distance (map B2R b) (ks_lower n d) + distance (map B2R B) (ks_upper n d)) <= INR n * (INR n * delta + INR n * delta))
    by (apply Rmult_le_compat_l; [apply pos_INR|lra]).
  apply Rabs_le_inv in Er, HC. apply Rabs_le. lra.
Qed.

Theorem ks_one_sided_64 (n : nat) (d delta : R) (v : list f64) :
  libm_accurate L (bpow radix2 (-52)) -> fft_accurate E (bpow radix2 (-47)) ->
  (1 <= n <= 1000)%nat -> (asserts E = true -> (2 <= n)%nat) -> 0 <= d -> accepted64 v ->
  (within delta v (ks_lower n d) -> exists p r, is_prob n (fun l => ~ ks_plus_at_most d l) p /\ @ecdf1_new_b (Bnum L) E v = Ok r /\
    is_finite (r : f64) = true /\ Rabs (B2R (r : f64) - (1 - p)) <= 1 / 10000 + INR n * (INR n * delta)) /\
  (within delta v (ks_upper n d) -> exists p r, is_prob n (fun l => ~ ks_minus_at_most d l) p /\ @ecdf1_new_B (Bnum L) E v = Ok r /\
    is_finite (r : f64) = true /\ Rabs (B2R (r : f64) - (1 - p)) <= 1 / 10000 + INR n * (INR n * delta)).
Proof.
  intros HL HF Hn Ha Hd Hv. split; intros W.
  - assert (Lv : List.length v = n) by (rewrite (proj1 W); apply ks_lower_length).
    destruct (new_b_accurate_1000 L E v) as (q & r & Hq & Hr & Fr & Er); auto; try (rewrite Lv; auto).
    assert (HP : exists p, is_prob n (noncrossing_b (ks_lower n d)) p) by (eexists; apply prob_is_D_b; [apply ks_lower_valid; exact Hd|apply ks_lower_length]).
    destruct HP as (p & Hp). exists (1 - p), r. split.
    { apply (is_prob_ext n (fun l => ~ noncrossing_b (ks_lower n d) l)); [|apply is_prob_not; exact Hp].
      intros l Hl HR. rewrite (ks_plus_event n d l) by auto. tauto. }
    split; auto. split; auto.
    pose proof (prob_b_close (map B2R v) (ks_lower n d) q p) as HC. 
    assert (Lv' : List.length (map B2R v) = n) by (rewrite map_length; exact Lv). rewrite ks_lower_length, Lv' in HC. rewrite Lv in Hq.
    specialize (HC eq_refl (proj2 (proj2 Hv)) (proj2 (ks_lower_valid n d Hd)) Hq Hp).
    pose proof (within_distance delta v _ W) as D1. rewrite ks_lower_length in D1.
    pose proof (Rmult_le_compat_l (INR n) _ _ (pos_INR n) D1).
    apply Rabs_le_inv in Er, HC. apply Rabs_le. lra.
  - assert (Lv : List.length v = n) by (rewrite (proj1 W); apply ks_upper_length).
    destruct (new_B_accurate_1000 L E v) as (q & r & Hq & Hr & Fr & Er); auto; try (rewrite Lv; auto).
    assert (HP : exists p, is_prob n (noncrossing_B (ks_upper n d)) p) by (eexists; apply prob_is_D_B; [apply ks_upper_valid; exact Hd|apply ks_upper_length]).
    destruct HP as (p & Hp). exists (1 - p), r. split.
    { apply (is_prob_ext n (fun l => ~ noncrossing_B (ks_upper n d) l)); [|apply is_prob_not; exact Hp].
      intros l Hl HR. rewrite (ks_minus_event n d l) by (auto; lia). tauto. }
    split; auto. split; auto.
    pose proof (prob_B_close (map B2R v) (ks_upper n d) q p) as HC. 
    assert (Lv' : List.length (map B2R v) = n) by (rewrite map_length; exact Lv). rewrite ks_upper_length, Lv' in HC. rewrite Lv in Hq.
    specialize (HC eq_refl (proj2 (proj2 Hv)) (proj2 (ks_upper_valid n d Hd)) Hq Hp).
    pose proof (within_distance delta v _ W) as D1. rewrite ks_upper_length in D1.
    pose proof (Rmult_le_compat_l (INR n) _ _ (pos_INR n) D1).
    apply Rabs_le_inv in Er, HC. apply Rabs_le. lra.
Qed.
End Ks.

(** The boundaries rounded to nearest. *)
Lemma rounded_within v : valid_boundary v -> accepted64 (map of_R v) /\ within (bpow radix2 (-52)) (map of_R v) v.
Proof.
  intros (Sv & Rv).
  assert (HU : forall y, 0 <= y <= 1 -> is_finite (of_R y) = true /\ B2R (of_R y) = rnd y).
  { intros y H. apply of_R_ok. rewrite Rabs_pos_eq by lra. apply Rle_trans with 1; [lra|]. apply (bpow_le radix2 0 60). lia. }
  split; [split|split].
  - apply Forall_map. eapply Forall_impl; [|exact Rv]. intros y Hy. apply HU. exact Hy.
  - replace (map B2R (map of_R v)) with (map (fun v => rnd v) v); [apply valid_rnd; split; auto|].
    rewrite map_map. clear Sv. induction Rv as [|y b Hy Hb IH]; cbn [map]; auto. rewrite IH. f_equal. symmetry. apply HU. exact Hy.
  - apply map_length.
  - intros i Hi. rewrite (nth_indep _ (b64_of_Z 0) (of_R 0)) by (rewrite map_length; exact Hi). rewrite map_nth.
    assert (Hy : 0 <= nth i v 0 <= 1) by (rewrite Forall_forall in Rv; apply Rv, nth_In; exact Hi).
    destruct (HU _ Hy) as (_ & ->). eapply Rle_trans; [apply rnd_err|].
    rewrite Rabs_pos_eq by lra. pose proof u64_pos.
    assert (u64 * nth i v 0 <= u64) by (rewrite <- (Rmult_1_r u64) at 2; apply Rmult_le_compat_l; lra).
    assert (eta64 <= u64) by (unfold eta64, u64; apply bpow_le; lia).
    replace (bpow radix2 (-52)) with (2 * u64); [lra|]. unfold u64. change 2 with (bpow radix2 1). rewrite <- bpow_plus. reflexivity.
Qed.
