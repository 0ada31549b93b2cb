(** * GofFast: Kolmogorov-Smirnov p-values computed by a -ffast-math build. *)
From Coquelicot Require Import Coquelicot.
From Flocq Require Import Core.Core IEEE754.BinarySingleNaN.
From Coq Require Import ZArith Reals List Bool Lia Lra.
From Verif Require Import Base Num Common Ecdf2 Ecdf1New Binary64 Binary64Facts B64Round Spec SpecFacts ProbSums ProbLipschitz MnsMath NewMath ExactEnv Cases ExactFacts ExactMore.
From Verif Require Import AccPmf AccFft AccMain AccNewFinal AccCases AccCli GofSpec GofKs BjMain.
From Verif Require Import FastMath FastInst FastMain FastFft FastFftMain FastNewFinal FastNewLower.
From Verif Require Import GofAcc.
Import List. Import ListNotations.
Local Open Scope R_scope.

(** ** From the accuracy for the rounded boundaries to the p-value *)
Definition close (delta : R) (v w : list R) : Prop :=
  List.length v = List.length w /\ forall i, (i < List.length w)%nat -> Rabs (nth i v 0 - nth i w 0) <= delta.
Lemma within_close delta (v : list f64) w : within delta v w -> close delta (map B2R v) w.
Proof. intros W. split; [rewrite map_length; exact (proj1 W)|]. intros i Hi. apply within_nth; auto. Qed.
Lemma close_distance delta v w : close delta v w -> distance v w <= INR (List.length w) * delta.
Proof. intros (HL & H). pose proof (distance_bound delta v w) as HD. rewrite HL in HD. apply HD; auto. Qed.
Lemma ks_asserts n d delta (b B : list R) : (1 <= n)%nat -> 2 * delta <= d -> 2 * delta <= 1 -> 0 <= d ->
  close delta b (ks_lower n d) -> close delta B (ks_upper n d) ->
  forall i, (S i < n)%nat -> nth i b 0 <= nth (S i) B 0.
Proof.
  intros Hn Hd1 Hd2 Hd Wb WB i Hi.
  pose proof (proj2 Wb i ltac:(rewrite ks_lower_length; lia)) as H1.
  pose proof (proj2 WB (S i) ltac:(rewrite ks_upper_length; lia)) as H2.
  rewrite ks_lower_nth in H1 by lia. rewrite ks_upper_nth in H2 by lia. apply Rabs_le_inv in H1, H2.
  pose proof (div_ge_0 n (S i)) as G0. pose proof (div_le_1 n (S i) ltac:(lia) ltac:(lia)) as G1.
  set (t := INR (S i) / INR n) in *. unfold Rmax, Rmin in *. destruct (Rle_dec 0 (t - d)); destruct (Rle_dec 1 (t + d)); lra.
Qed.
Lemma ks_from_two n d delta (b B : list R) q : (1 <= n)%nat -> 0 <= d -> valid_boundary b -> valid_boundary B ->
  close delta b (ks_lower n d) -> close delta B (ks_upper n d) -> is_noncrossing_probability b B q ->
  exists p, is_prob n (fun l => ~ ks_at_most d l) p /\ Rabs (q - (1 - p)) <= 2 * (INR n * (INR n * delta)).
Proof.
  intros Hn Hd Hb HB Wb WB Hq.
  assert (Lb : List.length b = n) by exact (eq_trans (proj1 Wb) (ks_lower_length n d)).
  assert (LB : List.length B = n) by exact (eq_trans (proj1 WB) (ks_upper_length n d)).
  assert (HP : exists p, is_noncrossing_probability (ks_lower n d) (ks_upper n d) p).
  { destruct (ecdf2_exact (some_env false) (ks_lower n d) (ks_upper n d) false) as (p & Hp & _);
      auto using ks_lower_valid, ks_upper_valid; try discriminate; [rewrite ks_lower_length, ks_upper_length; reflexivity|apply isort_ok; reflexivity|eauto]. }
  destruct HP as (p & Hp). exists (1 - p). split.
  { destruct Hp as (_ & Hp). rewrite ks_lower_length in Hp.
    apply (is_prob_ext n (fun l => ~ noncrossing (ks_lower n d) (ks_upper n d) l)); [|apply is_prob_not; exact Hp].
    intros l Hl HR. rewrite (ks_event n d l) by (auto; lia). tauto. }
  pose proof (prob_close b B (ks_lower n d) (ks_upper n d) q p) as HC.
  rewrite ks_lower_length, ks_upper_length, Lb, LB in HC.
  specialize (HC eq_refl eq_refl (proj2 Hb) (proj2 (ks_lower_valid n d Hd)) (proj2 HB) (proj2 (ks_upper_valid n d Hd)) Hq Hp).
  pose proof (close_distance delta b _ Wb) as D1. pose proof (close_distance delta B _ WB) as D2.
  rewrite ks_lower_length in D1. rewrite ks_upper_length in D2.
  assert (INR n * (distance b (ks_lower n d) + distance B (ks_upper n d)) <= INR n * (INR n * delta + INR n * delta))
    by (apply Rmult_le_compat_l; [apply pos_INR|lra]).
  apply Rabs_le_inv in HC. apply Rabs_le. lra.
Qed.
Lemma ks_from_b n d delta (v : list R) q : 0 <= d -> valid_boundary v -> close delta v (ks_lower n d) -> is_prob n (noncrossing_b v) q ->
  exists p, is_prob n (fun l => ~ ks_plus_at_most d l) p /\ Rabs (q - (1 - p)) <= INR n * (INR n * delta).
Proof.
  intros Hd Hv W Hq. assert (Lv : List.length v = n) by exact (eq_trans (proj1 W) (ks_lower_length n d)).
  assert (HP : exists p, is_prob n (noncrossing_b (ks_lower n d)) p) by (eexists; apply prob_is_D_b; [apply ks_lower_valid; exact Hd|apply ks_lower_length]).
  destruct HP as (p & Hp). exists (1 - p). split.
  { apply (is_prob_ext n (fun l => ~ noncrossing_b (ks_lower n d) l)); [|apply is_prob_not; exact Hp].
    intros l Hl HR. rewrite (ks_plus_event n d l) by auto. tauto. }
  pose proof (prob_b_close v (ks_lower n d) q p) as HC. rewrite ks_lower_length, Lv in HC.
  specialize (HC eq_refl (proj2 Hv) (proj2 (ks_lower_valid n d Hd)) Hq Hp).
  pose proof (close_distance delta v _ W) as D1. rewrite ks_lower_length in D1.
  pose proof (Rmult_le_compat_l (INR n) _ _ (pos_INR n) D1). apply Rabs_le_inv in HC. apply Rabs_le. lra.
Qed.
Lemma ks_from_B n d delta (v : list R) q : (1 <= n)%nat -> 0 <= d -> valid_boundary v -> close delta v (ks_upper n d) -> is_prob n (noncrossing_B v) q ->
  exists p, is_prob n (fun l => ~ ks_minus_at_most d l) p /\ Rabs (q - (1 - p)) <= INR n * (INR n * delta).
Proof.
  intros Hn Hd Hv W Hq. assert (Lv : List.length v = n) by exact (eq_trans (proj1 W) (ks_upper_length n d)).
  assert (HP : exists p, is_prob n (noncrossing_B (ks_upper n d)) p) by (eexists; apply prob_is_D_B; [apply ks_upper_valid; exact Hd|apply ks_upper_length]).
  destruct HP as (p & Hp). exists (1 - p). split.
  { apply (is_prob_ext n (fun l => ~ noncrossing_B (ks_upper n d) l)); [|apply is_prob_not; exact Hp].
    intros l Hl HR. rewrite (ks_minus_event n d l) by (auto; lia). tauto. }
  pose proof (prob_B_close v (ks_upper n d) q p) as HC. rewrite ks_upper_length, Lv in HC.
  specialize (HC eq_refl (proj2 Hv) (proj2 (ks_upper_valid n d Hd)) Hq Hp).
  pose proof (close_distance delta v _ W) as D1. rewrite ks_upper_length in D1.
  pose proof (Rmult_le_compat_l (INR n) _ _ (pos_INR n) D1). apply Rabs_le_inv in HC. apply Rabs_le. lra.
Qed.

(** ** The compiled functions *)
Section Ks.
Context (C : compiler) (L : libm) (E : env (Fnum C L)).

Theorem ks_two_sided_fast (n : nat) (d delta : R) (b B : list f64) (use_fft : bool) :
  fast_libm_accurate (cp_flush C) L (bpow radix2 (-50)) -> (use_fft = true -> fast_fft_accurate C L E (bpow radix2 (-47))) -> sort_ok E ->
  (1 <= n <= 1000)%nat -> 2 * delta <= d -> 2 * delta <= 1 -> 0 <= d ->
  accepted64 b -> accepted64 B -> Forall (fun x : f64 => B2R x = 0 \/ bpow radix2 (-900) <= B2R x) b ->
  Forall (fun x : f64 => B2R x = 0 \/ bpow radix2 (-900) <= B2R x) B ->
  within delta b (ks_lower n d) -> within delta B (ks_upper n d) ->
  exists p r, is_prob n (fun l => ~ ks_at_most d l) p /\ @ecdf2 (Fnum C L) E (map lit b) (map lit B) use_fft = Ok r /\
    is_finite (cp_sum C r) = true /\ Rabs (B2R (cp_sum C r) - (1 - p)) <= 1 / 10000 + 2 * (INR n * (INR n * delta)).
Proof.
  intros HL HF HS Hn Hd1 Hd2 Hd Hb HB Pb PB Wb WB.
  assert (Lb : List.length b = n) by (rewrite (proj1 Wb); apply ks_lower_length).
  assert (LB : List.length B = n) by (rewrite (proj1 WB); apply ks_upper_length).
  assert (HA : asserts E = true -> forall i, (S i < List.length b)%nat -> nth i (map B2R b) 0 <= nth (S i) (map B2R B) 0).
  { intros _ i Hi. apply (ks_asserts n d delta); auto using within_close; [lia|]. rewrite <- Lb. exact Hi. }
  assert (HX : exists q r, is_noncrossing_probability (map B2R b) (map B2R B) q /\ @ecdf2 (Fnum C L) E (map lit b) (map lit B) use_fft = Ok r /\
    is_finite (cp_sum C r) = true /\ Rabs (B2R (cp_sum C r) - q) <= 1 / 10000).
  { destruct use_fft.
    - destruct (ecdf2_fast_fft_1000 C L E b B true) as (q & r & Hq & Hr & Fr & Er); auto; try lia.
      exists q, r. split; auto. split; auto. split; auto. lra.
    - destruct (ecdf2_fast_1000 C L E b B) as (q & r & Hq & Hr & Fr & Er); auto; try lia.
      exists q, r. split; auto. split; auto. split; auto. eapply Rle_trans; [exact Er|].
      pose proof (is_prob_range _ _ _ (proj2 Hq)) as Rq.
      assert (bpow radix2 (-900) <= bpow radix2 (-20)) by (apply bpow_le; lia).
      assert (bpow radix2 (-20) <= 1 / 1000000) by (change (bpow radix2 (-20)) with (/ 1048576); lra). lra. }
  destruct HX as (q & r & Hq & Hr & Fr & Er).
  destruct (ks_from_two n d delta (map B2R b) (map B2R B) q ltac:(lia) Hd (proj2 Hb) (proj2 HB) (within_close _ _ _ Wb) (within_close _ _ _ WB) Hq) as (p & Hp & Ep). exists p, r. split; auto. split; auto. split; auto.
  replace (B2R (cp_sum C r) - (1 - p)) with ((B2R (cp_sum C r) - q) + (q - (1 - p))) by ring. eapply Rle_trans; [apply Rabs_triang|]. lra.
Qed.

Theorem ks_one_sided_fast (n : nat) (d delta : R) (v : list f64) :
  fast_libm_accurate (cp_flush C) L (bpow radix2 (-50)) -> fast_fft_accurate C L E (bpow radix2 (-47)) -> fft_stores C L E ->
  (1 <= n <= 1000)%nat -> (asserts E = true -> (2 <= n)%nat) -> 0 <= d -> accepted64 v ->
  Forall (fun x : f64 => B2R x = 0 \/ bpow radix2 (-900) <= B2R x) v ->
  (within delta v (ks_lower n d) -> exists p r, is_prob n (fun l => ~ ks_plus_at_most d l) p /\ ecdf1_new_b_stored C L E (map lit v) = Ok r /\
    is_finite (cp_sum C r) = true /\ Rabs (B2R (cp_sum C r) - (1 - p)) <= 12 / 100000 + INR n * (INR n * delta)) /\
  (within delta v (ks_upper n d) -> exists p r, is_prob n (fun l => ~ ks_minus_at_most d l) p /\ @ecdf1_new_B (Fnum C L) E (map lit v) = Ok r /\
    is_finite (cp_sum C r) = true /\ Rabs (B2R (cp_sum C r) - (1 - p)) <= 12 / 100000 + INR n * (INR n * delta)).
Proof.
  intros HL HF HT Hn Ha Hd Hv Pv. split; intros W.
  - assert (Lv : List.length v = n) by (rewrite (proj1 W); apply ks_lower_length).
    destruct (new_b_fast_1000 C L E v) as (q & r & Hq & Hr & Fr & Er); auto; try (rewrite Lv; auto). rewrite Lv in Hq.
    destruct (ks_from_b n d delta (map B2R v) q Hd (proj2 Hv) (within_close _ _ _ W) Hq) as (p & Hp & Ep). exists p, r. split; auto. split; auto. split; auto.
    replace (B2R (cp_sum C r) - (1 - p)) with ((B2R (cp_sum C r) - q) + (q - (1 - p))) by ring. eapply Rle_trans; [apply Rabs_triang|]. lra.
  - assert (Lv : List.length v = n) by (rewrite (proj1 W); apply ks_upper_length).
    destruct (new_B_fast_1000 C L E v) as (q & r & Hq & Hr & Fr & Er); auto; try (rewrite Lv; auto). rewrite Lv in Hq.
    destruct (ks_from_B n d delta (map B2R v) q ltac:(lia) Hd (proj2 Hv) (within_close _ _ _ W) Hq) as (p & Hp & Ep). exists p, r. split; auto. split; auto. split; auto.
    replace (B2R (cp_sum C r) - (1 - p)) with ((B2R (cp_sum C r) - q) + (q - (1 - p))) by ring. eapply Rle_trans; [apply Rabs_triang|]. lra.
Qed.
End Ks.

(** The boundaries rounded to nearest: a rounded value is 0 or at least 2^-900 if the value is. *)
Lemma rounded_plain v : valid_boundary v -> Forall (fun t => t = 0 \/ bpow radix2 (-900) <= t) v ->
  Forall (fun x : f64 => B2R x = 0 \/ bpow radix2 (-900) <= B2R x) (map of_R v).
Proof.
  intros (_ & Rv) Pv. apply Forall_map. rewrite Forall_forall in *. intros t Ht. specialize (Rv t Ht).
  assert (HU : B2R (of_R t) = rnd t).
  { apply of_R_ok. rewrite Rabs_pos_eq by lra. apply Rle_trans with 1; [lra|]. apply (bpow_le radix2 0 60). lia. }
  rewrite HU. destruct (Pv t Ht) as [->|H]; [left; apply rnd_0|right].
  assert (HB : rnd (bpow radix2 (-900)) = bpow radix2 (-900)) by (apply bpow_format; lia).
  rewrite <- HB. apply round_le; [typeclasses eauto|typeclasses eauto|exact H].
Qed.
