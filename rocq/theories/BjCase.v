(** * BjCase: scipy's promises in binary64 can be kept. *)
From Coquelicot Require Import Coquelicot.
From Flocq Require Import Core.Core IEEE754.BinarySingleNaN.
From Coq Require Import ZArith Reals List Bool Lia Lra String Permutation Sorted Factorial.
From Verif Require Import Base Num XReal Common Ecdf1New Cli Binary64 Binary64Facts Binary64Main B64Round SafeFft Spec SpecFacts Binary64Cases.
From Verif Require Import AccPmf RSum AccProd FftMath AccFft AccCases AccCli GofSpec GofKs GofBeta ExactBj BjFacts BjSearch BjMain.
Import List. Import ListNotations.
Local Open Scope R_scope.

(** The exact inverse, rounded to nearest. *)
Definition betaincinv_cr (a b : Z) (x : f64) : f64 :=
  match betaincinv_exact a b (Fin (B2R x)) with Fin y => of_R y | _ => B754_nan end.

Lemma bounds_cr L n (x : f64) : 0 <= B2R x <= 1 -> exists b, thresholds n (B2R x) b /\ @Mn_plus_bounds (Bnum L) betaincinv_cr n x = map of_R b.
Proof.
  intros Hx. destruct (bounds_exact (frexp := fun _ => 0%Z) betaincinv_exact n (B2R x) betaincinv_exact_ok Hx) as (b & Eb & Hb).
  exists b. split; auto. unfold Mn_plus_bounds in *. revert Eb. generalize (arange 1 n) at 1 2. clear Hb. revert b.
  intros b l. revert b. induction l as [|i l IH]; intros [|y b] H; try discriminate; [reflexivity|].
  injection H as H1 H2. cbn [map]. f_equal; [|apply IH; exact H2].
  unfold betaincinv_cr. match type of H1 with ?t = _ => match goal with |- context [match ?u with Fin _ => _ | _ => _ end] => change u with t; rewrite H1 end end. reflexivity.
Qed.

Lemma of_R_unit y : 0 <= y <= 1 -> is_finite (of_R y) = true /\ B2R (of_R y) = rnd y.
Proof. intros H. apply of_R_ok. rewrite Rabs_pos_eq by lra. apply Rle_trans with 1; [lra|]. apply (bpow_le radix2 0 60). lia. Qed.

Lemma bounds_cr_accepted L n : bounds_accepted L betaincinv_cr n.
Proof.
  intros x Fx Hx. destruct (bounds_cr L n x) as (b & Hb & ->); [lra|]. pose proof (thresholds_valid _ _ _ Hb) as Vb.
  destruct Vb as (Sb & Rb). split.
  - apply Forall_map. eapply Forall_impl; [|exact Rb]. intros y Hy. apply of_R_unit. exact Hy.
  - replace (map B2R (map of_R b)) with (map (fun v => rnd v) b); [apply valid_rnd; split; auto|].
    rewrite map_map. clear Sb Hb. induction Rb as [|y b Hy Hb IH]; cbn [map]; auto. rewrite IH. f_equal. symmetry. apply of_R_unit. exact Hy.
Qed.

Lemma betaincinv_cr_accurate n : betaincinv_accurate betaincinv_cr n (bpow radix2 (-52)).
Proof.
  intros i x Hi Fx Hx. destruct (betaincinv_exact_ok (S i) (n - i)%nat (B2R x)) as (y & Hy & Ey & By); [lia|lia|lra|].
  exists y. split; auto. split; auto. unfold betaincinv_cr.
  match type of Ey with ?t = _ => match goal with |- context [match ?u with Fin _ => _ | _ => _ end] => change u with t; rewrite Ey end end.
  destruct (of_R_unit y Hy) as (_ & ->). eapply Rle_trans; [apply rnd_err|].
  rewrite Rabs_pos_eq by lra. pose proof u64_pos.
  assert (u64 * y <= u64) by (rewrite <- (Rmult_1_r u64) at 2; apply Rmult_le_compat_l; lra).
  assert (eta64 <= u64) by (unfold eta64, u64; apply bpow_le; lia).
  replace (bpow radix2 (-52)) with (2 * u64); [lra|]. unfold u64. change 2 with (bpow radix2 1). rewrite <- bpow_plus. reflexivity.
Qed.

Lemma cr_lengths a : fft_lengths (cr_env a).
Proof. split; intros; simpl; unfold cr_r2c, cr_c2r; rewrite map_length, seq_length; reflexivity. Qed.

Lemma libm_accurate_weaken L e e' : e <= e' -> libm_accurate L e -> libm_accurate L e'.
Proof.
  intros He [H1 H2 H3]. constructor.
  - intros x Fx Hx. destruct (H1 x Fx Hx) as (F & H). split; auto. eapply Rle_trans; [exact H|]. apply Rmult_le_compat_r; [apply Rabs_pos|exact He].
  - intros m Hm. destruct (H2 m Hm) as (F & H). split; auto. eapply Rle_trans; [exact H|]. apply Rmult_le_compat_r; [|exact He].
    rewrite <- ln_1. pose proof (le_INR 1 _ (lt_O_fact (Z.to_nat (m - 1)))) as HF. simpl (INR 1) in HF.
    destruct (Rle_lt_or_eq_dec _ _ HF) as [G|G]; [left; apply ln_increasing; lra|rewrite <- G; apply Rle_refl].
  - intros x Fx Hx. destruct (H3 x Fx Hx) as (F & H). split; auto. eapply Rle_trans; [exact H|].
    apply Rplus_le_compat_r, Rmult_le_compat_r; [left; apply exp_pos|exact He].
Qed.
Lemma fft_accurate_weaken L (E : env (Bnum L)) e e' : e <= e' -> fft_accurate E e -> fft_accurate E e'.
Proof.
  intros He (H1 & H2). split.
  - intros h x Hh Hl HF HS. destruct (H1 h x Hh Hl HF HS) as (L1 & L2). split; auto. intros k Hk.
    destruct (L2 k Hk) as (A & B). split; (eapply fabs_weaken; [|eassumption]);
    (apply Rplus_le_compat_r, Rmult_le_compat_r; [apply rsum_nonneg; intros; apply Rabs_pos|exact He]).
  - intros h z Hh Hl HF HS. destruct (H2 h z Hh Hl HF HS) as (L1 & L2). split; auto. intros j Hj.
    eapply fabs_weaken; [|apply L2; exact Hj]. apply Rplus_le_compat_r, Rmult_le_compat_r; [|exact He]. unfold l1c. apply Rmult_le_pos; [lra|]. apply rsum_nonneg. intros k Hk.
    pose proof (Rabs_pos (val_re z k)). pose proof (Rabs_pos (val_im z k)). lra.
Qed.

(** The level 0.5 for 50 points; and NaN is not a level. *)
Lemma case_level : exists (r : f64) report q, @inverse_Mn_plus (Bnum cr_libm) (cr_env true) betaincinv_cr 50 f_half = Value (r, report) /\
  is_finite r = true /\ 0 < B2R r <= 1 /\ is_prob 50 (Mn_below (B2R r)) q /\ Rabs (q - B2R f_half) <= 1 / 8000.
Proof.
  assert (H52 : bpow radix2 (-52) <= 1 / 10 ^ 11) by (change (bpow radix2 (-52)) with (/ IZR (2 ^ 52)); simpl; lra).
  assert (VH : B2R f_half = 1 / 2) by (unfold f_half, B2R, F2R; simpl; lra).
  apply (inverse_level_1000 cr_libm (cr_env true) betaincinv_cr 50 f_half (bpow radix2 (-52))).
  - apply bounds_cr_accepted.
  - lia.
  - lia.
  - apply betaincinv_cr_accurate.
  - pose proof (bpow_gt_0 radix2 (-52)). lra.
  - eapply libm_accurate_weaken; [|apply cr_accurate]. unfold u64. apply bpow_le. lia.
  - eapply fft_accurate_weaken; [|apply cr_fft_accurate]. unfold u64. apply bpow_le. lia.
  - apply cr_lengths.
  - reflexivity.
  - lra.
Qed.
Lemma case_fails : @inverse_Mn_plus (Bnum cr_libm) (cr_env true) betaincinv_cr 50 B754_nan = Exception "AssertionError".
Proof.
  apply inverse_fails.
  - apply bounds_cr_accepted.
  - vm_compute. split; discriminate.
  - apply cr_lengths.
  - discriminate.
  - intros j x _ _ _ (d & _ & H). destruct d; discriminate.
Qed.
