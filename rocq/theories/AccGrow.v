(** * AccGrow: how the error bounds grow along the sweep of ecdf2. *)
From Coquelicot Require Import Coquelicot.
From Flocq Require Import Core.Core IEEE754.BinarySingleNaN.
From Coq Require Import ZArith Reals List Bool Lia Lra.
From Verif Require Import Base Num RSum Binary64 Binary64Facts ErrBound B64Round AccPmf AccConv.
Import List.
Local Open Scope R_scope.

Lemma pow_exp_le x k : 0 <= x -> (1 + x) ^ k <= exp (INR k * x).
Proof.
  intros Hx. induction k as [|k IH].
  - simpl. rewrite Rmult_0_l, exp_0. lra.
  - rewrite S_INR, Rmult_plus_distr_r, Rmult_1_l, exp_plus. cbn [pow].
    rewrite (Rmult_comm (exp _)).
    apply Rmult_le_compat; [lra|apply pow_le; lra|apply exp_ineq1_le|exact IH].
Qed.

Lemma exp_small s c : 0 <= s -> s <= c -> c < 1 -> exp s <= 1 + s / (1 - c).
Proof.
  intros Hs Hc H1. pose proof (exp_ineq1_le (- s)) as H. rewrite exp_Ropp in H.
  pose proof (exp_pos s) as Hp.
  assert (Hm : exp s * (1 - s) <= 1).
  { apply Rle_trans with (exp s * / exp s); [|rewrite Rinv_r; lra].
    apply Rmult_le_compat_l; lra. }
  apply (Rmult_le_reg_r (1 - s)); [lra|]. eapply Rle_trans; [exact Hm|].
  assert (Hd : s / (1 - c) * (1 - c) = s) by (field; lra).
  assert (Hq : 0 <= s / (1 - c)) by (apply Rdiv_le_0_compat; lra).
  assert (s / (1 - c) * (1 - c) <= s / (1 - c) * (1 - s)) by (apply Rmult_le_compat_l; lra). lra.
Qed.

Section Grow.
Context (eps : R).
Hypothesis Heps : u64 <= eps.
Variable n : nat.
Hypothesis Hn1 : (1 <= n)%nat.
Notation N := (INR n).
Hypothesis Hn : 65536 * (N * N) * eps <= 1.

Definition hf : R := f1 eps n * (1 + u64) ^ (n + 2).
Let X := N * N * eps.
Lemma X_range : 0 < X <= / 65536.
Proof. unfold X. pose proof (N_ge1 n Hn1). pose proof (eps_pos eps Heps). split; [apply Rmult_lt_0_compat; nra|lra]. Qed.
Lemma Neps_X : N * eps <= X.
Proof. unfold X. pose proof (N_ge1 n Hn1). pose proof (eps_pos eps Heps). assert (0 < N * eps) by nra. nra. Qed.

Lemma hf_ge1 : 1 <= hf.
Proof.
  unfold hf, f1. pose proof (Neps eps Heps n Hn1 Hn) as [H _]. pose proof (pow_ge1 u64 (n + 2) (Rlt_le _ _ u64_pos)). nra.
Qed.

Lemma hf_exp : hf <= exp (6403 * (N * eps)).
Proof.
  pose proof (N_ge1 n Hn1) as HN. pose proof (eps_pos eps Heps) as He. pose proof u64_pos as Hu.
  pose proof (Neps eps Heps n Hn1 Hn) as [H _].
  unfold hf, f1. replace (6403 * (N * eps)) with (6400 * (N * eps) + 3 * (N * eps)) by ring. rewrite exp_plus.
  apply Rmult_le_compat; [lra|apply pow_le; lra|apply exp_ineq1_le|].
  eapply Rle_trans; [apply pow_exp_le; lra|].
  assert (HI : INR (n + 2) * u64 <= 3 * (N * eps)).
  { rewrite plus_INR. change (INR 2) with 2. apply Rle_trans with (3 * N * u64); [nra|]. nra. }
  destruct (Rle_lt_or_eq_dec _ _ HI) as [Hlt|Heq]; [apply Rlt_le, exp_increasing, Hlt|rewrite Heq; lra].
Qed.

Lemma hf_pow t : (t <= 2 * n + 1)%nat -> hf ^ t <= 1 + 27200 * X.
Proof.
  intros Ht. pose proof hf_ge1 as H1. pose proof X_range as HX. pose proof (N_ge1 n Hn1) as HN.
  pose proof (eps_pos eps Heps) as He. pose proof (Neps eps Heps n Hn1 Hn) as [HNe _].
  apply Rle_trans with (exp (19209 * X)).
  - apply Rle_trans with (exp (6403 * (N * eps)) ^ t).
    + apply pow_incr. split; [lra|apply hf_exp].
    + assert (HE : forall y k, exp y ^ k = exp (INR k * y)).
      { intros y k. induction k as [|k IH]; [simpl; rewrite Rmult_0_l, exp_0; reflexivity|].
        rewrite S_INR, Rmult_plus_distr_r, Rmult_1_l, exp_plus, <- IH. simpl. ring. }
      rewrite HE.
      assert (Hle : INR t * (6403 * (N * eps)) <= 19209 * X).
      { assert (INR t <= 3 * N).
        { apply Rle_trans with (INR (3 * n)); [apply le_INR; lia|]. rewrite mult_INR. simpl. lra. }
        unfold X. replace (19209 * (N * N * eps)) with (3 * N * (6403 * (N * eps))) by ring.
        apply Rmult_le_compat_r; lra. }
      destruct (Rle_lt_or_eq_dec _ _ Hle) as [Hlt|Heq]; [apply Rlt_le, exp_increasing, Hlt|rewrite Heq; lra].
  - eapply Rle_trans; [apply (exp_small _ (29311 / 100000)); lra|]. lra.
Qed.

Lemma hf_pow2 t : (t <= 2 * n + 1)%nat -> 1 <= hf ^ t <= 2.
Proof.
  intros Ht. pose proof (hf_pow t Ht). pose proof X_range. split; [|lra].
  apply pow_R1_Rle, hf_ge1.
Qed.

Lemma f1_range : 1 <= f1 eps n <= 2.
Proof. unfold f1. pose proof (Neps eps Heps n Hn1 Hn). lra. Qed.

Lemma grow2 : (1 + u64) ^ (n + 2) <= 2.
Proof.
  pose proof (hf_pow2 1 ltac:(lia)) as [_ H]. rewrite pow_1 in H. unfold hf in H. pose proof f1_range.
  pose proof (pow_ge1 u64 (n + 2) (Rlt_le _ _ u64_pos)). nra.
Qed.

Lemma N2_bound : N * N <= bpow radix2 37.
Proof.
  assert (H : 65536 * (N * N) * u64 <= 1).
  { eapply Rle_trans; [|exact Hn]. apply Rmult_le_compat_l; [|exact Heps]. pose proof (N_ge1 n Hn1). nra. }
  unfold u64 in H. apply (Rmult_le_reg_r (bpow radix2 (-37))); [apply bpow_gt_0|].
  rewrite <- bpow_plus. change (bpow radix2 (37 + -37)) with 1.
  replace (bpow radix2 (-37)) with (65536 * bpow radix2 (-53)); [lra|].
  change 65536 with (bpow radix2 16). rewrite <- bpow_plus. reflexivity.
Qed.

(** [dl]: the error a convolution may add (0 for the direct convolution) *)
Variable dl : R.
Hypothesis Hdl : 0 <= dl.
Hypothesis Hdl32 : 32 * (N * N) * dl <= 1.

Definition kap : R := (4 * N + 8) * eta64 + dl.
Definition av (t : nat) : R := INR t * hf ^ t * kap.

Lemma av_bound t : (t <= 2 * n + 1)%nat -> 0 <= av t <= 72 * (N * N) * eta64 + 6 * N * dl.
Proof.
  intros Ht. pose proof (hf_pow2 t Ht) as HP. pose proof (N_ge1 n Hn1) as HN. pose proof eta64_pos as He.
  assert (Ht3 : 0 <= INR t <= 3 * N).
  { split; [apply pos_INR|]. apply Rle_trans with (INR (3 * n)); [apply le_INR; lia|]. rewrite mult_INR. simpl. lra. }
  assert (HK : 0 <= kap <= 12 * N * eta64 + dl).
  { assert (0 <= (4 * N + 8) * eta64 <= 12 * N * eta64) by (split; nra). unfold kap. lra. }
  unfold av. split; [apply Rmult_le_pos; [apply Rmult_le_pos; lra|lra]|].
  replace (72 * (N * N) * eta64 + 6 * N * dl) with (3 * N * 2 * (12 * N * eta64 + dl)) by ring.
  apply Rmult_le_compat; [apply Rmult_le_pos; lra|lra|apply Rmult_le_compat; lra|lra].
Qed.

Lemma av_n t : (t <= 2 * n + 1)%nat -> INR (S n) * av t <= / 2.
Proof.
  intros Ht. pose proof (av_bound t Ht) as [H0 H1]. pose proof (N_ge1 n Hn1) as HN.
  pose proof N2_bound as H2. pose proof eta64_pos as He. rewrite S_INR.
  apply Rle_trans with (2 * N * (72 * (N * N) * eta64 + 6 * N * dl)); [apply Rmult_le_compat; lra|].
  assert (Hsq : N <= N * N) by nra.
  assert (HT : N * (N * N) * eta64 <= / 2048).
  { apply Rle_trans with (bpow radix2 37 * bpow radix2 37 * eta64).
    - apply Rmult_le_compat_r; [lra|]. apply Rmult_le_compat; nra.
    - unfold eta64. rewrite <- !bpow_plus. change (/ 2048) with (bpow radix2 (-11)). apply bpow_le. lia. }
  replace (2 * N * (72 * (N * N) * eta64 + 6 * N * dl)) with (144 * (N * (N * N) * eta64) + 12 * (N * N * dl)) by ring.
  lra.
Qed.

Lemma av_le1 t : (t <= 2 * n + 1)%nat -> 0 <= av t <= 1.
Proof.
  intros Ht. pose proof (av_bound t Ht) as [H0 _]. split; [exact H0|].
  pose proof (av_n t Ht) as H. rewrite S_INR in H. pose proof (pos_INR n).
  assert (0 <= N * av t) by (apply Rmult_le_pos; lra). lra.
Qed.

Lemma fac_step t : conv_fac n (f1 eps n) (hf ^ t) = hf ^ S t.
Proof. unfold conv_fac. cbn [pow]. unfold hf at 2. ring. Qed.

Lemma abs_step t : (S t <= 2 * n + 1)%nat -> conv_abs n (f1 eps n) (hf ^ t) eta64 (av t) + dl <= av (S t).
Proof.
  intros Ht. pose proof (hf_pow2 t ltac:(lia)) as HP. pose proof (av_le1 t ltac:(lia)) as HA.
  pose proof (N_ge1 n Hn1) as HN. pose proof eta64_pos as He. pose proof grow2 as HG.
  pose proof (pow_ge1 u64 (n + 2) (Rlt_le _ _ u64_pos)) as HG1. pose proof f1_range as Hf. pose proof hf_ge1 as Hh.
  unfold conv_abs. set (g := (1 + u64) ^ (n + 2)) in *. rewrite S_INR.
  apply Rle_trans with (hf * av t + kap).
  - unfold kap. rewrite <- Rplus_assoc. apply Rplus_le_compat_r.
    replace (hf * av t) with (g * (av t * f1 eps n)) by (unfold hf, g; ring).
    replace (g * (av t * f1 eps n + eta64 * hf ^ t + (N + 1) * (eta64 * av t) + (N + 1) * eta64))
      with (g * (av t * f1 eps n) + g * (eta64 * hf ^ t + (N + 1) * (eta64 * av t) + (N + 1) * eta64)) by ring.
    apply Rplus_le_compat_l.
    replace ((4 * N + 8) * eta64) with (2 * ((2 * N + 4) * eta64)) by ring.
    assert (E1 : eta64 * hf ^ t <= eta64 * 2) by (apply Rmult_le_compat_l; lra).
    assert (E2 : (N + 1) * (eta64 * av t) <= (N + 1) * eta64).
    { apply Rmult_le_compat_l; [lra|]. rewrite <- (Rmult_1_r eta64) at 2. apply Rmult_le_compat_l; lra. }
    assert (E3 : 0 <= (N + 1) * (eta64 * av t)) by (apply Rmult_le_pos; [|apply Rmult_le_pos]; lra).
    assert (E4 : 0 <= eta64 * hf ^ t) by (apply Rmult_le_pos; lra).
    assert (E5 : 0 <= (N + 1) * eta64) by (apply Rmult_le_pos; lra).
    apply Rmult_le_compat; [lra|lra|exact HG|lra].
  - unfold av. rewrite S_INR. cbn [pow].
    assert (HK : 0 <= kap) by (unfold kap; assert (0 <= (4 * N + 8) * eta64) by (apply Rmult_le_pos; lra); lra).
    assert (HH : 1 <= hf * hf ^ t) by nra.
    replace (hf * (INR t * hf ^ t * kap) + kap) with (INR t * (hf * hf ^ t) * kap + 1 * kap) by ring.
    replace ((INR t + 1) * (hf * hf ^ t) * kap) with (INR t * (hf * hf ^ t) * kap + hf * hf ^ t * kap) by ring.
    apply Rplus_le_compat_l, Rmult_le_compat_r; lra.
Qed.

Lemma av_mono t : av t <= av (S t).
Proof.
  pose proof hf_ge1 as Hh. assert (HK : 0 <= kap).
  { unfold kap. pose proof (N_ge1 n Hn1). pose proof eta64_pos.
    assert (0 <= (4 * N + 8) * eta64) by (apply Rmult_le_pos; lra). lra. }
  unfold av. rewrite S_INR. apply Rmult_le_compat_r; [exact HK|].
  pose proof (pos_INR t). pose proof (pow_R1_Rle hf t Hh).
  apply Rmult_le_compat; [lra|lra|lra|]. cbn [pow]. nra.
Qed.
Lemma hf_mono t : hf ^ t <= hf ^ S t.
Proof. pose proof hf_ge1 as Hh. pose proof (pow_R1_Rle hf t Hh). cbn [pow]. nra. Qed.
End Grow.
