(** * FastGrow: how the error bounds grow along the sweep of ecdf2, for any unit roundoff and underflow threshold. *)
From Coquelicot Require Import Coquelicot.
From Flocq Require Import Core.Core.
From Coq Require Import ZArith Reals List Bool Lia Lra.
From Verif Require Import Base Num RSum ErrBound AccGrow.
Import List.
Local Open Scope R_scope.

Definition ff1 (eps : R) (n : nat) : R := 1 + 6400 * (INR n * eps).
Definition fconv_abs (u eta : R) (n : nat) (fa fb a b : R) : R :=
  (1 + u) ^ (n + 2) * (b * fa + a * fb + INR (S n) * (a * b) + INR (n + 2) * eta).
Definition fconv_fac (u : R) (n : nat) (fa fb : R) : R := fa * fb * (1 + u) ^ (n + 2).

Section Grow.
Context (u eps eta : R).
Hypothesis Hu : bpow radix2 (-53) <= u.
Hypothesis Heps : u <= eps.
Hypothesis Heta0 : 0 < eta.
Hypothesis Heta : eta <= bpow radix2 (-1010).
Variable n : nat.
Hypothesis Hn1 : (1 <= n)%nat.
Notation N := (INR n).
Hypothesis Hn : 65536 * (N * N) * eps <= 1.

Lemma fu_pos : 0 < u.
Proof. pose proof (bpow_gt_0 radix2 (-53)). lra. Qed.
Lemma fN_ge1 : 1 <= N.
Proof. apply (le_INR 1). exact Hn1. Qed.
Lemma feps_pos : 0 < eps.
Proof. pose proof fu_pos. lra. Qed.
Lemma fNeps : 0 < N * eps /\ N * eps <= / 65536.
Proof. pose proof fN_ge1. pose proof feps_pos. nra. Qed.
Lemma feps_small : eps <= / 65536.
Proof. pose proof fN_ge1. pose proof feps_pos. pose proof fNeps. nra. Qed.
Lemma fN2_bound : N * N <= bpow radix2 37.
Proof.
  assert (H : 65536 * (N * N) * bpow radix2 (-53) <= 1).
  { eapply Rle_trans; [|exact Hn]. apply Rmult_le_compat_l; [|lra]. pose proof fN_ge1. nra. }
  apply (Rmult_le_reg_r (bpow radix2 (-37))); [apply bpow_gt_0|].
  rewrite <- bpow_plus. change (bpow radix2 (37 + -37)) with 1.
  replace (bpow radix2 (-37)) with (65536 * bpow radix2 (-53)); [lra|].
  change 65536 with (bpow radix2 16). rewrite <- bpow_plus. reflexivity.
Qed.
Lemma fN_19 : N <= bpow radix2 19.
Proof.
  destruct (Rle_or_lt N (bpow radix2 19)) as [H|H]; [exact H|exfalso].
  pose proof fN2_bound as H2. pose proof (bpow_gt_0 radix2 19) as H0.
  assert (bpow radix2 19 * bpow radix2 19 < N * N) by (apply Rmult_le_0_lt_compat; lra).
  rewrite <- bpow_plus in H1. pose proof (bpow_lt radix2 37 (19 + 19) ltac:(lia)). lra.
Qed.
Lemma fn_small : (Z.of_nat n <= 2 ^ 19)%Z.
Proof.
  apply le_IZR. rewrite <- INR_IZR_INZ. change (IZR (2 ^ 19)) with (IZR (Zpower radix2 19)). rewrite IZR_Zpower by lia.
  exact fN_19.
Qed.
Lemma feta_u : eta <= u.
Proof. eapply Rle_trans; [exact Heta|]. eapply Rle_trans; [|exact Hu]. apply bpow_le. lia. Qed.

Definition fh : R := ff1 eps n * (1 + u) ^ (n + 2).
Let X := N * N * eps.
Lemma fX_range : 0 < X <= / 65536.
Proof. unfold X. pose proof fN_ge1. pose proof feps_pos. split; [apply Rmult_lt_0_compat; nra|lra]. Qed.
Lemma fNeps_X : N * eps <= X.
Proof. unfold X. pose proof fN_ge1. pose proof feps_pos. assert (0 < N * eps) by nra. nra. Qed.

Lemma fh_ge1 : 1 <= fh.
Proof.
  unfold fh, ff1. pose proof fNeps as [H _]. pose proof (pow_ge1 u (n + 2) (Rlt_le _ _ fu_pos)). nra.
Qed.

Lemma fh_exp : fh <= exp (6403 * (N * eps)).
Proof.
  pose proof fN_ge1 as HN. pose proof feps_pos as He. pose proof fu_pos as Hu0.
  pose proof fNeps as [H _].
  unfold fh, ff1. replace (6403 * (N * eps)) with (6400 * (N * eps) + 3 * (N * eps)) by ring. rewrite exp_plus.
  apply Rmult_le_compat; [lra|apply pow_le; lra|apply exp_ineq1_le|].
  eapply Rle_trans; [apply pow_exp_le; lra|].
  assert (HI : INR (n + 2) * u <= 3 * (N * eps)).
  { rewrite plus_INR. change (INR 2) with 2. apply Rle_trans with (3 * N * u); [nra|]. nra. }
  destruct (Rle_lt_or_eq_dec _ _ HI) as [Hlt|Heq]; [apply Rlt_le, exp_increasing, Hlt|rewrite Heq; lra].
Qed.

Lemma fh_pow t : (t <= 2 * n + 1)%nat -> fh ^ t <= 1 + 27200 * X.
Proof.
  intros Ht. pose proof fh_ge1 as H1. pose proof fX_range as HX. pose proof fN_ge1 as HN.
  pose proof feps_pos as He. pose proof fNeps as [HNe _].
  apply Rle_trans with (exp (19209 * X)).
  - apply Rle_trans with (exp (6403 * (N * eps)) ^ t).
    + apply pow_incr. split; [lra|apply fh_exp].
    + assert (HE : forall y k, exp y ^ k = exp (INR k * y)).
      { intros y k. induction k as [|k IH]; [simpl; rewrite Rmult_0_l, exp_0; reflexivity|].
        rewrite S_INR, Rmult_plus_distr_r, Rmult_1_l, exp_plus, <- IH. simpl. ring. }
      rewrite HE.
      assert (Hle : INR t * (6403 * (N * eps)) <= 19209 * X).
      { assert (INR t <= 3 * N).
        { apply Rle_trans with (INR (3 * n)); [apply le_INR; lia|]. rewrite mult_INR. simpl. lra. }
        unfold X. replace (19209 * (N * N * eps)) with (3 * N * (6403 * (N * eps))) by ring.
        apply Rmult_le_compat_r; lra. }
      destruct (Rle_lt_or_eq_dec _ _ Hle) as [Hlt|Heq]; [apply Rlt_le, exp_increasing, Hlt|rewrite Heq; lra].
  - eapply Rle_trans; [apply (exp_small _ (29311 / 100000)); lra|]. lra.
Qed.

Lemma fh_pow2 t : (t <= 2 * n + 1)%nat -> 1 <= fh ^ t <= 3 / 2.
Proof.
  intros Ht. pose proof (fh_pow t Ht). pose proof fX_range. split; [|lra].
  apply pow_R1_Rle, fh_ge1.
Qed.

Lemma ff1_range : 1 <= ff1 eps n <= 3 / 2.
Proof. unfold ff1. pose proof fNeps. lra. Qed.

Lemma fgrow2 : (1 + u) ^ (n + 2) <= 3 / 2.
Proof.
  pose proof (fh_pow2 1 ltac:(lia)) as [_ H]. rewrite pow_1 in H. unfold fh in H. pose proof ff1_range.
  pose proof (pow_ge1 u (n + 2) (Rlt_le _ _ fu_pos)). nra.
Qed.

(** [dl]: the error a convolution may add (0 for the direct convolution) *)
Variable dl : R.
Hypothesis Hdl : 0 <= dl.
Hypothesis Hdl32 : 32 * (N * N) * dl <= 1.

Definition fkap : R := (4 * N + 10) * eta + dl.
Definition fav (t : nat) : R := INR t * fh ^ t * fkap.

Lemma fav_bound t : (t <= 2 * n + 1)%nat -> 0 <= fav t <= 84 * (N * N) * eta + 6 * N * dl.
Proof.
  intros Ht. pose proof (fh_pow2 t Ht) as HP. pose proof fN_ge1 as HN.
  assert (Ht3 : 0 <= INR t <= 3 * N).
  { split; [apply pos_INR|]. apply Rle_trans with (INR (3 * n)); [apply le_INR; lia|]. rewrite mult_INR. simpl. lra. }
  assert (HK : 0 <= fkap <= 14 * N * eta + dl).
  { assert (0 <= (4 * N + 10) * eta <= 14 * N * eta) by (split; nra). unfold fkap. lra. }
  unfold fav. split; [apply Rmult_le_pos; [apply Rmult_le_pos; lra|lra]|].
  replace (84 * (N * N) * eta + 6 * N * dl) with (3 * N * 2 * (14 * N * eta + dl)) by ring.
  apply Rmult_le_compat; [apply Rmult_le_pos; lra|lra|apply Rmult_le_compat; lra|lra].
Qed.

Lemma ftiny : N * (N * N) * eta <= bpow radix2 (-950).
Proof.
  pose proof fN_19 as H1. pose proof fN2_bound as H2. pose proof fN_ge1 as HN.
  apply Rle_trans with (bpow radix2 19 * bpow radix2 37 * bpow radix2 (-1010)).
  - apply Rmult_le_compat; [nra|lra| |exact Heta]. apply Rmult_le_compat; nra.
  - rewrite <- !bpow_plus. apply bpow_le. lia.
Qed.

Lemma fav_n t : (t <= 2 * n + 1)%nat -> INR (S n) * fav t <= / 2.
Proof.
  intros Ht. pose proof (fav_bound t Ht) as [H0 H1]. pose proof fN_ge1 as HN.
  pose proof ftiny as HT. rewrite S_INR.
  apply Rle_trans with (2 * N * (84 * (N * N) * eta + 6 * N * dl)); [apply Rmult_le_compat; lra|].
  replace (2 * N * (84 * (N * N) * eta + 6 * N * dl)) with (168 * (N * (N * N) * eta) + 12 * (N * N * dl)) by ring.
  assert (bpow radix2 (-950) <= / 2048) by (change (/ 2048) with (bpow radix2 (-11)); apply bpow_le; lia). lra.
Qed.

Lemma fav_le1 t : (t <= 2 * n + 1)%nat -> 0 <= fav t <= / 2.
Proof.
  intros Ht. pose proof (fav_bound t Ht) as [H0 _]. split; [exact H0|].
  pose proof (fav_n t Ht) as H. rewrite S_INR in H. pose proof (pos_INR n).
  assert (0 <= N * fav t) by (apply Rmult_le_pos; lra). lra.
Qed.

Lemma ffac_step t : fconv_fac u n (ff1 eps n) (fh ^ t) = fh ^ S t.
Proof. unfold fconv_fac. cbn [pow]. unfold fh at 2. ring. Qed.

Lemma fabs_step t : (S t <= 2 * n + 1)%nat -> fconv_abs u eta n (ff1 eps n) (fh ^ t) eta (fav t) + dl <= fav (S t).
Proof.
  intros Ht. pose proof (fh_pow2 t ltac:(lia)) as HP. pose proof (fav_le1 t ltac:(lia)) as HA.
  pose proof fN_ge1 as HN. pose proof fgrow2 as HG.
  pose proof (pow_ge1 u (n + 2) (Rlt_le _ _ fu_pos)) as HG1. pose proof ff1_range as Hf. pose proof fh_ge1 as Hh.
  unfold fconv_abs. set (g := (1 + u) ^ (n + 2)) in *. rewrite S_INR, plus_INR. change (INR 2) with 2.
  apply Rle_trans with (fh * fav t + fkap).
  - unfold fkap.
    replace (fh * fav t) with (g * (fav t * ff1 eps n)) by (unfold fh, g; ring).
    replace (g * (fav t * ff1 eps n + eta * fh ^ t + (N + 1) * (eta * fav t) + (N + 2) * eta))
      with (g * (fav t * ff1 eps n) + g * (eta * fh ^ t + (N + 1) * (eta * fav t) + (N + 2) * eta)) by ring.
    rewrite Rplus_assoc. apply Rplus_le_compat_l, Rplus_le_compat_r.
    replace ((4 * N + 10) * eta) with (2 * ((2 * N + 5) * eta)) by ring.
    assert (E1 : eta * fh ^ t <= eta * 2) by (apply Rmult_le_compat_l; lra).
    assert (E2 : (N + 1) * (eta * fav t) <= (N + 1) * eta).
    { apply Rmult_le_compat_l; [lra|]. rewrite <- (Rmult_1_r eta) at 2. apply Rmult_le_compat_l; lra. }
    assert (E3 : 0 <= (N + 1) * (eta * fav t)) by (apply Rmult_le_pos; [|apply Rmult_le_pos]; lra).
    assert (E4 : 0 <= eta * fh ^ t) by (apply Rmult_le_pos; lra).
    assert (E5 : 0 <= (N + 2) * eta) by (apply Rmult_le_pos; lra).
    apply Rmult_le_compat; [lra|lra|lra|lra].
  - unfold fav. rewrite S_INR. cbn [pow].
    assert (HK : 0 <= fkap) by (unfold fkap; assert (0 <= (4 * N + 10) * eta) by (apply Rmult_le_pos; lra); lra).
    assert (HH : 1 <= fh * fh ^ t) by nra.
    replace (fh * (INR t * fh ^ t * fkap) + fkap) with (INR t * (fh * fh ^ t) * fkap + 1 * fkap) by ring.
    replace ((INR t + 1) * (fh * fh ^ t) * fkap) with (INR t * (fh * fh ^ t) * fkap + fh * fh ^ t * fkap) by ring.
    apply Rplus_le_compat_l, Rmult_le_compat_r; lra.
Qed.

Lemma fav_mono t : fav t <= fav (S t).
Proof.
  pose proof fh_ge1 as Hh. assert (HK : 0 <= fkap).
  { unfold fkap. pose proof fN_ge1. assert (0 <= (4 * N + 10) * eta) by (apply Rmult_le_pos; lra). lra. }
  unfold fav. rewrite S_INR. apply Rmult_le_compat_r; [exact HK|].
  pose proof (pos_INR t). pose proof (pow_R1_Rle fh t Hh).
  apply Rmult_le_compat; [lra|lra|lra|]. cbn [pow]. nra.
Qed.
Lemma fh_mono t : fh ^ t <= fh ^ S t.
Proof. pose proof fh_ge1 as Hh. pose proof (pow_R1_Rle fh t Hh). cbn [pow]. nra. Qed.
End Grow.
