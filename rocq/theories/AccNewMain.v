(** * AccNewMain: the rounding error of ecdf1_new_B in binary64. *)
From Coquelicot Require Import Coquelicot.
From Flocq Require Import Core.Core IEEE754.BinarySingleNaN.
From Coq Require Import ZArith Reals List Bool Lia Lra String Permutation Sorted Factorial.
From Verif Require Import Base Num Hoare Common PoissonPmf FFTConv Ecdf1New RSum Binary64 Binary64Facts.
From Verif Require Import Spec SpecFacts Cells Events XEcdf2 XEcdf1New NewMath SafeFft SafeNew Binary64Main.
From Verif Require Import ErrBound B64Round AccPmf AccConv FftMath AccProd AccFft AccGrow AccStep AccEcdf2 AccMain AccNewPmf AccNewConv AccNewMath AccNewStep AccNewLoop.
Import List. Import ListNotations.
Local Open Scope R_scope.

(** ** A lower bound for the probability of n points at rate n *)
Lemma exp_ratio t : 0 <= t -> (1 - t) * exp t <= (1 + t) * exp (- t).
Proof.
  intros Ht. destruct (Rle_lt_or_eq_dec 0 t Ht) as [H|<-]; [|rewrite Ropp_0, exp_0; lra].
  pose (h := fun x => (1 + x) * exp (- x) - (1 - x) * exp x).
  destruct (MVT_gen h 0 t (fun x => x * exp x - x * exp (- x))) as (c & Hc & Heq).
  - intros x _. unfold h. auto_derive; [trivial|ring].
  - intros x _. apply continuity_pt_filterlim. apply (ex_derive_continuous h). unfold h. auto_derive. trivial.
  - unfold h in Heq. rewrite Ropp_0, exp_0 in Heq. rewrite Rmin_left, Rmax_right in Hc by lra.
    assert (He : exp (- c) <= exp c).
    { destruct (Rle_lt_or_eq_dec 0 c (proj1 Hc)) as [H0|<-]; [|rewrite Ropp_0; lra]. apply Rlt_le, exp_increasing. lra. }
    assert (0 <= (c * exp c - c * exp (- c)) * (t - 0)).
    { apply Rmult_le_pos; [|lra]. rewrite <- Rmult_minus_distr_l. apply Rmult_le_pos; lra. }
    lra.
Qed.

Lemma exp_pow x m : exp x ^ m = exp (INR m * x).
Proof.
  induction m as [|m IHm]; [simpl; rewrite Rmult_0_l, exp_0; reflexivity|].
  rewrite S_INR. replace ((INR m + 1) * x) with (x + INR m * x) by ring. rewrite exp_plus.
  cbn [pow]. rewrite IHm. reflexivity.
Qed.

Lemma e_pow n : (1 <= n)%nat -> exp 1 ^ 2 * INR n ^ (2 * n + 1) <= INR (S n) ^ (2 * n + 1).
Proof.
  intros Hn. assert (Hp : 0 < INR n) by (apply lt_0_INR; lia). set (k := (2 * n + 1)%nat).
  assert (Hk : INR k = 2 * INR n + 1) by (unfold k; rewrite plus_INR, mult_INR; simpl; ring).
  set (t := / INR k). assert (Ht0 : 0 < INR k) by lra.
  assert (Ht : 0 < t < 1).
  { unfold t. split; [apply Rinv_0_lt_compat; lra|]. rewrite <- Rinv_1. apply Rinv_lt_contravar; lra. }
  pose proof (exp_ratio t ltac:(lra)) as HE.
  assert (H1 : exp (2 * t) * INR n <= INR (S n)).
  { (* (1-t) e^{2t} <= 1+t, times n / (1-t) *)
    assert (Hm : exp (- t) * exp t = 1) by (rewrite <- exp_plus; replace (- t + t) with 0 by ring; apply exp_0).
    assert (HE2 : (1 - t) * exp (2 * t) <= 1 + t).
    { replace (2 * t) with (t + t) by ring. rewrite exp_plus.
      apply Rle_trans with ((1 + t) * exp (- t) * exp t); [|rewrite Rmult_assoc, Hm; lra].
      rewrite <- Rmult_assoc. apply Rmult_le_compat_r; [apply Rlt_le, exp_pos|exact HE]. }
    apply (Rmult_le_reg_l (2 * t)); [lra|].
    replace (2 * t * (exp (2 * t) * INR n)) with (2 * INR n * t * exp (2 * t)) by ring.
    assert (Htk : INR k * t = 1) by (unfold t; field; lra). rewrite Hk in Htk.
    replace (2 * INR n * t) with (1 - t) by lra. rewrite S_INR.
    replace (2 * t * (INR n + 1)) with ((2 * INR n + 1) * t + t) by ring. rewrite Htk. exact HE2. }
  assert (H2 : 0 <= exp (2 * t) * INR n <= INR (S n)).
  { split; [|exact H1]. apply Rmult_le_pos; [apply Rlt_le, exp_pos|lra]. }
  clear H1. pose proof (pow_incr _ _ k H2) as H1.
  rewrite Rpow_mult_distr, exp_pow in H1. replace (INR k * (2 * t)) with (INR 2 * 1) in H1 by (unfold t; simpl; field; lra).
  rewrite <- exp_pow in H1. exact H1.
Qed.

Lemma fact_bound2 n : (1 <= n)%nat -> (INR (fact n) * exp (INR n)) ^ 2 <= exp 1 ^ 2 * INR n ^ (2 * n + 1).
Proof.
  induction n as [|n IH]; intros Hn; [lia|]. destruct (Nat.eq_dec n 0) as [->|Hn0].
  - simpl. lra.
  - specialize (IH ltac:(lia)). pose proof (e_pow n ltac:(lia)) as HE.
    rewrite fact_simpl, mult_INR. rewrite S_INR at 2. rewrite exp_plus.
    replace ((INR (S n) * INR (fact n) * (exp (INR n) * exp 1)) ^ 2)
      with (exp 1 ^ 2 * INR (S n) ^ 2 * (INR (fact n) * exp (INR n)) ^ 2) by ring.
    replace (2 * S n + 1)%nat with (2 + (2 * n + 1))%nat by lia. rewrite pow_add, <- Rmult_assoc.
    apply Rmult_le_compat_l; [apply Rmult_le_pos; apply pow2_ge_0|]. eapply Rle_trans; [exact IH|exact HE].
Qed.

Lemma pois_nn_ge2 n : (1 <= n)%nat -> / (3 * sqrt (INR n)) <= pois (INR n) n.
Proof.
  intros Hn. pose proof (fact_bound2 n Hn) as H.
  assert (Hp : 0 < INR n) by (apply lt_0_INR; lia).
  pose proof (INR_fact_lt_0 n) as Hf. pose proof (exp_pos (INR n)) as He.
  pose proof (pow_lt _ n Hp) as HP. pose proof exp_le_3 as H3. pose proof (exp_pos 1) as He1.
  pose proof (sqrt_lt_R0 _ Hp) as Hs. pose proof (sqrt_sqrt (INR n) ltac:(lra)) as Hss.
  assert (HF : 0 < INR (fact n) * exp (INR n)) by (apply Rmult_lt_0_compat; lra).
  assert (Hle : INR (fact n) * exp (INR n) <= 3 * sqrt (INR n) * INR n ^ n).
  { apply Rsqr_incr_0_var; [|apply Rmult_le_pos; lra]. rewrite !Rsqr_pow2. eapply Rle_trans; [exact H|].
    replace ((3 * sqrt (INR n) * INR n ^ n) ^ 2) with (9 * (sqrt (INR n) * sqrt (INR n)) * (INR n ^ n * INR n ^ n)) by ring.
    rewrite Hss, <- pow_add. replace (9 * INR n * INR n ^ (n + n)) with (9 * INR n ^ (2 * n + 1)).
    2:{ replace (2 * n + 1)%nat with (S (n + n)) by lia. cbn [pow]. ring. }
    apply Rmult_le_compat_r; [apply pow_le; lra|]. simpl. nra. }
  apply (Rmult_le_reg_l (3 * sqrt (INR n))); [lra|]. rewrite Rinv_r by lra.
  unfold pois. rewrite exp_Ropp.
  apply (Rmult_le_reg_r (INR (fact n) * exp (INR n))); [exact HF|].
  replace (3 * sqrt (INR n) * (/ exp (INR n) * INR n ^ n / INR (fact n)) * (INR (fact n) * exp (INR n)))
    with (3 * sqrt (INR n) * INR n ^ n) by (field; lra).
  rewrite Rmult_1_l. exact Hle.
Qed.

(** ** The block length *)
Lemma jump_le L n k : (1 <= n <= INT_MAX)%Z -> @jump_size_for (Bnum L) n = Ok k -> IZR k <= 21 / 10 * sqrt (IZR n).
Proof.
  intros Hn Hk. destruct (jump_bounds n Hn) as (s & Fs & H2 & _ & _ & Hs).
  unfold jump_size_for in Hk.
  change (@n_trunc (Bnum L) (@n_add (Bnum L) (@n_sqrt (Bnum L) (n_of_Z n)) n1)) with (b64_trunc (Bplus mode_NE (Bsqrt mode_NE (b64_of_Z n)) (b64_of_Z 1))) in Hk.
  rewrite <- Hs in Hk. unfold b64_trunc in Hk. rewrite Fs in Hk.
  destruct (_ && _); [|discriminate]. injection Hk as <-.
  assert (HT : Btrunc s = Zfloor (B2R s)).
  { apply eq_IZR. rewrite (Btrunc_correct 53 1024 emax_ok), round_FIX_IZR, Ztrunc_floor by lra. reflexivity. }
  rewrite HT. eapply Rle_trans; [apply Zfloor_lb|].
  destruct (sqrt_ok n Hn) as [Fq Vq]. destruct one_ok as [F1 V1].
  assert (Hn1 : 1 <= IZR n) by (apply IZR_le; lia).
  assert (Hnm : IZR n <= 2147483647) by (apply IZR_le; unfold INT_MAX in Hn; lia).
  assert (Hs1 : 1 <= sqrt (IZR n)) by (rewrite <- sqrt_1; apply sqrt_le_1_alt; exact Hn1).
  assert (Hsn : sqrt (IZR n) <= IZR n).
  { apply Rsqr_incr_0_var; [|lra]. rewrite Rsqr_sqrt by lra. unfold Rsqr. nra. }
  pose proof u64_pos as Hu. pose proof eta64_pos as He.
  assert (Hus : u64 <= / 65536) by (unfold u64; change (/ 65536) with (bpow radix2 (-16)); apply bpow_le; lia).
  assert (Hes : eta64 <= u64) by (apply bpow_le; lia).
  pose proof (rnd_err (sqrt (IZR n))) as Hr. rewrite (Rabs_pos_eq (sqrt (IZR n))) in Hr by lra.
  set (q := Bsqrt mode_NE (b64_of_Z n)) in *. rewrite <- Vq in Hr.
  assert (Hq : B2R q <= 101 / 100 * sqrt (IZR n)).
  { apply Rabs_le_inv in Hr. assert (u64 * sqrt (IZR n) <= / 65536 * sqrt (IZR n)) by (apply Rmult_le_compat_r; lra). lra. }
  assert (Hq0 : 0 <= B2R q).
  { rewrite Vq, <- rnd_0. apply rnd_le. lra. }
  assert (H60 : bpow radix2 60 = 1152921504606846976) by (simpl; lra).
  destruct (plus_err q (b64_of_Z 1) Fq F1) as [_ Er].
  { rewrite V1, Rabs_pos_eq by lra. lra. }
  rewrite V1, (Rabs_pos_eq (B2R q + 1)) in Er by lra. rewrite <- Hs in Er. apply Rabs_le_inv in Er.
  assert (u64 * (B2R q + 1) <= / 65536 * (B2R q + 1)) by (apply Rmult_le_compat_r; lra). lra.
Qed.

(** ** The quotient *)
Section Quot.
Variables (eps : R) (n : nat).
Hypothesis Heps : u64 <= eps.
Hypothesis Hn1 : (1 <= n)%nat.
Notation N := (INR n).
Notation s := (sqrt (INR n)).
Hypothesis Hn : 65536 * (N * N) * eps <= 1.

Lemma s_range : 1 <= s <= N /\ s * s = N.
Proof.
  pose proof (N_ge1 n Hn1) as HN. split; [split|apply sqrt_sqrt; lra].
  - rewrite <- sqrt_1. apply sqrt_le_1_alt. exact HN.
  - apply Rsqr_incr_0_var; [|lra]. rewrite Rsqr_sqrt by lra. unfold Rsqr. nra.
Qed.

Lemma quotient_abs (vh dh : f64) (d p e : R) : / (3 * s) <= d -> 0 <= p <= 1 -> 0 <= e -> N * e <= 1 ->
  fabs vh (d * p) e -> fnear (f1 eps n) eta64 dh d ->
  is_finite (Bdiv mode_NE vh dh) = true /\
  Rabs (B2R (Bdiv mode_NE vh dh) - p) <= 35 / 10 * (s * e) + 7200 * (N * eps).
Proof.
  intros Hd Hp He HNe [Fv Hv] [Fd Hdh].
  pose proof (N_ge1 n Hn1) as HN. pose proof (eps_pos eps Heps) as He0. pose proof u64_pos as Hu. pose proof eta64_pos as Hz.
  destruct s_range as [[Hs1 HsN] Hss].
  pose proof (Neps eps Heps n Hn1 Hn) as [HNe0 HNe1].
  assert (Hd0 : 0 < d) by (eapply Rlt_le_trans; [apply Rinv_0_lt_compat|exact Hd]; lra).
  assert (Hd3 : 1 <= 3 * s * d).
  { apply (Rmult_le_compat_l (3 * s)) in Hd; [|lra]. rewrite Rinv_r in Hd by lra. exact Hd. }
  assert (Hetad : eta64 <= N * eps * d).
  { assert (H3 : 3 * eta64 <= eps).
    { apply Rle_trans with (bpow radix2 2 * eta64); [change (bpow radix2 2) with 4; lra|].
      eapply Rle_trans; [|exact Heps]. unfold eta64, u64. rewrite <- bpow_plus. apply bpow_le. lia. }
    apply Rle_trans with (eta64 * (3 * s * d)).
    - rewrite <- (Rmult_1_r eta64) at 1. apply Rmult_le_compat_l; lra.
    - replace (eta64 * (3 * s * d)) with (3 * eta64 * (s * d)) by ring. replace (N * eps * d) with (eps * (N * d)) by ring.
      apply Rmult_le_compat; [lra|apply Rmult_le_pos; lra|lra|apply Rmult_le_compat_r; lra]. }
  assert (Hden : Rabs (B2R dh - d) <= 6401 * (N * eps * d)).
  { unfold near, f1 in Hdh. eapply Rle_trans; [exact Hdh|].
    replace (1 + 6400 * (N * eps) - 1) with (6400 * (N * eps)) by ring. rewrite Rmult_assoc. lra. }
  assert (HXd : 0 <= N * eps * d <= / 65536 * d) by (split; [apply Rmult_le_pos; lra|apply Rmult_le_compat_r; lra]).
  assert (Hlo : 9 / 10 * d <= B2R dh) by (apply Rabs_le_inv in Hden; lra).
  set (z := B2R vh / B2R dh).
  assert (Hzd : z * B2R dh = B2R vh) by (unfold z; field; lra).
  assert (Hnum : Rabs ((z - p) * B2R dh) <= e + 6401 * (N * eps * d)).
  { replace ((z - p) * B2R dh) with ((B2R vh - d * p) + p * (d - B2R dh)) by (rewrite Rmult_minus_distr_r, Hzd; ring).
    eapply Rle_trans; [apply Rabs_triang|]. rewrite Rabs_mult, (Rabs_pos_eq p), Rabs_minus_sym with (x := d) by lra.
    assert (p * Rabs (B2R dh - d) <= 1 * (6401 * (N * eps * d))) by (apply Rmult_le_compat; try lra; apply Rabs_pos). lra. }
  assert (Hse : 0 <= s * e) by (apply Rmult_le_pos; lra).
  assert (Hse1 : s * e <= 1) by (eapply Rle_trans; [apply Rmult_le_compat_r; [lra|exact HsN]|exact HNe]).
  assert (Hzp : Rabs (z - p) <= 334 / 100 * (s * e) + 7113 * (N * eps)).
  { apply (Rmult_le_reg_r (9 / 10 * d)); [lra|].
    apply Rle_trans with (Rabs ((z - p) * B2R dh)).
    - rewrite Rabs_mult, (Rabs_pos_eq (B2R dh)) by lra. apply Rmult_le_compat_l; [apply Rabs_pos|exact Hlo].
    - eapply Rle_trans; [exact Hnum|].
      assert (e * 1 <= e * (3 * s * d)) by (apply Rmult_le_compat_l; lra).
      replace ((334 / 100 * (s * e) + 7113 * (N * eps)) * (9 / 10 * d))
        with (e * (3 * s * d) + 6 / 1000 * (s * e * d) + 64017 / 10 * (N * eps * d)) by field.
      assert (0 <= s * e * d) by (apply Rmult_le_pos; lra). lra. }
  assert (Hza : Rabs z <= 5).
  { replace z with ((z - p) + p) by ring. eapply Rle_trans; [apply Rabs_triang|]. rewrite (Rabs_pos_eq p) by lra. lra. }
  assert (H60 : bpow radix2 60 = 1152921504606846976) by (simpl; lra).
  destruct (div_err vh dh Fv ltac:(lra)) as [Fq Eq]; [fold z; lra|]. fold z in Eq. split; [exact Fq|].
  assert (Hu5 : u64 * Rabs z <= u64 * 5) by (apply Rmult_le_compat_l; lra).
  assert (HuN : u64 <= N * eps).
  { eapply Rle_trans; [exact Heps|]. rewrite <- (Rmult_1_l eps) at 1. apply Rmult_le_compat_r; lra. }
  assert (HeN : eta64 <= N * eps) by (eapply Rle_trans; [apply (eta_u n Hn1)|exact HuN]).
  replace (B2R (Bdiv mode_NE vh dh) - p) with ((B2R (Bdiv mode_NE vh dh) - z) + (z - p)) by ring.
  eapply Rle_trans; [apply Rabs_triang|]. lra.
Qed.
End Quot.

(** ** The main statement *)
Section Main.
Context (L : libm) (E : env (Bnum L)) (eps : R).
Notation BN := (Bnum L).
Hypothesis HL : libm_accurate L eps.
Hypothesis Heps : u64 <= eps.
Variable B : list f64.
Hypothesis HB : accepted64 B.
Notation n := (List.length B).
Notation N := (INR (List.length B)).
Notation s := (sqrt (INR (List.length B))).
Hypothesis Hn1 : (1 <= n)%nat.
Hypothesis Hn : 65536 * (N * N * s) * eps <= 1.
Variable dl : R.
Hypothesis Hdl : 0 <= dl.
Hypothesis Hdl32 : 32 * (N * N * s) * dl <= 1.
Hypothesis Hfft : (MINIMUM_SIZE_FOR_FFTW_CONVOLUTION <= Z.of_nat n + 1)%Z -> exists e, fft_accurate E e /\ u64 <= e /\ e <= / 4096 /\ 400 * e <= dl.
Hypothesis Hone : n = 1%nat -> asserts E = false.

Lemma Hn' : 65536 * (N * N) * eps <= 1.
Proof.
  destruct (s_range n Hn1) as [[Hs1 _] _]. pose proof (eps_pos eps Heps) as He. pose proof (N_ge1 n Hn1) as HN.
  eapply Rle_trans; [|exact Hn]. apply Rmult_le_compat_r; [lra|]. apply Rmult_le_compat_l; [lra|].
  rewrite <- (Rmult_1_r (N * N)) at 1. apply Rmult_le_compat_l; [apply Rmult_le_pos; lra|lra].
Qed.

Lemma acc_new : exists p r, is_prob n (noncrossing_B (map B2R B)) p /\ @ecdf1_new_B BN E B = Ok r /\ is_finite (r : f64) = true /\
    Rabs (B2R (r : f64) - p) <= 60000 * (N * N * eps) + 22 * (N * N * dl).
Proof.
  pose proof Hn' as HnN. pose proof (n_small eps Heps n Hn1 HnN) as Hn31. pose proof (N_ge1 n Hn1) as HN.
  destruct (s_range n Hn1) as [[Hs1 HsN] Hss]. pose proof (eps_pos eps Heps) as He0.
  assert (HnI : (1 <= Z.of_nat n <= INT_MAX)%Z) by (unfold INT_MAX; lia).
  destruct (of_Z_ok (Z.of_nat n)) as [Fn Vn]; [lia|].
  destruct (jump_ok L (Z.of_nat n) HnI) as (k & Hk & Hk2 & Hk1 & Hkn).
  pose proof (jump_le L (Z.of_nat n) k HnI Hk) as HJ. rewrite <- INR_IZR_INZ in HJ.
  assert (Hlen : List.length (map (@B2R 53 1024) B) = n) by apply map_length.
  pose proof (prob_is_D_B n (map B2R B) (proj2 HB) Hlen) as Hprob.
  set (D0 := D 0 n 0 0 (Bsteps (map B2R B) ++ [(1, END)]) n) in *. set (p := INR (fact n) * D0) in *.
  pose proof (is_prob_range _ _ _ Hprob) as Hp.
  (* the error of the numerator *)
  set (em := emax eps B dl k).
  assert (HNs : 0 <= N * s) by (apply Rmult_le_pos; lra).
  assert (Hk0 : 2 <= IZR k) by (apply IZR_le; lia).
  assert (Hem0 : 0 <= em).
  { unfold em, emax, dd, k1. apply Rplus_le_le_0_compat; [apply Rmult_le_pos; [apply Rmult_le_pos|]; lra|].
    apply Rmult_le_pos; [lra|]. apply Rmult_le_pos; lra. }
  assert (Hem : em <= N * s * (62 / 10 * dl + 14500 * eps)).
  { unfold em, emax, dd, k1.
    assert (H1 : (N + 1) * (IZR k + 1) <= 2 * N * (31 / 10 * s)) by (apply Rmult_le_compat; lra).
    assert (H2 : (N + 1) * (IZR k + 1) * (dl + 2000 * eps) <= 2 * N * (31 / 10 * s) * (dl + 2000 * eps)) by (apply Rmult_le_compat_r; lra).
    assert (H3 : IZR k * (1000 * eps * N) <= 21 / 10 * s * (1000 * eps * N)) by (apply Rmult_le_compat_r; [apply Rmult_le_pos|]; lra).
    replace (N * s * (62 / 10 * dl + 14500 * eps)) with (2 * N * (31 / 10 * s) * (dl + 2000 * eps) + 21 / 10 * s * (1000 * eps * N)) by field. lra. }
  assert (Hsm : (N + 1) * em <= 1).
  { apply Rle_trans with (2 * N * (N * s * (62 / 10 * dl + 14500 * eps))); [apply Rmult_le_compat; lra|].
    replace (2 * N * (N * s * (62 / 10 * dl + 14500 * eps))) with (124 / 10 * (N * N * s) * dl + 29000 * (N * N * s) * eps) by field. lra. }
  enough (HT : total (@ecdf1_new_B BN E B) (fun r => is_finite (r : f64) = true /\
     Rabs (B2R (r : f64) - p) <= 60000 * (N * N * eps) + 22 * (N * N * dl))).
  { apply total_iff in HT. destruct HT as (r & Hr & H1 & H2). exists p, r. auto. }
  unfold total, ecdf1_new_B.
  assert (Hc1 : @check_boundary_vector BN "B" (@size (car BN) B) B = Ok tt) by exact (check_accepted L "B" B HB).
  rewrite Hc1. cbn [bind]. change (@size (car BN) B) with (Z.of_nat n). rewrite Hk. cbn [bind].
  change (@n_of_Z BN (Z.of_nat n)) with (b64_of_Z (Z.of_nat n)).
  apply wp_bind. apply (new_n2_ok64 L E eps HL Heps B HB Hn1 HnN dl k Hdl ltac:(lia) Hfft Hsm).
  { intros HE. destruct (Nat.eq_dec n 1) as [e|Hne]; [rewrite (Hone e) in HE; discriminate|]. apply Hkn. lia. }
  intros probs Hsz Hv. fold em in Hv.
  apply wp_bind, (wp_rd (b64_of_Z 0)); [change (0 <= Z.of_nat n < @size f64 probs)%Z; lia|].
  change (@get (car BN) (b64_of_Z 0) probs (Z.of_nat n)) with (gb probs (Z.of_nat n)).
  set (vh := gb probs (Z.of_nat n)) in *.
  assert (HrN : rn n = N) by (unfold rn; rewrite <- INR_IZR_INZ; reflexivity).
  assert (Hmass : conv (pois (N * (1 - prevloc (map B2R B) n))) (W n (map B2R B) n) n = pois N n * p).
  { pose proof (final_mass n (map B2R B) Hlen) as HF. rewrite HrN in HF. rewrite HF. fold D0.
    assert (Hsc : scale n 1 n = pois N n * INR (fact n)).
    { rewrite pois_mono, <- HrN. unfold scale, mono. rewrite Rmult_1_r. field. apply fact_neq. }
    rewrite Hsc. unfold p. ring. }
  rewrite Hmass in Hv.
  apply wp_bind. unfold poisson_pmf. apply wp_bind, wp_cassert_true; [apply Z.leb_le; lia|].
  assert (HN0 : 0 < B2R (b64_of_Z (Z.of_nat n))) by (rewrite Vn; apply IZR_lt; lia).
  apply wp_bind, wp_cassert_true; [exact (fin_le L _ Fn (Rlt_le _ _ HN0))|].
  assert (Heq : @n_eq BN (b64_of_Z (Z.of_nat n)) n0 = false).
  { change (@n_eq BN (b64_of_Z (Z.of_nat n)) n0) with (Beqb (b64_of_Z (Z.of_nat n)) (b64_of_Z 0)). destruct zero_ok as [F0 V0].
    rewrite Beqb_correct, V0 by auto. apply Req_bool_false. lra. }
  rewrite Heq. apply wp_ok, wp_ok.
  destruct (quotient_abs eps n Heps Hn1 HnN vh
    (@pmf_formula BN (b64_of_Z (Z.of_nat n)) (lm_log L (b64_of_Z (Z.of_nat n))) (lm_lgamma L (Z.of_nat n + 1)) (Z.of_nat n))
    (pois N n) p em) as [Fr Er]; auto.
  - apply pois_nn_ge2, Hn1.
  - assert (N * em <= (N + 1) * em) by (apply Rmult_le_compat_r; lra). lra.
  - apply (pmf_formula_near L eps HL Heps n Hn1 HnN (b64_of_Z (Z.of_nat n)) N n Fn HN0); [lra| |lia].
    rewrite Vn, <- INR_IZR_INZ, Rminus_diag_eq, Rabs_R0 by reflexivity. pose proof u64_pos.
    apply Rmult_le_pos; lra.
  - split; [exact Fr|]. eapply Rle_trans; [exact Er|].
    assert (H1 : s * em <= s * (N * s * (62 / 10 * dl + 14500 * eps))) by (apply Rmult_le_compat_l; lra).
    replace (s * (N * s * (62 / 10 * dl + 14500 * eps))) with (s * s * N * (62 / 10 * dl + 14500 * eps)) in H1 by ring.
    rewrite Hss in H1.
    assert (H2 : N * eps <= N * N * eps).
    { rewrite <- (Rmult_1_l (N * eps)), (Rmult_assoc N). apply Rmult_le_compat_r; [apply Rmult_le_pos; lra|lra]. }
    assert (H4 : 0 <= N * eps) by (apply Rmult_le_pos; lra).
    assert (H3 : 0 <= N * N * dl) by (apply Rmult_le_pos; [apply Rmult_le_pos|]; lra). lra.
Qed.
End Main.
