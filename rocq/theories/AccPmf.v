(** * AccPmf: accuracy of the Poisson probabilities in binary64. *)
From Coquelicot Require Import Coquelicot.
From Flocq Require Import Core.Core IEEE754.BinarySingleNaN.
From Coq Require Import ZArith Reals List Bool Lia Lra Factorial.
From Verif Require Import Base Num PoissonPmf RSum Binary64 Binary64Facts ErrBound B64Round.
Local Open Scope R_scope.

(** The accuracy expected of the C library: log, lgamma (of an integer) and exp have
    relative error at most [eps]; exp may also be off by the smallest positive number. *)
Record libm_accurate (L : libm) (eps : R) : Prop := {
  acc_log : forall x : f64, is_finite x = true -> 0 < B2R x ->
    is_finite (lm_log L x) = true /\ Rabs (B2R (lm_log L x) - ln (B2R x)) <= eps * Rabs (ln (B2R x));
  acc_lgamma : forall k : Z, (1 <= k <= 2 ^ 31)%Z ->
    is_finite (lm_lgamma L k) = true /\
    Rabs (B2R (lm_lgamma L k) - ln (INR (fact (Z.to_nat (k - 1))))) <= eps * ln (INR (fact (Z.to_nat (k - 1))));
  acc_exp : forall x : f64, is_finite x = true -> B2R x <= 1 ->
    is_finite (lm_exp L x) = true /\ Rabs (B2R (lm_exp L x) - exp (B2R x)) <= eps * exp (B2R x) + eta64
}.

Lemma abs_split x y e : Rabs (x - y) <= e -> y - e <= x <= y + e.
Proof. intros H. apply Rabs_le_inv in H. lra. Qed.

(** ** Elementary bounds *)
Lemma ln_2_bounds : ln 2 < 25 / 36.
Proof.
  assert (H : exp (25 / 36) > 2).
  { (* e^(25/36) > 2 : six terms of the series *)
    pose proof (mono_sum_exp (25 / 36) 7 ltac:(lra)) as H. unfold rsum, mono in H. simpl in H. lra. }
  rewrite <- (ln_exp (25 / 36)). apply ln_increasing; lra.
Qed.

Lemma ln_bpow_f (e : Z) : ln (bpow radix2 e) = IZR e * ln 2.
Proof.
  rewrite bpow_exp, ln_exp. reflexivity.
Qed.

Lemma ln_f64 (x : f64) (n : R) : 0 < B2R x -> B2R x <= 2 * n -> 1 <= n <= bpow radix2 31 ->
  Rabs (ln (B2R x)) <= 746.
Proof.
  intros Hx Hn Hn1. pose proof ln_2_bounds as H2. pose proof ln_lt_2 as H3.
  assert (Hlo : bpow radix2 (-1074) <= B2R x).
  { assert (HF : is_finite_strict x = true).
    { destruct x as [s|s| |s m e Hb]; simpl in Hx; try lra. reflexivity. }
    pose proof (abs_B2R_ge_emin 53 1024 x HF) as HG. rewrite Rabs_pos_eq in HG by lra. exact HG. }
  apply Rabs_le. split.
  - apply Rle_trans with (ln (bpow radix2 (-1074))); [|apply ln_le; [apply bpow_gt_0|exact Hlo]].
    rewrite ln_bpow_f. lra.
  - apply Rle_trans with (ln (bpow radix2 32)); [apply ln_le; [exact Hx|]|rewrite ln_bpow_f; lra].
    replace (bpow radix2 32) with (2 * bpow radix2 31) by (simpl; lra). lra.
Qed.

Lemma ln_fact_bounds (k : nat) (n : R) : INR k <= n -> 1 <= n <= bpow radix2 31 ->
  0 <= ln (INR (fact k)) <= 22 * n.
Proof.
  intros Hk Hn. pose proof ln_2_bounds as H2. pose proof (pos_INR k) as Hk0.
  assert (H1 : 1 <= INR (fact k)).
  { apply (le_INR 1). pose proof (lt_O_fact k). lia. }
  split; [rewrite <- ln_1; apply ln_le; lra|].
  assert (HP : forall j, (j <= k)%nat -> INR (fact j) <= n ^ j).
  { induction j as [|j IH]; intros Hj; [simpl; lra|]. rewrite fact_simpl, mult_INR. cbn [pow].
    apply Rmult_le_compat; try apply pos_INR; [|apply IH; lia].
    eapply Rle_trans; [apply le_INR, Hj|exact Hk]. }
  assert (Hn0 : ln n <= 22).
  { apply Rle_trans with (ln (bpow radix2 31)); [apply ln_le; lra|]. rewrite ln_bpow_f. lra. }
  assert (Hl0 : 0 <= ln n) by (rewrite <- ln_1; apply ln_le; lra).
  apply Rle_trans with (ln (n ^ k)); [apply ln_le; [lra|apply HP; lia]|].
  assert (HL : ln (n ^ k) = INR k * ln n).
  { clear - Hn. induction k as [|k IH]; [simpl; rewrite ln_1; ring|].
    cbn [pow]. rewrite ln_mult, IH, S_INR; [ring|lra|apply pow_lt; lra]. }
  rewrite HL. nra.
Qed.

Lemma exp_near1 d x : 0 <= d <= 1 / 4 -> Rabs x <= d -> Rabs (exp x - 1) <= 2 * d.
Proof.
  intros Hd Hx. apply Rabs_le_inv in Hx. apply Rabs_le. split.
  - pose proof (exp_ineq1_le x). lra.
  - assert (He : exp d <= 1 + 2 * d).
    { (* e^d <= 1/(1-d) *)
      pose proof (exp_ineq1_le (- d)) as H. rewrite exp_Ropp in H.
      pose proof (exp_pos d) as Hp.
      assert ((1 + - d) * exp d <= 1).
      { apply (Rmult_le_compat_r (exp d)) in H; [|lra]. rewrite Rinv_l in H by lra. exact H. }
      nra. }
    assert (exp x <= exp d) by (destruct (Rle_lt_or_eq_dec x d) as [H| ->]; [lra|apply Rlt_le, exp_increasing; exact H|lra]).
    lra.
Qed.

Lemma ln_near l lh e : 0 < l -> 0 <= e <= 1 / 4 -> Rabs (lh - l) <= e * l -> Rabs (ln lh - ln l) <= 2 * e.
Proof.
  intros Hl He H. apply Rabs_le_inv in H.
  assert (Hlh : 0 < lh) by nra.
  assert (HU : forall a c, 0 < a -> 0 < c -> ln a - ln c <= (a - c) / c).
  { intros a c Ha Hc. rewrite <- ln_div by auto.
    assert (0 < a / c) by (apply Rdiv_lt_0_compat; auto).
    pose proof (exp_ineq1_le (ln (a / c))) as Hq. rewrite exp_ln in Hq by auto.
    replace ((a - c) / c) with (a / c - 1) by (field; lra). lra. }
  apply Rabs_le. split.
  - pose proof (HU l lh Hl Hlh) as Hq.
    assert ((l - lh) / lh <= 2 * e); [|lra].
    apply (Rmult_le_reg_r lh); [exact Hlh|]. unfold Rdiv. rewrite Rmult_assoc, Rinv_l by lra. nra.
  - pose proof (HU lh l Hlh Hl) as Hq.
    assert ((lh - l) / l <= 2 * e); [|lra].
    apply (Rmult_le_reg_r l); [exact Hl|]. unfold Rdiv. rewrite Rmult_assoc, Rinv_l by lra. nra.
Qed.

Lemma ln_pois l k : 0 < l -> pois l k = exp (- l + INR k * ln l - ln (INR (fact k))).
Proof.
  intros Hl. unfold Rminus. rewrite exp_plus, exp_plus, exp_Ropp, exp_Ropp, exp_ln by apply INR_fact_lt_0.
  unfold pois. rewrite exp_Ropp. assert (HE : exp (INR k * ln l) = l ^ k).
  { induction k as [|k IH]; [simpl; rewrite Rmult_0_l; apply exp_0|].
    rewrite S_INR, Rmult_plus_distr_r, Rmult_1_l, exp_plus, IH, exp_ln by exact Hl. simpl. ring. }
  rewrite HE. reflexivity.
Qed.

Section Pmf.
Context (L : libm) (eps : R).
Notation BN := (Bnum L).
Hypothesis HL : libm_accurate L eps.
Hypothesis Heps : u64 <= eps.
Variable n : nat.
Hypothesis Hn1 : (1 <= n)%nat.
Notation N := (INR n).
Hypothesis Hn : 65536 * (N * N) * eps <= 1.

Definition f1 : R := 1 + 6400 * (N * eps).

Lemma N_ge1 : 1 <= N.
Proof. apply (le_INR 1). exact Hn1. Qed.
Lemma eps_pos : 0 < eps.
Proof. pose proof u64_pos. lra. Qed.
Lemma Neps : 0 < N * eps /\ N * eps <= / 65536.
Proof. pose proof N_ge1. pose proof eps_pos. nra. Qed.
Lemma eps_small : eps <= / 65536.
Proof. pose proof N_ge1. pose proof eps_pos. pose proof Neps. nra. Qed.
Lemma N_le : N <= bpow radix2 31.
Proof.
  pose proof N_ge1. pose proof u64_pos as Hu0.
  assert (Hu : bpow radix2 31 * bpow radix2 31 * u64 >= 1).
  { unfold u64. rewrite <- !bpow_plus. simpl. lra. }
  destruct (Rle_or_lt N (bpow radix2 31)) as [Hle|Hlt]; [exact Hle|exfalso].
  pose proof (bpow_gt_0 radix2 31) as Hb.
  assert (bpow radix2 31 * bpow radix2 31 <= N * N) by nra.
  assert (0 < N * N) by nra. assert (N * N * u64 <= N * N * eps) by nra.
  assert (bpow radix2 31 * bpow radix2 31 * u64 <= N * N * u64) by nra. lra.
Qed.
Lemma n_small : (Z.of_nat n < 2 ^ 31)%Z.
Proof.
  (* 65536 n^2 2^-53 <= 1 gives n <= 2^19 *)
  apply lt_IZR. rewrite <- INR_IZR_INZ. change (IZR (2 ^ 31)) with (IZR (Zpower radix2 31)). rewrite IZR_Zpower by lia.
  destruct (Rlt_or_le N (bpow radix2 31)) as [H|H]; [exact H|exfalso].
  pose proof N_ge1. pose proof u64_pos as Hu0. pose proof (bpow_gt_0 radix2 31) as Hb.
  assert (Hu : bpow radix2 31 * bpow radix2 31 * u64 >= 1).
  { unfold u64. rewrite <- !bpow_plus. simpl. lra. }
  assert (bpow radix2 31 * bpow radix2 31 <= N * N) by nra.
  assert (0 < N * N) by nra. assert (N * N * u64 <= N * N * eps) by nra.
  assert (bpow radix2 31 * bpow radix2 31 * u64 <= N * N * u64) by nra. lra.
Qed.

Lemma eta_u : eta64 <= u64.
Proof. apply bpow_le. lia. Qed.

Lemma Rabs_triang3 a b c x y : Rabs (a - b) <= x -> Rabs (b - c) <= y -> Rabs (a - c) <= x + y.
Proof. intros H1 H2. replace (a - c) with ((a - b) + (b - c)) by ring. eapply Rle_trans; [apply Rabs_triang|]. lra. Qed.

(** the formula exp(-l + k log l - lgamma(k+1)) *)
Lemma pmf_formula_near (lh : f64) (l : R) (k : nat) : is_finite lh = true -> 0 < B2R lh -> 0 < l <= N ->
  Rabs (B2R lh - l) <= 3 * u64 * l -> (k <= n)%nat ->
  let r := @pmf_formula BN lh (lm_log L lh) (lm_lgamma L (Z.of_nat k + 1)) (Z.of_nat k) in
  is_finite (r : f64) = true /\ near f1 eta64 (B2R (r : f64)) (pois l k).
Proof.
  intros Fl Hlh Hl Hrel Hk. cbv zeta.
  pose proof N_ge1 as HN1. pose proof eps_pos as He0. pose proof Neps as [HX0 HX1]. pose proof eps_small as Hes.
  pose proof N_le as HN31. pose proof u64_pos as Hu0. pose proof eta64_pos as Heta0. pose proof eta_u as Heu.
  pose proof n_small as Hns.
  assert (HkN : INR k <= N) by (apply le_INR; exact Hk). pose proof (pos_INR k) as Hk0.
  assert (HXu : N * u64 <= N * eps) by nra.
  assert (HXu0 : 0 < N * u64) by nra.
  assert (Hus : u64 <= / 65536) by lra.
  assert (Hu1 : u64 <= N * u64) by nra.
  (* lambda *)
  pose proof (abs_split _ _ _ Hrel) as Hlr.
  assert (Hlh2 : B2R lh <= 2 * N) by nra.
  assert (Hln : Rabs (ln (B2R lh)) <= 746) by (apply (ln_f64 lh N); auto).
  pose proof (ln_near l (B2R lh) (3 * u64) ltac:(lra) ltac:(lra) Hrel) as Hlnr.
  (* log *)
  destruct (acc_log L eps HL lh Fl Hlh) as [FG HG]. set (G := lm_log L lh) in *.
  assert (HG1 : Rabs (B2R G - ln (B2R lh)) <= 746 * eps) by nra.
  assert (HGabs : Rabs (B2R G) <= 747).
  { pose proof (Rabs_triang (B2R G - ln (B2R lh)) (ln (B2R lh))) as Ht.
    replace (B2R G - ln (B2R lh) + ln (B2R lh)) with (B2R G) in Ht by ring. lra. }
  (* k * log lambda *)
  destruct (of_Z_ok (Z.of_nat k)) as [Fk Vk]; [lia|].
  assert (VK : B2R (b64_of_Z (Z.of_nat k)) = INR k) by (rewrite Vk, INR_IZR_INZ; reflexivity).
  assert (HB60 : 4 * (1000 * bpow radix2 31) <= bpow radix2 60) by (simpl; lra).
  assert (HM0 : Rabs (INR k * B2R G) <= 747 * N).
  { rewrite Rabs_mult, (Rabs_pos_eq (INR k)) by exact Hk0. pose proof (Rabs_pos (B2R G)). nra. }
  destruct (mult_err (b64_of_Z (Z.of_nat k)) G Fk FG) as [FM HM]; [rewrite VK; lra|].
  rewrite VK in HM. set (M := Bmult mode_NE (b64_of_Z (Z.of_nat k)) G) in *.
  assert (HM1 : Rabs (B2R M - INR k * B2R G) <= 748 * (N * eps)) by nra.
  assert (HM2 : Rabs (INR k * B2R G - INR k * ln (B2R lh)) <= 746 * (N * eps)).
  { rewrite <- Rmult_minus_distr_l, Rabs_mult, (Rabs_pos_eq (INR k)) by exact Hk0.
    pose proof (Rabs_pos (B2R G - ln (B2R lh))). nra. }
  assert (HMabs : Rabs (B2R M) <= 748 * N).
  { pose proof (Rabs_triang (B2R M - INR k * B2R G) (INR k * B2R G)) as Ht.
    replace (B2R M - INR k * B2R G + INR k * B2R G) with (B2R M) in Ht by ring. lra. }
  (* - lambda + k log lambda *)
  assert (Fo : is_finite (Bopp lh) = true) by (rewrite is_finite_Bopp; exact Fl).
  assert (HS0 : Rabs (B2R (Bopp lh) + B2R M) <= 750 * N).
  { rewrite B2R_Bopp. eapply Rle_trans; [apply Rabs_triang|]. rewrite Rabs_Ropp, (Rabs_pos_eq (B2R lh)) by lra. lra. }
  destruct (plus_err (Bopp lh) M Fo FM) as [FS HS]; [lra|]. set (S := Bplus mode_NE (Bopp lh) M) in *.
  rewrite B2R_Bopp in HS, HS0.
  assert (HS1 : Rabs (B2R S - (- B2R lh + B2R M)) <= 750 * (N * eps)) by nra.
  assert (HSabs : Rabs (B2R S) <= 751 * N).
  { pose proof (Rabs_triang (B2R S - (- B2R lh + B2R M)) (- B2R lh + B2R M)) as Ht.
    replace (B2R S - (- B2R lh + B2R M) + (- B2R lh + B2R M)) with (B2R S) in Ht by ring. lra. }
  (* lgamma *)
  destruct (acc_lgamma L eps HL (Z.of_nat k + 1)) as [FQ HQ]; [lia|].
  replace (Z.to_nat (Z.of_nat k + 1 - 1)) with k in HQ by lia.
  set (Q := lm_lgamma L (Z.of_nat k + 1)) in *.
  destruct (ln_fact_bounds k N HkN (conj HN1 HN31)) as [Hq0 Hq1]. set (q := ln (INR (fact k))) in *.
  assert (HQ1 : Rabs (B2R Q - q) <= 22 * (N * eps)) by nra.
  assert (HQabs : Rabs (B2R Q) <= 23 * N).
  { pose proof (Rabs_triang (B2R Q - q) q) as Ht. replace (B2R Q - q + q) with (B2R Q) in Ht by ring.
    rewrite (Rabs_pos_eq q) in Ht by exact Hq0. lra. }
  assert (HT0 : Rabs (B2R S - B2R Q) <= 774 * N).
  { unfold Rminus. eapply Rle_trans; [apply Rabs_triang|]. rewrite Rabs_Ropp. lra. }
  destruct (minus_err S Q FS FQ) as [FT HT]; [lra|]. set (T := Bminus mode_NE S Q) in *.
  assert (HT1 : Rabs (B2R T - (B2R S - B2R Q)) <= 774 * (N * eps)) by nra.
  (* total error of the exponent *)
  set (e := - l + INR k * ln l - q).
  assert (He : Rabs (B2R T - e) <= 3072 * (N * eps)).
  { assert (HA : Rabs (B2R T - (- B2R lh + INR k * ln (B2R lh) - q)) <= (774 + 750 + 748 + 746 + 22) * (N * eps)).
    { apply abs_split in HT1. apply abs_split in HS1. apply abs_split in HM1. apply abs_split in HM2. apply abs_split in HQ1.
      apply Rabs_le. lra. }
    assert (HC : Rabs ((- B2R lh + INR k * ln (B2R lh) - q) - e) <= 9 * (N * eps)).
    { unfold e.
      assert (HD : Rabs (INR k * ln (B2R lh) - INR k * ln l) <= 6 * (N * eps)).
      { rewrite <- Rmult_minus_distr_l, Rabs_mult, (Rabs_pos_eq (INR k)) by exact Hk0.
        pose proof (Rabs_pos (ln (B2R lh) - ln l)). nra. }
      apply abs_split in HD. assert (3 * u64 * l <= 3 * (N * eps)) by (assert (u64 * l <= eps * N) by (apply Rmult_le_compat; lra); lra). apply Rabs_le. lra. }
    pose proof (Rabs_triang3 _ _ _ _ _ HA HC). lra. }
  set (d := 3072 * (N * eps)) in *. assert (Hd : 0 <= d <= / 16) by (unfold d; lra).
  assert (Hep : exp e = pois l k) by (rewrite ln_pois by lra; reflexivity).
  pose proof (pois_pos l k ltac:(lra)) as Hp0. pose proof (pois_le1 l k ltac:(lra)) as Hp1.
  assert (HeT : Rabs (exp (B2R T) - pois l k) <= 2 * d * pois l k).
  { replace (exp (B2R T)) with (pois l k * exp (B2R T - e)).
    - replace (pois l k * exp (B2R T - e) - pois l k) with (pois l k * (exp (B2R T - e) - 1)) by ring.
      rewrite Rabs_mult, (Rabs_pos_eq (pois l k)) by exact Hp0. rewrite Rmult_comm.
      apply Rmult_le_compat_r; [exact Hp0|]. apply exp_near1; [lra|exact He].
    - rewrite <- Hep, <- exp_plus. f_equal. ring. }
  assert (Hneg : e <= 0).
  { destruct (Rle_or_lt e 0) as [H|H]; [exact H|exfalso]. apply exp_increasing in H. rewrite exp_0, Hep in H. lra. }
  destruct (acc_exp L eps HL T FT) as [FE HE].
  { apply abs_split in He. lra. }
  split; [exact FE|]. change (near f1 eta64 (B2R (lm_exp L T)) (pois l k)).
  unfold near, f1. apply abs_split in HeT.
  assert (Hdp : d * pois l k <= / 16 * pois l k) by (apply Rmult_le_compat_r; lra).
  assert (HE' : Rabs (B2R (lm_exp L T) - exp (B2R T)) <= 2 * (eps * pois l k) + eta64).
  { assert (H2 : exp (B2R T) <= 2 * pois l k) by lra.
    apply (Rmult_le_compat_l eps) in H2; [|lra]. lra. }
  apply abs_split in HE'. apply Rabs_le. unfold d in *.
  assert (HNp : eps * pois l k <= N * eps * pois l k).
  { apply Rmult_le_compat_r; [exact Hp0|]. rewrite <- (Rmult_1_l eps) at 1. apply Rmult_le_compat_r; lra. }
  set (X := N * eps) in *. set (pk := pois l k) in *.
  replace (3072 * X * pk) with (3072 * (X * pk)) in * by ring.
  replace (2 * (3072 * X) * pk) with (6144 * (X * pk)) in * by ring.
  replace ((1 + 6400 * X - 1) * pk) with (6400 * (X * pk)) by ring.
  lra.
Qed.
End Pmf.
