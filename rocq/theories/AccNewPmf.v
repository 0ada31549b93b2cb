(** * AccNewPmf: total error of the table of Poisson probabilities in binary64. *)
From Coquelicot Require Import Coquelicot.
From Flocq Require Import Core.Core IEEE754.BinarySingleNaN.
From Coq Require Import ZArith Reals List Bool Lia Lra Factorial.
From Verif Require Import Base Num PoissonPmf RSum Binary64 Binary64Facts ErrBound B64Round AccPmf AccGrow AccEcdf2.
Local Open Scope R_scope.

Section Pmf.
Context (L : libm) (eps : R).
Notation BN := (Bnum L).
Hypothesis HL : libm_accurate L eps.
Hypothesis Heps : u64 <= eps.
Variable n : nat.
Hypothesis Hn1 : (1 <= n)%nat.
Notation N := (INR n).
Hypothesis Hn : 65536 * (N * N) * eps <= 1.

(** the size of the terms of the exponent *)
Definition wt (l : R) (k : nat) : R := 1 + l + INR k + INR k * Rabs (ln l) + ln (INR (fact k)).

Lemma wt_ge1 l k : 0 <= l -> 1 <= wt l k.
Proof.
  intros Hl. unfold wt. pose proof (pos_INR k) as Hk. pose proof (Rabs_pos (ln l)) as Ha.
  assert (0 <= INR k * Rabs (ln l)) by (apply Rmult_le_pos; auto).
  assert (0 <= ln (INR (fact k))).
  { rewrite <- ln_1. apply ln_le; [lra|]. apply (le_INR 1). pose proof (lt_O_fact k). lia. }
  lra.
Qed.

Lemma pmf_formula_wt (lh : f64) (l : R) (k : nat) : is_finite lh = true -> 0 < B2R lh -> 0 < l <= N ->
  Rabs (B2R lh - l) <= 3 * u64 * l -> (k <= n)%nat ->
  let r := @pmf_formula BN lh (lm_log L lh) (lm_lgamma L (Z.of_nat k + 1)) (Z.of_nat k) in
  Rabs (B2R (r : f64) - pois l k) <= 16 * eps * (wt l k * pois l k) + eta64.
Proof.
  intros Fl Hlh Hl Hrel Hk. cbv zeta.
  pose proof (N_ge1 n Hn1) as HN1. pose proof (eps_pos eps Heps) as He0. pose proof (Neps eps Heps n Hn1 Hn) as [HX0 HX1].
  pose proof (eps_small eps Heps n Hn1 Hn) as Hes.
  pose proof (N_le eps Heps n Hn1 Hn) as HN31. pose proof u64_pos as Hu0. pose proof eta64_pos as Heta0. pose proof eta_u as Heu.
  pose proof (n_small eps Heps n Hn1 Hn) as Hns.
  assert (HkN : INR k <= N) by (apply le_INR; exact Hk). pose proof (pos_INR k) as Hk0.
  assert (Hus : u64 <= / 65536) by lra.
  assert (HXu : N * u64 <= N * eps) by nra.
  assert (Heta100 : eta64 <= eps * / 100).
  { apply Rle_trans with (u64 * / 100); [|lra]. apply Rle_trans with (u64 * bpow radix2 (-7)).
    - unfold u64, eta64. rewrite <- bpow_plus. apply bpow_le. lia.
    - apply Rmult_le_compat_l; [lra|]. simpl. lra. }
  (* lambda *)
  pose proof (abs_split _ _ _ Hrel) as Hlr.
  assert (Hlu : u64 * l <= / 65536 * l) by (apply Rmult_le_compat_r; lra).
  assert (Hlh2 : B2R lh <= 2 * N) by nra.
  assert (Hln : Rabs (ln (B2R lh)) <= 746) by (apply (ln_f64 lh N); auto).
  pose proof (ln_near l (B2R lh) (3 * u64) ltac:(lra) ltac:(lra) Hrel) as Hlnr.
  set (a := Rabs (ln l)) in *.
  assert (Hlna : Rabs (ln (B2R lh)) <= a + / 8192).
  { unfold a. pose proof (Rabs_triang (ln (B2R lh) - ln l) (ln l)) as Ht.
    replace (ln (B2R lh) - ln l + ln l) with (ln (B2R lh)) in Ht by ring. lra. }
  assert (Ha0 : 0 <= a) by apply Rabs_pos.
  (* log *)
  destruct (acc_log L eps HL lh Fl Hlh) as [FG HG]. set (G := lm_log L lh) in *.
  assert (HG1 : Rabs (B2R G - ln (B2R lh)) <= eps * (a + / 8192)).
  { eapply Rle_trans; [exact HG|]. apply Rmult_le_compat_l; lra. }
  assert (HG2 : eps * (a + / 8192) <= / 65536 * (a + / 8192)) by (apply Rmult_le_compat_r; lra).
  assert (HGabs : Rabs (B2R G) <= 101/100 * a + / 1024).
  { pose proof (Rabs_triang (B2R G - ln (B2R lh)) (ln (B2R lh))) as Ht.
    replace (B2R G - ln (B2R lh) + ln (B2R lh)) with (B2R G) in Ht by ring. lra. }
  assert (HG747 : Rabs (B2R G) <= 747).
  { assert (HG1' : Rabs (B2R G - ln (B2R lh)) <= 746 * eps) by nra.
    pose proof (Rabs_triang (B2R G - ln (B2R lh)) (ln (B2R lh))) as Ht.
    replace (B2R G - ln (B2R lh) + ln (B2R lh)) with (B2R G) in Ht by ring. lra. }
  set (kR := INR k) in *. set (A := kR * a).
  assert (HA0 : 0 <= A) by (apply Rmult_le_pos; auto).
  (* k * log lambda *)
  destruct (of_Z_ok (Z.of_nat k)) as [Fk Vk]; [lia|].
  assert (VK : B2R (b64_of_Z (Z.of_nat k)) = kR) by (rewrite Vk; unfold kR; rewrite INR_IZR_INZ; reflexivity).
  assert (HB60 : 4 * (1000 * bpow radix2 31) <= bpow radix2 60) by (simpl; lra).
  assert (HMN : Rabs (kR * B2R G) <= 747 * N).
  { rewrite Rabs_mult, (Rabs_pos_eq kR) by exact Hk0. apply Rle_trans with (N * 747); [apply Rmult_le_compat; [exact Hk0|apply Rabs_pos|exact HkN|exact HG747]|lra]. }
  assert (HM0 : Rabs (kR * B2R G) <= 101/100 * A + /100*kR).
  { rewrite Rabs_mult, (Rabs_pos_eq kR) by exact Hk0.
    apply Rle_trans with (kR * (101/100 * a + / 1024)); [apply Rmult_le_compat_l; lra|unfold A; nra]. }
  destruct (mult_err (b64_of_Z (Z.of_nat k)) G Fk FG) as [FM HM]; [rewrite VK; lra|].
  rewrite VK in HM. set (M := Bmult mode_NE (b64_of_Z (Z.of_nat k)) G) in *.
  assert (HM1 : Rabs (B2R M - kR * B2R G) <= eps * (101/100 * A + /100 * kR + /100)).
  { eapply Rle_trans; [exact HM|]. replace (eps * (101/100 * A + /100 * kR + /100)) with (eps * (101/100 * A + /100 * kR) + eps * / 100) by field.
    apply Rplus_le_compat; [|exact Heta100]. apply Rmult_le_compat; [lra|apply Rabs_pos|lra|exact HM0]. }
  assert (HM2 : Rabs (kR * B2R G - kR * ln (B2R lh)) <= eps * (A + /100 * kR)).
  { rewrite <- Rmult_minus_distr_l, Rabs_mult, (Rabs_pos_eq kR) by exact Hk0.
    apply Rle_trans with (kR * (eps * (a + / 8192))); [apply Rmult_le_compat_l; lra|].
    replace (eps * (A + /100 * kR)) with (kR * (eps * (a + /100))) by (unfold A; ring).
    apply Rmult_le_compat_l; [exact Hk0|]. apply Rmult_le_compat_l; lra. }
  assert (HMe : eps * (101/100 * A + /100 * kR + /100) <= / 65536 * (101/100 * A + /100 * kR + /100)) by (apply Rmult_le_compat_r; lra).
  assert (HMabs : Rabs (B2R M) <= 103/100 * A + 2/100 * kR + 2/100).
  { pose proof (Rabs_triang (B2R M - kR * B2R G) (kR * B2R G)) as Ht.
    replace (B2R M - kR * B2R G + kR * B2R G) with (B2R M) in Ht by ring. lra. }
  assert (HMabs' : Rabs (B2R M) <= 749 * N).
  { pose proof (Rabs_triang (B2R M - kR * B2R G) (kR * B2R G)) as Ht.
    replace (B2R M - kR * B2R G + kR * B2R G) with (B2R M) in Ht by ring.
    assert (u64 * Rabs (kR * B2R G) <= / 65536 * (747 * N)) by (apply Rmult_le_compat; try apply Rabs_pos; lra). lra. }
  (* - lambda + k log lambda *)
  assert (Fo : is_finite (Bopp lh) = true) by (rewrite is_finite_Bopp; exact Fl).
  assert (HS0 : Rabs (B2R (Bopp lh) + B2R M) <= 101/100 * l + 103/100 * A + 2/100 * kR + 2/100).
  { rewrite B2R_Bopp. eapply Rle_trans; [apply Rabs_triang|]. rewrite Rabs_Ropp, (Rabs_pos_eq (B2R lh)) by lra. lra. }
  assert (HS0' : Rabs (B2R (Bopp lh) + B2R M) <= 751 * N).
  { rewrite B2R_Bopp. eapply Rle_trans; [apply Rabs_triang|]. rewrite Rabs_Ropp, (Rabs_pos_eq (B2R lh)) by lra. lra. }
  destruct (plus_err (Bopp lh) M Fo FM) as [FS HS]; [lra|]. set (S := Bplus mode_NE (Bopp lh) M) in *.
  rewrite B2R_Bopp in HS, HS0, HS0'.
  assert (HS1 : Rabs (B2R S - (- B2R lh + B2R M)) <= eps * (101/100 * l + 103/100 * A + 2/100 * kR + 2/100)).
  { eapply Rle_trans; [exact HS|]. apply Rmult_le_compat; [lra|apply Rabs_pos|lra|exact HS0]. }
  assert (HSe : eps * (101/100 * l + 103/100 * A + 2/100 * kR + 2/100) <= / 65536 * (101/100 * l + 103/100 * A + 2/100 * kR + 2/100)) by (apply Rmult_le_compat_r; lra).
  assert (HSabs : Rabs (B2R S) <= 102/100 * l + 104/100 * A + 3/100 * kR + 3/100).
  { pose proof (Rabs_triang (B2R S - (- B2R lh + B2R M)) (- B2R lh + B2R M)) as Ht.
    replace (B2R S - (- B2R lh + B2R M) + (- B2R lh + B2R M)) with (B2R S) in Ht by ring. lra. }
  assert (HSabs' : Rabs (B2R S) <= 753 * N).
  { pose proof (Rabs_triang (B2R S - (- B2R lh + B2R M)) (- B2R lh + B2R M)) as Ht.
    replace (B2R S - (- B2R lh + B2R M) + (- B2R lh + B2R M)) with (B2R S) in Ht by ring.
    assert (u64 * Rabs (- B2R lh + B2R M) <= / 65536 * (751 * N)) by (apply Rmult_le_compat; try apply Rabs_pos; lra). lra. }
  (* lgamma *)
  destruct (acc_lgamma L eps HL (Z.of_nat k + 1)) as [FQ HQ]; [lia|].
  replace (Z.to_nat (Z.of_nat k + 1 - 1)) with k in HQ by lia.
  set (Q := lm_lgamma L (Z.of_nat k + 1)) in *.
  destruct (ln_fact_bounds k N HkN (conj HN1 HN31)) as [Hq0 Hq1]. set (q := ln (INR (fact k))) in *.
  assert (Hqe : eps * q <= / 65536 * q) by (apply Rmult_le_compat_r; lra).
  assert (HQabs : Rabs (B2R Q) <= 101/100 * q).
  { pose proof (Rabs_triang (B2R Q - q) q) as Ht. replace (B2R Q - q + q) with (B2R Q) in Ht by ring.
    rewrite (Rabs_pos_eq q) in Ht by exact Hq0. lra. }
  assert (HT0 : Rabs (B2R S - B2R Q) <= 102/100 * l + 104/100 * A + 3/100 * kR + 3/100 + 101/100 * q).
  { unfold Rminus. eapply Rle_trans; [apply Rabs_triang|]. rewrite Rabs_Ropp. lra. }
  assert (HT0' : Rabs (B2R S - B2R Q) <= 800 * N).
  { unfold Rminus. eapply Rle_trans; [apply Rabs_triang|]. rewrite Rabs_Ropp. lra. }
  destruct (minus_err S Q FS FQ) as [FT HT]; [lra|]. set (T := Bminus mode_NE S Q) in *.
  assert (HT1 : Rabs (B2R T - (B2R S - B2R Q)) <= eps * (102/100 * l + 104/100 * A + 3/100 * kR + 3/100 + 101/100 * q)).
  { eapply Rle_trans; [exact HT|]. apply Rmult_le_compat; [lra|apply Rabs_pos|lra|exact HT0]. }
  (* total error of the exponent *)
  set (e := - l + kR * ln l - q).
  assert (Hw : wt l k = 1 + l + kR + A + q) by (unfold wt; fold kR a q; unfold A; ring).
  set (w := wt l k) in *. assert (Hw1 : 1 <= w) by (apply wt_ge1; lra).
  assert (He : Rabs (B2R T - e) <= 7 * (eps * w)).
  { assert (HD : Rabs (kR * ln (B2R lh) - kR * ln l) <= 6 * (eps * kR)).
    { rewrite <- Rmult_minus_distr_l, Rabs_mult, (Rabs_pos_eq kR) by exact Hk0.
      replace (6 * (eps * kR)) with (kR * (6 * eps)) by ring. apply Rmult_le_compat_l; lra. }
    assert (Hl3 : 3 * u64 * l <= 3 * (eps * l)) by (assert (u64 * l <= eps * l) by (apply Rmult_le_compat_r; lra); lra).
    apply abs_split in HT1. apply abs_split in HS1. apply abs_split in HM1. apply abs_split in HM2. apply abs_split in HQ. apply abs_split in HD.
    assert (P1 : 0 <= eps * l) by (apply Rmult_le_pos; lra). assert (P2 : 0 <= eps * kR) by (apply Rmult_le_pos; lra).
    assert (P3 : 0 <= eps * A) by (apply Rmult_le_pos; lra). assert (P4 : 0 <= eps * q) by (apply Rmult_le_pos; lra).
    rewrite Hw. apply Rabs_le. unfold e. split; lra. }
  set (d := 7 * (eps * w)) in *.
  (* the crude bound keeps the exponent in range *)
  pose proof (pmf_formula_near L eps HL Heps n Hn1 Hn lh l k Fl Hlh Hl Hrel Hk) as HC. cbv zeta in HC. destruct HC as [FE HC].
  assert (Hep : exp e = pois l k) by (rewrite ln_pois by lra; reflexivity).
  pose proof (pois_pos l k ltac:(lra)) as Hp0. pose proof (pois_le1 l k ltac:(lra)) as Hp1.
  assert (Hd : 0 <= d <= 1 / 4).
  { assert (Haa : a <= 747).
    { unfold a. pose proof (Rabs_triang (ln l - ln (B2R lh)) (ln (B2R lh))) as Ht.
      replace (ln l - ln (B2R lh) + ln (B2R lh)) with (ln l) in Ht by ring. rewrite Rabs_minus_sym in Ht. lra. }
    assert (A <= N * 747) by (unfold A; apply Rmult_le_compat; lra).
    assert (HwN : w <= 800 * N) by (rewrite Hw; lra).
    assert (Hew : 0 <= eps * w <= eps * (800 * N)) by (split; [apply Rmult_le_pos; lra|apply Rmult_le_compat_l; lra]).
    unfold d. lra. }
  assert (HeT : Rabs (exp (B2R T) - pois l k) <= 2 * d * pois l k).
  { replace (exp (B2R T)) with (pois l k * exp (B2R T - e)).
    - replace (pois l k * exp (B2R T - e) - pois l k) with (pois l k * (exp (B2R T - e) - 1)) by ring.
      rewrite Rabs_mult, (Rabs_pos_eq (pois l k)) by exact Hp0. rewrite Rmult_comm.
      apply Rmult_le_compat_r; [exact Hp0|]. apply exp_near1; [exact Hd|exact He].
    - rewrite <- Hep, <- exp_plus. f_equal. ring. }
  assert (Hneg : e <= 0).
  { destruct (Rle_or_lt e 0) as [H|H]; [exact H|exfalso]. apply exp_increasing in H. rewrite exp_0, Hep in H. lra. }
  destruct (acc_exp L eps HL T FT) as [_ HE].
  { apply abs_split in He. lra. }
  change (Rabs (B2R (lm_exp L T) - pois l k) <= 16 * eps * (w * pois l k) + eta64).
  apply abs_split in HeT.
  assert (Hdp : d * pois l k <= 1 / 4 * pois l k) by (apply Rmult_le_compat_r; lra).
  assert (HE' : Rabs (B2R (lm_exp L T) - exp (B2R T)) <= 2 * (eps * pois l k) + eta64).
  { assert (H2 : exp (B2R T) <= 2 * pois l k) by lra.
    apply (Rmult_le_compat_l eps) in H2; [|lra]. lra. }
  apply abs_split in HE'. 
  assert (Hwp : eps * pois l k <= eps * (w * pois l k)).
  { apply Rmult_le_compat_l; [lra|]. rewrite <- (Rmult_1_l (pois l k)) at 1. apply Rmult_le_compat_r; lra. }
  replace (2 * d * pois l k) with (14 * (eps * (w * pois l k))) in HeT by (unfold d; ring).
  apply Rabs_le. lra.
Qed.

(** the error of one entry of the table, and the sum of the errors *)
Definition perr (l : R) (k : nat) : R := 16 * eps * (wt l k * pois l k) + eta64.

Lemma perr_pos l k : 0 <= l -> 0 <= perr l k.
Proof.
  intros Hl. unfold perr. pose proof (wt_ge1 l k Hl). pose proof (pois_pos l k Hl). pose proof (eps_pos eps Heps).
  pose proof eta64_pos. assert (0 <= wt l k * pois l k) by (apply Rmult_le_pos; lra).
  assert (0 <= 16 * eps * (wt l k * pois l k)) by (apply Rmult_le_pos; lra). lra.
Qed.

Lemma mean_pois l m : 0 <= l -> rsum m (fun k => INR k * pois l k) <= l.
Proof.
  intros Hl. destruct m as [|m]; [simpl; lra|]. rewrite rsum_first. simpl INR at 1.
  rewrite Rmult_0_l, Rplus_0_l.
  rewrite (rsum_ext m _ (fun k => l * pois l k)).
  - rewrite rsum_scal. apply Rle_trans with (l * 1); [|lra]. apply Rmult_le_compat_l; [exact Hl|apply pois_sum, Hl].
  - intros k Hk. unfold pois. rewrite fact_simpl, mult_INR. cbn [pow]. field.
    split; [apply INR_fact_neq_0|apply not_0_INR; lia].
Qed.

Lemma ln_N : 0 <= ln N <= 14.
Proof.
  pose proof (N_ge1 n Hn1) as HN. pose proof (N_19 eps Heps n Hn1 Hn) as H19. pose proof ln_2_bounds as H2. pose proof ln_lt_2.
  split; [rewrite <- ln_1; apply ln_le; lra|].
  apply Rle_trans with (ln (bpow radix2 19)); [apply ln_le; lra|]. rewrite ln_bpow_f. lra.
Qed.

Lemma ln_fact_le k : (k <= n)%nat -> ln (INR (fact k)) <= 14 * INR k.
Proof.
  intros Hk. pose proof ln_N as HN. induction k as [|k IH].
  - simpl. rewrite ln_1. lra.
  - rewrite fact_simpl, mult_INR, ln_mult by (first [apply lt_0_INR; lia|apply INR_fact_lt_0]).
    assert (ln (INR (S k)) <= ln N) by (apply ln_le; [apply lt_0_INR; lia|apply le_INR, Hk]).
    specialize (IH ltac:(lia)). rewrite S_INR at 2. lra.
Qed.

Lemma l_ln l : 0 < l <= N -> l * Rabs (ln l) <= 14 * l + 1.
Proof.
  intros Hl. pose proof ln_N as HN. destruct (Rle_or_lt 1 l) as [H|H].
  - assert (0 <= ln l <= 14).
    { split; [rewrite <- ln_1; apply ln_le; lra|]. apply Rle_trans with (ln N); [apply ln_le; lra|lra]. }
    rewrite Rabs_pos_eq by lra. nra.
  - assert (Hln : ln l <= 0) by (rewrite <- ln_1; apply ln_le; lra).
    rewrite Rabs_left1 by exact Hln. rewrite <- ln_Rinv by lra.
    assert (Hi : ln (/ l) <= / l - 1).
    { pose proof (exp_ineq1_le (ln (/ l))) as Hq. rewrite exp_ln in Hq by (apply Rinv_0_lt_compat; lra). lra. }
    apply Rle_trans with (l * (/ l - 1)); [apply Rmult_le_compat_l; lra|].
    rewrite Rmult_minus_distr_l, Rinv_r by lra. lra.
Qed.

Lemma wt_sum l m : 0 <= l <= N -> (m <= S n)%nat -> rsum m (fun k => wt l k * pois l k) <= 2 + 30 * l.
Proof.
  intros Hl Hm. destruct (Rle_lt_or_eq_dec 0 l (proj1 Hl)) as [Hl0|<-].
  - pose proof (l_ln l ltac:(lra)) as Ha. set (a := Rabs (ln l)) in *.
    assert (Ha0 : 0 <= a) by apply Rabs_pos.
    apply Rle_trans with (rsum m (fun k => (1 + l) * pois l k + (15 + a) * (INR k * pois l k))).
    + apply rsum_le. intros k Hk. pose proof (pois_pos l k (proj1 Hl)) as Hp.
      replace ((1 + l) * pois l k + (15 + a) * (INR k * pois l k)) with ((1 + l + (15 + a) * INR k) * pois l k) by ring.
      apply Rmult_le_compat_r; [exact Hp|]. unfold wt. fold a. pose proof (ln_fact_le k ltac:(lia)). lra.
    + rewrite rsum_plus, !rsum_scal. pose proof (mean_pois l m (proj1 Hl)) as HM.
      assert (HP : rsum m (pois l) <= 1).
      { apply pois_sum, Hl. }
      assert ((1 + l) * rsum m (pois l) <= (1 + l) * 1) by (apply Rmult_le_compat_l; lra).
      assert ((15 + a) * rsum m (fun k => INR k * pois l k) <= (15 + a) * l) by (apply Rmult_le_compat_l; lra).
      lra.
  - destruct m as [|m]; [simpl; lra|]. rewrite (rsum_single (S m) 0); [|lia|].
    + unfold wt. simpl. rewrite ln_1, pois_zero. unfold delta. simpl. lra.
    + intros i Hi Hne. rewrite pois_zero. unfold delta. destruct (Nat.eqb_spec i 0); [congruence|ring].
Qed.

Lemma perr_sum l m : 0 <= l <= N -> (m <= S n)%nat -> rsum m (perr l) <= 500 * eps * (1 + l).
Proof.
  intros Hl Hm. unfold perr. rewrite rsum_plus, rsum_scal, rsum_const.
  pose proof (wt_sum l m Hl Hm) as HW. pose proof (eps_pos eps Heps) as He.
  assert (H1 : 16 * eps * rsum m (fun k => wt l k * pois l k) <= 16 * eps * (2 + 30 * l)) by (apply Rmult_le_compat_l; lra).
  assert (H2 : INR m * eta64 <= eps).
  { pose proof (N_19 eps Heps n Hn1 Hn) as H19. apply le_INR in Hm. rewrite S_INR in Hm.
    pose proof (bpow_le radix2 0 19 ltac:(lia)) as Hb0. change (bpow radix2 0) with 1 in Hb0. pose proof eta64_pos.
    apply Rle_trans with (bpow radix2 1 * bpow radix2 19 * eta64).
    - apply Rmult_le_compat_r; [lra|]. change (bpow radix2 1) with 2. lra.
    - eapply Rle_trans; [|exact Heps]. unfold eta64, u64. rewrite <- !bpow_plus. apply bpow_le. lia. }
  assert (0 <= eps * l) by (apply Rmult_le_pos; lra). lra.
Qed.
End Pmf.
