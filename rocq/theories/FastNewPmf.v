(** * FastNewPmf: total error of the table of Poisson probabilities in any arithmetic of FastNum.v. *)
From Coquelicot Require Import Coquelicot.
From Flocq Require Import Core.Core.
From Coq Require Import ZArith Reals List Bool Lia Lra Factorial.
From Verif Require Import Base Num PoissonPmf RSum ErrBound B64Round AccPmf AccNewPmf FastNum FastGrow FastPmf.
Local Open Scope R_scope.

Section Pmf.
Context (F : num) (fin one raw : car F -> Prop) (val : car F -> R) (u eps eta : R).
Hypothesis HA : arith F fin one raw val u eps eta.
Hypothesis Hu : bpow radix2 (-53) <= u.
Hypothesis Heps : u <= eps.
Hypothesis Heta0 : 0 < eta.
Hypothesis Heta : eta <= bpow radix2 (-1010).
Variable n : nat.
Hypothesis Hn1 : (1 <= n)%nat.
Notation N := (INR n).
Hypothesis Hn : 65536 * (N * N) * eps <= 1.

Lemma fHeps64 : u64 <= eps.
Proof. unfold u64. lra. Qed.

Lemma fpmf_wt (lh : car F) (l : R) (k : nat) : fin lh -> one lh -> bpow radix2 (-1000) <= val lh -> 0 < l <= N ->
  Rabs (val lh - l) <= 3 * u * l -> (k <= n)%nat ->
  let r := pmf_formula lh (n_log lh) (n_lgamma (Z.of_nat k + 1)) (Z.of_nat k) in
  fin r /\ Rabs (val r - pois l k) <= 16 * eps * (wt l k * pois l k) + eta.
Proof.
  intros Fl Ol Hlo Hl Hrel Hk. cbv zeta.
  pose proof (fN_ge1 n Hn1) as HN1. pose proof (feps_pos u eps Hu Heps) as He0.
  pose proof (fNeps u eps Hu Heps n Hn1 Hn) as [HX0 HX1]. pose proof (feps_small u eps Hu Heps n Hn1 Hn) as Hes.
  pose proof (fN_19 u eps Hu Heps n Hn1 Hn) as HN19. pose proof (fu_pos u Hu) as Hu0.
  pose proof (fn_small u eps Hu Heps n Hn1 Hn) as Hns.
  assert (HN31 : N <= bpow radix2 31) by (eapply Rle_trans; [exact HN19|apply bpow_le; lia]).
  pose proof (bpow_gt_0 radix2 (-1000)) as Hb. assert (Hlh : 0 < val lh) by lra.
  assert (HkN : INR k <= N) by (apply le_INR; exact Hk). pose proof (pos_INR k) as Hk0.
  assert (Hus : u <= / 65536) by lra.
  assert (HXu : N * u <= N * eps) by nra.
  assert (Heta100 : eta <= eps * / 100).
  { apply Rle_trans with (u * / 100); [|lra]. eapply Rle_trans; [exact Heta|].
    apply Rle_trans with (bpow radix2 (-53) * bpow radix2 (-7)).
    - rewrite <- bpow_plus. apply bpow_le. lia.
    - pose proof (bpow_gt_0 radix2 (-53)). apply Rmult_le_compat; try lra; [apply bpow_ge_0|]. simpl. lra. }
  (* lambda *)
  pose proof (abs_split _ _ _ Hrel) as Hlr.
  assert (Hlu : u * l <= / 65536 * l) by (apply Rmult_le_compat_r; lra).
  assert (Hlh2 : val lh <= 2 * N) by nra.
  pose proof (fln_bound u eps Hu Heps n Hn1 Hn _ Hlo Hlh2) as Hln.
  pose proof (ln_near l (val lh) (3 * u) ltac:(lra) ltac:(lra) Hrel) as Hlnr.
  set (a := Rabs (ln l)) in *.
  assert (Hlna : Rabs (ln (val lh)) <= a + / 8192).
  { unfold a. pose proof (Rabs_triang (ln (val lh) - ln l) (ln l)) as Ht.
    replace (ln (val lh) - ln l + ln l) with (ln (val lh)) in Ht by ring. lra. }
  assert (Ha0 : 0 <= a) by apply Rabs_pos.
  (* log *)
  destruct (ar_log _ _ _ _ _ _ _ _ HA lh Fl Ol Hlo) as (FG & OG & HG). set (G := n_log lh) in *.
  assert (HG1 : Rabs (val G - ln (val lh)) <= eps * (a + / 8192)).
  { eapply Rle_trans; [exact HG|]. apply Rmult_le_compat_l; lra. }
  assert (HG2 : eps * (a + / 8192) <= / 65536 * (a + / 8192)) by (apply Rmult_le_compat_r; lra).
  assert (HGabs : Rabs (val G) <= 101/100 * a + / 1024).
  { pose proof (Rabs_triang (val G - ln (val lh)) (ln (val lh))) as Ht.
    replace (val G - ln (val lh) + ln (val lh)) with (val G) in Ht by ring. lra. }
  assert (HG747 : Rabs (val G) <= 747).
  { assert (HG1' : Rabs (val G - ln (val lh)) <= 746 * eps) by nra.
    pose proof (Rabs_triang (val G - ln (val lh)) (ln (val lh))) as Ht.
    replace (val G - ln (val lh) + ln (val lh)) with (val G) in Ht by ring. lra. }
  assert (VK : IZR (Z.of_nat k) = INR k) by (rewrite INR_IZR_INZ; reflexivity).
  set (kR := INR k) in *. set (A := kR * a).
  assert (HA0 : 0 <= A) by (apply Rmult_le_pos; auto).
  assert (HM0 : Rabs (kR * val G) <= 101/100 * A + /100*kR).
  { rewrite Rabs_mult, (Rabs_pos_eq kR) by exact Hk0.
    apply Rle_trans with (kR * (101/100 * a + / 1024)); [apply Rmult_le_compat_l; lra|unfold A; nra]. }
  assert (HM2 : Rabs (kR * val G - kR * ln (val lh)) <= eps * (A + /100 * kR)).
  { rewrite <- Rmult_minus_distr_l, Rabs_mult, (Rabs_pos_eq kR) by exact Hk0.
    apply Rle_trans with (kR * (eps * (a + / 8192))); [apply Rmult_le_compat_l; lra|].
    replace (eps * (A + /100 * kR)) with (kR * (eps * (a + /100))) by (unfold A; ring).
    apply Rmult_le_compat_l; [exact Hk0|]. apply Rmult_le_compat_l; lra. }
  (* lgamma *)
  destruct (ar_lgamma _ _ _ _ _ _ _ _ HA (Z.of_nat k + 1)) as (FQ & OQ & HQ); [lia|].
  replace (Z.to_nat (Z.of_nat k + 1 - 1)) with k in HQ by lia.
  set (Q := n_lgamma (Z.of_nat k + 1)) in *.
  destruct (ln_fact_bounds k N HkN (conj HN1 HN31)) as [Hq0 Hq1]. set (q := ln (INR (fact k))) in *.
  assert (Hqe : eps * q <= / 65536 * q) by (apply Rmult_le_compat_r; lra).
  assert (HQabs : Rabs (val Q) <= 101/100 * q).
  { pose proof (Rabs_triang (val Q - q) q) as Ht. replace (val Q - q + q) with (val Q) in Ht by ring.
    rewrite (Rabs_pos_eq q) in Ht by exact Hq0. lra. }
  (* the exponent *)
  assert (H50 : 23 * bpow radix2 19 <= bpow radix2 50) by (change (bpow radix2 19) with 524288; change (bpow radix2 50) with 1125899906842624; lra).
  assert (H10 : 747 <= bpow radix2 10) by (change (bpow radix2 10) with 1024; lra).
  assert (Hla : Rabs (val lh) <= 101/100 * l) by (rewrite Rabs_pos_eq; lra).
  destruct (ar_exponent _ _ _ _ _ _ _ _ HA lh (Z.of_nat k) G Q) as [FT HT]; auto; try lia; try lra.
  set (T := n_sub _ Q) in *. rewrite VK in HT.
  assert (HT1 : Rabs (val T - (- val lh + kR * val G - val Q)) <= eps * (304/100 * l + 304/100 * A + 4/100 * kR + 304/100 * q + / 100)).
  { eapply Rle_trans; [exact HT|].
    assert (HS : Rabs (val lh) + Rabs (kR * val G) + Rabs (val Q) <= 101/100 * l + 101/100 * A + /100 * kR + 101/100 * q) by lra.
    apply (Rmult_le_compat_l (3 * u)) in HS; [|lra].
    assert (HSe : 3 * u * (101/100 * l + 101/100 * A + /100 * kR + 101/100 * q) <= 3 * eps * (101/100 * l + 101/100 * A + /100 * kR + 101/100 * q)).
    { apply Rmult_le_compat_r; lra. }
    assert (P1 : 0 <= eps * l) by (apply Rmult_le_pos; lra). assert (P2 : 0 <= eps * kR) by (apply Rmult_le_pos; lra).
    assert (P3 : 0 <= eps * A) by (apply Rmult_le_pos; lra). assert (P4 : 0 <= eps * q) by (apply Rmult_le_pos; lra). lra. }
  (* total error of the exponent *)
  set (e := - l + kR * ln l - q).
  assert (Hw : wt l k = 1 + l + kR + A + q) by (unfold wt; fold kR a q; unfold A; ring).
  set (w := wt l k) in *. assert (Hw1 : 1 <= w) by (apply (wt_ge1 n Hn1); lra).
  assert (He : Rabs (val T - e) <= 7 * (eps * w)).
  { assert (HD : Rabs (kR * ln (val lh) - kR * ln l) <= 6 * (eps * kR)).
    { rewrite <- Rmult_minus_distr_l, Rabs_mult, (Rabs_pos_eq kR) by exact Hk0.
      replace (6 * (eps * kR)) with (kR * (6 * eps)) by ring. apply Rmult_le_compat_l; lra. }
    assert (Hl3 : 3 * u * l <= 3 * (eps * l)) by (assert (u * l <= eps * l) by (apply Rmult_le_compat_r; lra); lra).
    apply abs_split in HT1. apply abs_split in HM2. apply abs_split in HQ. apply abs_split in HD.
    assert (P1 : 0 <= eps * l) by (apply Rmult_le_pos; lra). assert (P2 : 0 <= eps * kR) by (apply Rmult_le_pos; lra).
    assert (P3 : 0 <= eps * A) by (apply Rmult_le_pos; lra). assert (P4 : 0 <= eps * q) by (apply Rmult_le_pos; lra).
    rewrite Hw. apply Rabs_le. unfold e. split; lra. }
  set (d := 7 * (eps * w)) in *.
  assert (Hep : exp e = pois l k) by (rewrite ln_pois by lra; reflexivity).
  pose proof (pois_pos l k ltac:(lra)) as Hp0. pose proof (pois_le1 l k ltac:(lra)) as Hp1.
  assert (Hd : 0 <= d <= 1 / 4).
  { assert (Haa : a <= 747).
    { unfold a. pose proof (Rabs_triang (ln l - ln (val lh)) (ln (val lh))) as Ht.
      replace (ln l - ln (val lh) + ln (val lh)) with (ln l) in Ht by ring. rewrite Rabs_minus_sym in Ht. lra. }
    assert (A <= N * 747) by (unfold A; apply Rmult_le_compat; lra).
    assert (HwN : w <= 800 * N) by (rewrite Hw; lra).
    assert (Hew : 0 <= eps * w <= eps * (800 * N)) by (split; [apply Rmult_le_pos; lra|apply Rmult_le_compat_l; lra]).
    unfold d. lra. }
  assert (HeT : Rabs (exp (val T) - pois l k) <= 2 * d * pois l k).
  { replace (exp (val T)) with (pois l k * exp (val T - e)).
    - replace (pois l k * exp (val T - e) - pois l k) with (pois l k * (exp (val T - e) - 1)) by ring.
      rewrite Rabs_mult, (Rabs_pos_eq (pois l k)) by exact Hp0. rewrite Rmult_comm.
      apply Rmult_le_compat_r; [exact Hp0|]. apply exp_near1; [exact Hd|exact He].
    - rewrite <- Hep, <- exp_plus. f_equal. ring. }
  assert (Hneg : e <= 0).
  { destruct (Rle_or_lt e 0) as [H|H]; [exact H|exfalso]. apply exp_increasing in H. rewrite exp_0, Hep in H. lra. }
  destruct (ar_exp _ _ _ _ _ _ _ _ HA T FT) as [FE HE].
  { apply abs_split in He. lra. }
  split; [exact FE|].
  change (Rabs (val (n_exp T) - pois l k) <= 16 * eps * (w * pois l k) + eta).
  apply abs_split in HeT.
  assert (Hdp : d * pois l k <= 1 / 4 * pois l k) by (apply Rmult_le_compat_r; lra).
  assert (HE' : Rabs (val (n_exp T) - exp (val T)) <= 2 * (eps * pois l k) + eta).
  { assert (H2 : exp (val T) <= 2 * pois l k) by lra.
    apply (Rmult_le_compat_l eps) in H2; [|lra]. lra. }
  apply abs_split in HE'.
  assert (Hwp : eps * pois l k <= eps * (w * pois l k)).
  { apply Rmult_le_compat_l; [lra|]. rewrite <- (Rmult_1_l (pois l k)) at 1. apply Rmult_le_compat_r; lra. }
  replace (2 * d * pois l k) with (14 * (eps * (w * pois l k))) in HeT by (unfold d; ring).
  apply Rabs_le. lra.
Qed.

(** the error of one entry of the table, and the sum of the errors *)
Definition fperr (l : R) (k : nat) : R := 16 * eps * (wt l k * pois l k) + eta.

Lemma fperr_pos l k : 0 <= l -> 0 <= fperr l k.
Proof.
  intros Hl. unfold fperr. pose proof (wt_ge1 n Hn1 l k Hl). pose proof (pois_pos l k Hl). pose proof (feps_pos u eps Hu Heps).
  assert (0 <= wt l k * pois l k) by (apply Rmult_le_pos; lra).
  assert (0 <= 16 * eps * (wt l k * pois l k)) by (apply Rmult_le_pos; lra). lra.
Qed.

Lemma fperr_sum l m : 0 <= l <= N -> (m <= S n)%nat -> rsum m (fperr l) <= 500 * eps * (1 + l).
Proof.
  intros Hl Hm. unfold fperr. rewrite rsum_plus, rsum_scal, rsum_const.
  pose proof (wt_sum eps fHeps64 n Hn1 Hn l m Hl Hm) as HW. pose proof (feps_pos u eps Hu Heps) as He.
  assert (H1 : 16 * eps * rsum m (fun k => wt l k * pois l k) <= 16 * eps * (2 + 30 * l)) by (apply Rmult_le_compat_l; lra).
  assert (H2 : INR m * eta <= eps).
  { pose proof (fN_19 u eps Hu Heps n Hn1 Hn) as H19. apply le_INR in Hm. rewrite S_INR in Hm.
    pose proof (bpow_le radix2 0 19 ltac:(lia)) as Hb0. change (bpow radix2 0) with 1 in Hb0.
    apply Rle_trans with (bpow radix2 1 * bpow radix2 19 * bpow radix2 (-1010)).
    - apply Rmult_le_compat; try lra; [apply pos_INR|]. change (bpow radix2 1) with 2. lra.
    - eapply Rle_trans; [|exact Heps]. eapply Rle_trans; [|exact Hu]. rewrite <- !bpow_plus. apply bpow_le. lia. }
  assert (0 <= eps * l) by (apply Rmult_le_pos; lra). lra.
Qed.
End Pmf.
