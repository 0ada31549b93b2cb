(** * FastPmf: accuracy of the Poisson probabilities in any arithmetic of FastNum.v. *)
From Coquelicot Require Import Coquelicot.
From Flocq Require Import Core.Core.
From Coq Require Import ZArith Reals List Bool Lia Lra Factorial.
From Verif Require Import Base Num PoissonPmf RSum ErrBound AccPmf FastNum FastGrow.
Local Open Scope R_scope.

(** a finite number near [x] *)
Definition anear {T : Type} (fin : T -> Prop) (val : T -> R) (f a : R) (v : T) (x : R) : Prop := fin v /\ near f a (val v) x.

Lemma anear_weaken {T : Type} (fin : T -> Prop) (val : T -> R) f a f' a' v x :
  0 <= x -> f <= f' -> a <= a' -> anear fin val f a v x -> anear fin val f' a' v x.
Proof. intros Hx Hf Ha [F H]. split; [exact F|]. eapply near_weaken; eauto. Qed.

Section Pmf.
Context (F : num) (fin one raw : car F -> Prop) (val : car F -> R) (u eps eta : R).
Hypothesis HA : arith F fin one raw val u eps eta.
Hypothesis Hu : bpow radix2 (-53) <= u.
Hypothesis Heps : u <= eps.
Hypothesis Heta0 : 0 < eta.
Hypothesis Heta : eta <= bpow radix2 (-1010).
Variable n : nat.
Hypothesis Hn1 : (1 <= n)%nat.
Notation N := (INR n).
Hypothesis Hn : 65536 * (N * N) * eps <= 1.

Lemma fln_bound x : bpow radix2 (-1000) <= x -> x <= 2 * N -> Rabs (ln x) <= 746.
Proof.
  intros Hlo Hhi. pose proof ln_2_bounds as H2. pose proof ln_lt_2 as H3.
  pose proof (bpow_gt_0 radix2 (-1000)) as Hb.
  pose proof (fN_19 u eps Hu Heps n Hn1 Hn) as H19.
  apply Rabs_le. split.
  - apply Rle_trans with (ln (bpow radix2 (-1000))); [|apply ln_le; [exact Hb|exact Hlo]].
    rewrite ln_bpow_f. lra.
  - apply Rle_trans with (ln (bpow radix2 20)); [apply ln_le; [lra|]|rewrite ln_bpow_f; lra].
    replace (bpow radix2 20) with (2 * bpow radix2 19) by (simpl; lra). lra.
Qed.

(** the formula exp(-l + k log l - lgamma(k+1)) *)
Lemma fpmf_near (lh : car F) (l : R) (k : nat) : fin lh -> one lh -> bpow radix2 (-1000) <= val lh -> 0 < l <= N ->
  Rabs (val lh - l) <= 3 * u * l -> (k <= n)%nat ->
  let r := pmf_formula lh (n_log lh) (n_lgamma (Z.of_nat k + 1)) (Z.of_nat k) in
  anear fin val (ff1 eps n) eta r (pois l k).
Proof.
  intros Fl Ol Hlo Hl Hrel Hk. cbv zeta.
  pose proof (fN_ge1 n Hn1) as HN1. pose proof (feps_pos u eps Hu Heps) as He0.
  pose proof (fNeps u eps Hu Heps n Hn1 Hn) as [HX0 HX1]. pose proof (feps_small u eps Hu Heps n Hn1 Hn) as Hes.
  pose proof (fN_19 u eps Hu Heps n Hn1 Hn) as HN19. pose proof (fu_pos u Hu) as Hu0. pose proof (feta_u u eta Hu Heta n Hn1) as Heu.
  pose proof (fn_small u eps Hu Heps n Hn1 Hn) as Hns.
  assert (HN31 : N <= bpow radix2 31) by (eapply Rle_trans; [exact HN19|apply bpow_le; lia]).
  pose proof (bpow_gt_0 radix2 (-1000)) as Hb. assert (Hlh : 0 < val lh) by lra.
  assert (HkN : INR k <= N) by (apply le_INR; exact Hk). pose proof (pos_INR k) as Hk0.
  assert (HXu : N * u <= N * eps) by nra.
  assert (HXu0 : 0 < N * u) by nra.
  assert (Hus : u <= / 65536) by lra.
  assert (Hu1 : u <= N * u) by nra.
  (* lambda *)
  pose proof (abs_split _ _ _ Hrel) as Hlr.
  assert (Hlh2 : val lh <= 2 * N) by nra.
  pose proof (fln_bound _ Hlo Hlh2) as Hln.
  pose proof (ln_near l (val lh) (3 * u) ltac:(lra) ltac:(lra) Hrel) as Hlnr.
  (* log *)
  destruct (ar_log _ _ _ _ _ _ _ _ HA lh Fl Ol Hlo) as (FG & OG & HG). set (G := n_log lh) in *.
  assert (HG1 : Rabs (val G - ln (val lh)) <= 746 * eps) by nra.
  assert (HGabs : Rabs (val G) <= 747).
  { pose proof (Rabs_triang (val G - ln (val lh)) (ln (val lh))) as Ht.
    replace (val G - ln (val lh) + ln (val lh)) with (val G) in Ht by ring. lra. }
  assert (VK : IZR (Z.of_nat k) = INR k) by (rewrite INR_IZR_INZ; reflexivity).
  assert (HM0 : Rabs (INR k * val G) <= 747 * N).
  { rewrite Rabs_mult, (Rabs_pos_eq (INR k)) by exact Hk0. pose proof (Rabs_pos (val G)). nra. }
  assert (HM2 : Rabs (INR k * val G - INR k * ln (val lh)) <= 746 * (N * eps)).
  { rewrite <- Rmult_minus_distr_l, Rabs_mult, (Rabs_pos_eq (INR k)) by exact Hk0.
    pose proof (Rabs_pos (val G - ln (val lh))). nra. }
  (* lgamma *)
  destruct (ar_lgamma _ _ _ _ _ _ _ _ HA (Z.of_nat k + 1)) as (FQ & OQ & HQ); [lia|].
  replace (Z.to_nat (Z.of_nat k + 1 - 1)) with k in HQ by lia.
  set (Q := n_lgamma (Z.of_nat k + 1)) in *.
  destruct (ln_fact_bounds k N HkN (conj HN1 HN31)) as [Hq0 Hq1]. set (q := ln (INR (fact k))) in *.
  assert (HQ1 : Rabs (val Q - q) <= 22 * (N * eps)) by nra.
  assert (HQabs : Rabs (val Q) <= 23 * N).
  { pose proof (Rabs_triang (val Q - q) q) as Ht. replace (val Q - q + q) with (val Q) in Ht by ring.
    rewrite (Rabs_pos_eq q) in Ht by exact Hq0. lra. }
  (* the exponent *)
  assert (H50 : 23 * bpow radix2 19 <= bpow radix2 50) by (change (bpow radix2 19) with 524288; change (bpow radix2 50) with 1125899906842624; lra).
  assert (H10 : 747 <= bpow radix2 10) by (change (bpow radix2 10) with 1024; lra).
  assert (Hla : Rabs (val lh) <= 2 * N) by (rewrite Rabs_pos_eq; lra).
  destruct (ar_exponent _ _ _ _ _ _ _ _ HA lh (Z.of_nat k) G Q) as [FT HT]; auto; try lia; try lra.
  set (T := n_sub _ Q) in *. rewrite VK in HT.
  assert (HT1 : Rabs (val T - (- val lh + INR k * val G - val Q)) <= 2317 * (N * eps)).
  { eapply Rle_trans; [exact HT|].
    assert (HS : Rabs (val lh) + Rabs (INR k * val G) + Rabs (val Q) <= 772 * N) by lra.
    apply (Rmult_le_compat_l (3 * u)) in HS; [|lra].
    replace (3 * u * (772 * N)) with (2316 * (N * u)) in HS by ring. lra. }
  (* total error of the exponent *)
  set (e := - l + INR k * ln l - q).
  assert (He : Rabs (val T - e) <= 3094 * (N * eps)).
  { assert (HA1 : Rabs (val T - (- val lh + INR k * ln (val lh) - q)) <= (2317 + 746 + 22) * (N * eps)).
    { apply abs_split in HT1. apply abs_split in HM2. apply abs_split in HQ1.
      apply Rabs_le. lra. }
    assert (HC : Rabs ((- val lh + INR k * ln (val lh) - q) - e) <= 9 * (N * eps)).
    { unfold e.
      assert (HD : Rabs (INR k * ln (val lh) - INR k * ln l) <= 6 * (N * eps)).
      { rewrite <- Rmult_minus_distr_l, Rabs_mult, (Rabs_pos_eq (INR k)) by exact Hk0.
        pose proof (Rabs_pos (ln (val lh) - ln l)). nra. }
      apply abs_split in HD. assert (3 * u * l <= 3 * (N * eps)) by (assert (u * l <= eps * N) by (apply Rmult_le_compat; lra); lra). apply Rabs_le. lra. }
    pose proof (Rabs_triang3 _ _ _ _ _ HA1 HC). lra. }
  set (d := 3094 * (N * eps)) in *. assert (Hd : 0 <= d <= / 16) by (unfold d; lra).
  assert (Hep : exp e = pois l k) by (rewrite ln_pois by lra; reflexivity).
  pose proof (pois_pos l k ltac:(lra)) as Hp0. pose proof (pois_le1 l k ltac:(lra)) as Hp1.
  assert (HeT : Rabs (exp (val T) - pois l k) <= 2 * d * pois l k).
  { replace (exp (val T)) with (pois l k * exp (val T - e)).
    - replace (pois l k * exp (val T - e) - pois l k) with (pois l k * (exp (val T - e) - 1)) by ring.
      rewrite Rabs_mult, (Rabs_pos_eq (pois l k)) by exact Hp0. rewrite Rmult_comm.
      apply Rmult_le_compat_r; [exact Hp0|]. apply exp_near1; [lra|exact He].
    - rewrite <- Hep, <- exp_plus. f_equal. ring. }
  assert (Hneg : e <= 0).
  { destruct (Rle_or_lt e 0) as [H|H]; [exact H|exfalso]. apply exp_increasing in H. rewrite exp_0, Hep in H. lra. }
  destruct (ar_exp _ _ _ _ _ _ _ _ HA T FT) as [FE HE].
  { apply abs_split in He. lra. }
  split; [exact FE|]. change (near (ff1 eps n) eta (val (n_exp T)) (pois l k)).
  unfold near, ff1. apply abs_split in HeT.
  assert (Hdp : d * pois l k <= / 16 * pois l k) by (apply Rmult_le_compat_r; lra).
  assert (HE' : Rabs (val (n_exp T) - exp (val T)) <= 2 * (eps * pois l k) + eta).
  { assert (H2 : exp (val T) <= 2 * pois l k) by lra.
    apply (Rmult_le_compat_l eps) in H2; [|lra]. lra. }
  apply abs_split in HE'. apply Rabs_le. unfold d in *.
  assert (HNp : eps * pois l k <= N * eps * pois l k).
  { apply Rmult_le_compat_r; [exact Hp0|]. rewrite <- (Rmult_1_l eps) at 1. apply Rmult_le_compat_r; lra. }
  set (X := N * eps) in *. set (pk := pois l k) in *.
  replace (3094 * X * pk) with (3094 * (X * pk)) in * by ring.
  replace (2 * (3094 * X) * pk) with (6188 * (X * pk)) in * by ring.
  replace ((1 + 6400 * X - 1) * pk) with (6400 * (X * pk)) by ring.
  assert (0 <= X * pk) by (apply Rmult_le_pos; lra).
  lra.
Qed.
End Pmf.
