(** * FastNewMain: accuracy of ecdf1_new_B in any arithmetic of FastNum.v and FastNewNum.v. *)
From Coquelicot Require Import Coquelicot.
From Flocq Require Import Core.Core.
From Coq Require Import ZArith Reals List Bool Lia Lra String Permutation Sorted Factorial.
From Verif Require Import Base Num Hoare Common PoissonPmf FFTConv Ecdf1New RSum.
From Verif Require Import Spec SpecFacts Cells Events XEcdf2 XEcdf1New NewMath SafeFft.
From Verif Require Import ErrBound AccPmf AccStep AccNewPmf AccNewMath AccNewMain FastNum FastGrow FastPmf FastConv FastFft FastStep.
From Verif Require Import FastNewNum FastNewPmf FastNewConv FastNewStep FastNewLoop.
Import List. Import ListNotations.
Local Open Scope R_scope.

Section Main.
Context (F : num) (E : env F) (fin one raw : car F -> Prop) (val : car F -> R) (u eps eta : R)
  (acc : car F -> R -> R -> nat -> Prop).
Hypothesis HA : arith F fin one raw val u eps eta.
Hypothesis HAF : arith_fft F fin val u eta.
Hypothesis HAN : arith_new F fin raw val u eta acc.
Hypothesis Hu : bpow radix2 (-53) <= u.
Hypothesis Heps : u <= eps.
Hypothesis Heta0 : 0 < eta.
Hypothesis Heta : eta <= bpow radix2 (-1010).

(** ** The quotient *)
Section Quot.
Variable n : nat.
Hypothesis Hn1 : (1 <= n)%nat.
Notation N := (INR n).
Notation s := (sqrt (INR n)).
Hypothesis Hn : 65536 * (N * N) * eps <= 1.

Lemma fquotient_abs (vh dh : car F) (d p e : R) : / (3 * s) <= d <= 1 -> 0 <= p <= 1 -> 0 <= e -> N * e <= 1 ->
  within fin val vh (d * p) e -> anear fin val (ff1 eps n) eta dh d ->
  fin (n_div vh dh) /\
  Rabs (val (n_div vh dh) - p) <= 35 / 10 * (s * e) + 7200 * (N * eps).
Proof.
  intros [Hd Hd1] Hp He HNe [Fv Hv] [Fd Hdh].
  pose proof (fN_ge1 n Hn1) as HN. pose proof (feps_pos u eps Hu Heps) as He0. pose proof (fu_pos u Hu) as Hu0.
  destruct (s_range n Hn1) as [[Hs1 HsN] Hss].
  pose proof (fNeps u eps Hu Heps n Hn1 Hn) as [HNe0 HNe1].
  assert (Hd0 : 0 < d) by (eapply Rlt_le_trans; [apply Rinv_0_lt_compat|exact Hd]; lra).
  assert (Hd3 : 1 <= 3 * s * d).
  { apply (Rmult_le_compat_l (3 * s)) in Hd; [|lra]. rewrite Rinv_r in Hd by lra. exact Hd. }
  assert (H3 : 3 * eta <= eps).
  { apply Rle_trans with (bpow radix2 2 * bpow radix2 (-1010)); [change (bpow radix2 2) with 4; lra|].
    eapply Rle_trans; [|exact Heps]. eapply Rle_trans; [|exact Hu]. rewrite <- bpow_plus. apply bpow_le. lia. }
  assert (Hetad : eta <= N * eps * d).
  { apply Rle_trans with (eta * (3 * s * d)).
    - rewrite <- (Rmult_1_r eta) at 1. apply Rmult_le_compat_l; lra.
    - replace (eta * (3 * s * d)) with (3 * eta * (s * d)) by ring. replace (N * eps * d) with (eps * (N * d)) by ring.
      apply Rmult_le_compat; [lra|apply Rmult_le_pos; lra|lra|apply Rmult_le_compat_r; lra]. }
  assert (Hden : Rabs (val dh - d) <= 6401 * (N * eps * d)).
  { unfold near, ff1 in Hdh. eapply Rle_trans; [exact Hdh|].
    replace (1 + 6400 * (N * eps) - 1) with (6400 * (N * eps)) by ring. rewrite Rmult_assoc. lra. }
  assert (HXd : 0 <= N * eps * d <= / 65536 * d) by (split; [apply Rmult_le_pos; lra|apply Rmult_le_compat_r; lra]).
  assert (Hlo : 9 / 10 * d <= val dh <= 4) by (apply Rabs_le_inv in Hden; lra).
  set (z := val vh / val dh).
  assert (Hzd : z * val dh = val vh) by (unfold z; field; lra).
  assert (Hnum : Rabs ((z - p) * val dh) <= e + 6401 * (N * eps * d)).
  { replace ((z - p) * val dh) with ((val vh - d * p) + p * (d - val dh)) by (rewrite Rmult_minus_distr_r, Hzd; ring).
    eapply Rle_trans; [apply Rabs_triang|]. rewrite Rabs_mult, (Rabs_pos_eq p), Rabs_minus_sym with (x := d) by lra.
    assert (p * Rabs (val dh - d) <= 1 * (6401 * (N * eps * d))) by (apply Rmult_le_compat; try lra; apply Rabs_pos). lra. }
  assert (Hse : 0 <= s * e) by (apply Rmult_le_pos; lra).
  assert (Hse1 : s * e <= 1) by (eapply Rle_trans; [apply Rmult_le_compat_r; [lra|exact HsN]|exact HNe]).
  assert (Hzp : Rabs (z - p) <= 334 / 100 * (s * e) + 7113 * (N * eps)).
  { apply (Rmult_le_reg_r (9 / 10 * d)); [lra|].
    apply Rle_trans with (Rabs ((z - p) * val dh)).
    - rewrite Rabs_mult, (Rabs_pos_eq (val dh)) by lra. apply Rmult_le_compat_l; [apply Rabs_pos|apply Hlo].
    - eapply Rle_trans; [exact Hnum|].
      assert (e * 1 <= e * (3 * s * d)) by (apply Rmult_le_compat_l; lra).
      replace ((334 / 100 * (s * e) + 7113 * (N * eps)) * (9 / 10 * d))
        with (e * (3 * s * d) + 6 / 1000 * (s * e * d) + 64017 / 10 * (N * eps * d)) by field.
      assert (0 <= s * e * d) by (apply Rmult_le_pos; lra). lra. }
  assert (Hza : Rabs z <= 5).
  { replace z with ((z - p) + p) by ring. eapply Rle_trans; [apply Rabs_triang|]. rewrite (Rabs_pos_eq p) by lra. lra. }
  assert (Hva : Rabs (val vh) <= 4).
  { replace (val vh) with ((val vh - d * p) + d * p) by ring. eapply Rle_trans; [apply Rabs_triang|].
    assert (0 <= d * p <= 1 * 1) by (split; [apply Rmult_le_pos; lra|apply Rmult_le_compat; lra]).
    rewrite (Rabs_pos_eq (d * p)) by lra.
    assert (e <= N * e) by (rewrite <- (Rmult_1_l e) at 1; apply Rmult_le_compat_r; lra). lra. }
  assert (Hdl : bpow radix2 (-30) <= val dh).
  { eapply Rle_trans; [|apply Hlo].
    pose proof (fn_small u eps Hu Heps n Hn1 Hn) as Hns. apply IZR_le in Hns. rewrite <- INR_IZR_INZ in Hns.
    change (IZR (2 ^ 19)) with 524288 in Hns. change (bpow radix2 (-30)) with (/ 1073741824).
    assert (Hs3 : s * d <= 524288 * d) by (apply Rmult_le_compat_r; lra). lra. }
  destruct (ar_div _ _ _ _ _ _ _ _ HA vh dh Fv Fd Hva (conj Hdl (proj2 Hlo))) as [Fq Eq]. fold z in Eq. split; [exact Fq|].
  assert (Hu5 : u * Rabs z <= u * 5) by (apply Rmult_le_compat_l; lra).
  assert (HuN : u <= N * eps).
  { eapply Rle_trans; [exact Heps|]. rewrite <- (Rmult_1_l eps) at 1. apply Rmult_le_compat_r; lra. }
  assert (HeN : eta <= N * eps) by (pose proof (Rmult_le_compat_r eps 1 N ltac:(lra) HN); lra).
  replace (val (n_div vh dh) - p) with ((val (n_div vh dh) - z) + (z - p)) by ring.
  eapply Rle_trans; [apply Rabs_triang|]. lra.
Qed.
End Quot.

(** ** The main statement *)
Variable Bl : list (car F).
Hypothesis HB : accepted_in fin val Bl.
Hypothesis HpB : Forall (fun x => raw x /\ plain (val x)) Bl.
Notation n := (List.length Bl).
Notation N := (INR (List.length Bl)).
Notation s := (sqrt (INR (List.length Bl))).
Hypothesis Hn1 : (1 <= n)%nat.
Hypothesis Hn : 65536 * (N * N * s) * eps <= 1.
Variable dl : R.
Hypothesis Hdl : 0 <= dl.
Hypothesis Hdl32 : 32 * (N * N * s) * dl <= 1.
Hypothesis Hfft : (MINIMUM_SIZE_FOR_FFTW_CONVOLUTION <= Z.of_nat n + 1)%Z ->
  exists e, fft_accurate_in fin val E e /\ (forall k z, Forall raw (fft_c2r E k z)) /\ 2 * u <= e /\ e <= / 4096 /\ 400 * e <= dl.
Hypothesis Hone : asserts E = true -> (2 <= n)%nat.

Lemma fHn' : 65536 * (N * N) * eps <= 1.
Proof.
  destruct (s_range n Hn1) as [[Hs1 _] _]. pose proof (feps_pos u eps Hu Heps) as He. pose proof (fN_ge1 n Hn1) as HN.
  eapply Rle_trans; [|exact Hn]. apply Rmult_le_compat_r; [lra|]. apply Rmult_le_compat_l; [lra|].
  rewrite <- (Rmult_1_r (N * N)) at 1. apply Rmult_le_compat_l; [apply Rmult_le_pos; lra|lra].
Qed.

Lemma facc_new : exists p r, is_prob n (noncrossing_B (map val Bl)) p /\ ecdf1_new_B E Bl = Ok r /\ fin r /\
    Rabs (val r - p) <= 60000 * (N * N * eps) + 22 * (N * N * dl).
Proof.
  pose proof fHn' as HnN. pose proof (fn_small u eps Hu Heps n Hn1 HnN) as Hn31. pose proof (fN_ge1 n Hn1) as HN.
  destruct (s_range n Hn1) as [[Hs1 HsN] Hss]. pose proof (feps_pos u eps Hu Heps) as He0.
  assert (HnI : (1 <= Z.of_nat n <= INT_MAX)%Z) by (unfold INT_MAX; lia).
  destruct (ar_int _ _ _ _ _ _ _ _ HA (Z.of_nat n) ltac:(lia)) as (Fn & On & _ & Vn).
  destruct (ar_int _ _ _ _ _ _ _ _ HA 0 ltac:(lia)) as (F0 & _ & _ & V0). change (n_of_Z 0) with (@n0 F) in F0, V0.
  destruct (an_jump _ _ _ _ _ _ _ HAN (Z.of_nat n) HnI) as (k & Hk & Hk2 & Hk1 & Hkn & HJ).
  rewrite <- INR_IZR_INZ in HJ.
  assert (Hlen : List.length (map val Bl) = n) by apply map_length.
  pose proof (prob_is_D_B n (map val Bl) (proj2 HB) Hlen) as Hprob.
  set (D0 := D 0 n 0 0 (Bsteps (map val Bl) ++ [(1, END)]) n) in *. set (p := INR (fact n) * D0) in *.
  pose proof (is_prob_range _ _ _ Hprob) as Hp.
  (* the error of the numerator *)
  set (em := emax F eps Bl dl k).
  assert (HNs : 0 <= N * s) by (apply Rmult_le_pos; lra).
  assert (Hk0 : 2 <= IZR k) by (apply IZR_le; lia).
  assert (Hem0 : 0 <= em).
  { unfold em, emax, dd, k1. apply Rplus_le_le_0_compat; [apply Rmult_le_pos; [apply Rmult_le_pos|]; lra|].
    apply Rmult_le_pos; [lra|]. apply Rmult_le_pos; lra. }
  assert (Hem : em <= N * s * (62 / 10 * dl + 14500 * eps)).
  { unfold em, emax, dd, k1.
    assert (H1 : (N + 1) * (IZR k + 1) <= 2 * N * (31 / 10 * s)) by (apply Rmult_le_compat; lra).
    assert (H2 : (N + 1) * (IZR k + 1) * (dl + 2000 * eps) <= 2 * N * (31 / 10 * s) * (dl + 2000 * eps)) by (apply Rmult_le_compat_r; lra).
    assert (H3 : IZR k * (1000 * eps * N) <= 21 / 10 * s * (1000 * eps * N)) by (apply Rmult_le_compat_r; [apply Rmult_le_pos|]; lra).
    replace (N * s * (62 / 10 * dl + 14500 * eps)) with (2 * N * (31 / 10 * s) * (dl + 2000 * eps) + 21 / 10 * s * (1000 * eps * N)) by field. lra. }
  assert (Hsm : (N + 1) * em <= 1).
  { apply Rle_trans with (2 * N * (N * s * (62 / 10 * dl + 14500 * eps))); [apply Rmult_le_compat; lra|].
    replace (2 * N * (N * s * (62 / 10 * dl + 14500 * eps))) with (124 / 10 * (N * N * s) * dl + 29000 * (N * N * s) * eps) by field. lra. }
  enough (HT : total (ecdf1_new_B E Bl) (fun r => fin r /\
     Rabs (val r - p) <= 60000 * (N * N * eps) + 22 * (N * N * dl))).
  { apply total_iff in HT. destruct HT as (r & Hr & H1 & H2). exists p, r. auto. }
  unfold total, ecdf1_new_B.
  rewrite (fcheck F fin one raw val u eps eta HA "B" Bl HB). cbn [bind]. change (size Bl) with (Z.of_nat n). rewrite Hk. cbn [bind].
  apply wp_bind. apply (fnew_n2_ok F E fin one raw val u eps eta acc HA HAF HAN Hu Heps Heta0 Heta Bl HB HpB Hn1 HnN dl k Hdl ltac:(lia) Hfft Hsm).
  { intros HE. specialize (Hone HE). apply Hkn. lia. }
  intros probs Hsz Hv. fold em in Hv.
  apply wp_bind, (wp_rd n0); [lia|].
  set (vh := get n0 probs (Z.of_nat n)) in *.
  assert (HrN : rn n = N) by (unfold rn; rewrite <- INR_IZR_INZ; reflexivity).
  assert (Hmass : conv (pois (N * (1 - prevloc (map val Bl) n))) (W n (map val Bl) n) n = pois N n * p).
  { pose proof (final_mass n (map val Bl) Hlen) as HF. rewrite HrN in HF. rewrite HF. fold D0.
    assert (Hsc : scale n 1 n = pois N n * INR (fact n)).
    { rewrite pois_mono, <- HrN. unfold scale, mono. rewrite Rmult_1_r. field. apply fact_neq. }
    rewrite Hsc. unfold p. ring. }
  rewrite Hmass in Hv.
  apply wp_bind. unfold poisson_pmf. apply wp_bind, wp_cassert_true; [apply Z.leb_le; lia|].
  assert (HN1 : 1 <= val (n_of_Z (Z.of_nat n))) by (rewrite Vn; apply IZR_le; lia).
  apply wp_bind, wp_cassert_true.
  { rewrite (ar_le _ _ _ _ _ _ _ _ HA n0 (n_of_Z (Z.of_nat n)) F0 Fn), V0. apply Rle_bool_true. lra. }
  rewrite (ar_eq _ _ _ _ _ _ _ _ HA (n_of_Z (Z.of_nat n)) n0 Fn F0), V0, Req_bool_false by lra.
  apply wp_ok, wp_ok.
  destruct (fquotient_abs n Hn1 HnN vh
    (pmf_formula (n_of_Z (Z.of_nat n)) (n_log (n_of_Z (Z.of_nat n))) (n_lgamma (Z.of_nat n + 1)) (Z.of_nat n))
    (pois N n) p em) as [Fr Er]; auto.
  - split; [apply pois_nn_ge2, Hn1|]. eapply Rle_trans; [|apply (pois_sum N (S n)); lra].
    apply (rsum_term (S n) (pois N) n); [lia|]. intros i Hi. apply pois_pos. lra.
  - assert (N * em <= (N + 1) * em) by (apply Rmult_le_compat_r; lra). lra.
  - apply (fpmf_near F fin one raw val u eps eta HA Hu Heps Heta n Hn1 HnN (n_of_Z (Z.of_nat n)) N n Fn On); [|lra| |lia].
    + eapply Rle_trans; [|exact HN1]. change 1 with (bpow radix2 0). apply bpow_le. lia.
    + rewrite Vn, <- INR_IZR_INZ, Rminus_diag_eq, Rabs_R0 by reflexivity. pose proof (fu_pos u Hu).
      apply Rmult_le_pos; lra.
  - split; [exact Fr|]. eapply Rle_trans; [exact Er|].
    assert (H1 : s * em <= s * (N * s * (62 / 10 * dl + 14500 * eps))) by (apply Rmult_le_compat_l; lra).
    replace (s * (N * s * (62 / 10 * dl + 14500 * eps))) with (s * s * N * (62 / 10 * dl + 14500 * eps)) in H1 by ring.
    rewrite Hss in H1.
    assert (H2 : N * eps <= N * N * eps).
    { rewrite <- (Rmult_1_l (N * eps)), (Rmult_assoc N). apply Rmult_le_compat_r; [apply Rmult_le_pos; lra|lra]. }
    assert (H4 : 0 <= N * eps) by (apply Rmult_le_pos; lra).
    assert (H3 : 0 <= N * N * dl) by (apply Rmult_le_pos; [apply Rmult_le_pos|]; lra). lra.
Qed.
End Main.
