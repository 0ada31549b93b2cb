(** * AccMns: accuracy of ecdf1_mns2016_b and ecdf1_mns2016_B, FLOAT being the x87 long double. *)
From Coquelicot Require Import Coquelicot.
From Flocq Require Import Core.Core IEEE754.BinarySingleNaN.
From Coq Require Import ZArith Reals List Bool Lia Lra Factorial String.
From Verif Require Import Base Num Hoare Common RSum Binary64 Binary64Facts B64Round LongDouble LdRound Ecdf1Mns NewMath MnsMath MnsErr MnsRun AccPmf AccMnsEval AccMnsStep AccMnsTail.
From Verif Require Import Spec SpecFacts Reflect SafeNew SafeMns ProbLipschitz AccNewFinal.
Import List.
Local Open Scope R_scope.

(** special values of the library functions (C11 F.10.3.1, F.10.3.7) *)
Record libml_special (M : libml) : Prop := {
  accl_log_neg : forall x : f80, is_finite x = true -> B2R x < 0 -> lm_logl M x = B754_nan;
  accl_log_zero : forall s, lm_logl M (B754_zero s) = B754_infinity true;
  accl_exp_nan : lm_expl M B754_nan = B754_nan;
  accl_exp_minf : lm_expl M (B754_infinity true) = B754_zero false
}.

Section Acc.
Context (L : libm) (M : libml) (eps : R) (E : env (Bnum L)).
Notation LD := (x87 L M).
Notation BN := (Bnum L).
Hypothesis HM : libml_accurate M eps.
Hypothesis Heps : u80 <= eps.
Hypothesis Heps1 : eps <= bpow radix2 (-40).
Hypothesis HLD : long_dbl E = x87 L M.

Section Fixed.
Variable b : list f64.
Hypothesis Hb : accepted64 b.
Notation n := (List.length b).
Hypothesis Hn : (n <= 4096)%nat.
Notation bx := (bx b).

Lemma h_G k : (k <= n)%nat -> forall x, h (map B2R b) k x = G bx (coef bx) k 0 x.
Proof.
  destruct (coef_rec bx) as [C0 CS].
  induction k as [|k IH]; intros Hk.
  - intros x. rewrite h_0. unfold G. simpl rsum. rewrite C0, mono_0. ring.
  - apply (antiderivative_unique _ _ (bx k)).
    + intros x. exists (h (map B2R b) k x). split; [apply h_derive|]. rewrite IH by lia.
      apply (is_derive_ext (fun y => G bx (coef bx) k 1 y + coef bx (S k))).
      * intros y. rewrite G_S, mono_0. rewrite Rmult_1_r. reflexivity.
      * evar_last.
        -- apply (is_derive_plus (G bx (coef bx) k 1) (fun _ => coef bx (S k)) x (G bx (coef bx) k 0 x) zero).
           ++ apply G_derive.
           ++ apply is_derive_const.
        -- unfold plus, zero. simpl. ring.
    + rewrite G_S, mono_0, CS, Rmult_1_r. 
      replace (bx k) with (Bf (map B2R b) k) at 1.
      * rewrite h_at. ring.
      * unfold Bf. rewrite bx_nth by lia. reflexivity.
Qed.

Definition err_bound : R := (56 * (INR (S n) * INR (S n)) + 57 * INR (S n)) * eps.

Lemma loop_result : exists (I : f80) (delta : Z),
  is_finite I = true /\ (0 <= delta)%Z /\ bpow radix2 delta <= 2 * INR (fact n) /\
  Rabs (INR (fact n) * B2R I / bpow radix2 delta - INR (fact n) * h (map B2R b) n 1) <= err_bound /\
  @ecdf1_mns2016_b BN E b = Ok (mns_tail M n I delta).
Proof.
  enough (HT : total (@ecdf1_mns2016_b BN E b) (fun r => exists (I : f80) (delta : Z),
    is_finite I = true /\ (0 <= delta)%Z /\ bpow radix2 delta <= 2 * INR (fact n) /\
    Rabs (INR (fact n) * B2R I / bpow radix2 delta - INR (fact n) * h (map B2R b) n 1) <= err_bound /\
    r = mns_tail M n I delta)).
  { apply total_iff in HT. destruct HT as (r & Hr & I & delta & H1 & H2 & H3 & H4 & ->). exists I, delta. auto. }
  unfold total, ecdf1_mns2016_b. rewrite HLD. unfold mns_b.
  pose proof (check_accepted L "b" b Hb) as Hchk. rewrite Hchk. cbn [bind].
  change (@size (car BN) b) with (Z.of_nat n).
  unfold ptm_make. apply wp_bind. apply wp_bind, wp_cassert_true; [apply Z.leb_le; lia|]. apply wp_ok.
  assert (Hr0 : @repr BN LD n (@mkPtm (ld LD) 0 (vec (Z.of_nat n + 1 + 1) n0) (vec (Z.of_nat n + 1 + 1) n0)) 0 (fun _ => n0) (fun _ => n0)).
  { unfold repr. cbn [degree mult addc]. rewrite !size_vec. split; [reflexivity|]. split; [lia|]. split; [lia|].
    intros i Hi. rewrite !get_vec by lia. split; reflexivity. }
  apply wp_bind. eapply (run_set_mult0 E LD n); [exact Hr0|lia|]. intros p0 Hp0.
  apply wp_bind. apply wp_for with (P := fun j s => Inv L M eps b (Z.to_nat j) s).
  - exists (fun _ => 1), (@m_set BN LD (fun _ => @n0 (ld LD)) (@n1 (ld LD)) : nat -> f80), (fun _ => @n0 (ld LD) : f80). cbn [fst snd].
    split; [exact Hp0|]. split; [|split; [|split; [reflexivity|split; [|split; [lia|split]]]]].
    + intros i Hi. destruct i; [|simpl in Hi; lia]. split; reflexivity.
    + intros i Hi. destruct i; [|simpl in Hi; lia].
      change (@m_set BN LD (fun _ => @n0 (ld LD)) (@n1 (ld LD)) 0 : f80) with (f80_of_Z 1).
      destruct (ofZ80 1) as [F1 V1]; [lia|]. split; [exact F1|]. rewrite V1. unfold ideal. simpl.
      replace (1 - 1 * 1 / 1) with 0 by lra. rewrite Rabs_R0. lra.
    + intros k Hk. simpl in Hk. lia.
    + unfold lead. simpl. lra.
    + unfold lead, floor_lead. replace (bpow radix2 0 / INR (fact (Z.to_nat 0))) with (bpow radix2 0) by (simpl; lra).
      apply bpow_le. change ((Z.to_nat 0 - 1) mod 16)%nat with O. lia.
  - intros j s Hj Hs. replace (Z.to_nat (j + 1)) with (S (Z.to_nat j)) by lia.
    replace j with (Z.of_nat (Z.to_nat j)) at 1 by lia. apply (step_ok L M eps E HM Heps Heps1 b Hb Hn); [lia|exact Hs].
  - replace (Z.to_nat (Z.max 0 (Z.of_nat n))) with n by lia.
    intros [p delta] (c & m & a & Hr & Ha & Hc & H0 & He & HD & Hhi & Hfl). cbn [fst snd] in *.
    apply wp_bind. eapply (run_evaluate LD n); [exact Hr|lia|]. apply wp_ok.
    set (sig := bpow radix2 delta) in *. assert (Hs : 0 < sig) by apply bpow_gt_0.
    assert (Hlo : lo <= lead sig n).
    { eapply Rle_trans; [|exact Hfl]. unfold lo, floor_lead. apply bpow_le.
      pose proof (Nat.mod_upper_bound (n - 1) 16 ltac:(lia)). lia. }
    destruct (ofZ80 1) as [F1 V1]; [lia|].
    pose proof (bx_01 b Hb Hn) as H01.
    destruct (eval_acc L M eps HM Heps Heps1 m a (f80_of_Z 1) (ideal c sig n) (slack sig n) n) as [Fr Vr].
    + exact F1.
    + intros i Hi. apply Hc, Hi.
    + intros i Hi. apply Ha, Hi.
    + intros i Hi. destruct (Ha i Hi) as [_ V]. rewrite V, V1. destruct i as [|i]; [lra|]. pose proof (H01 (n - S i)%nat). lra.
    + exact Hn.
    + intros i Hi. apply Hc, Hi.
    + intros i Hi. apply (eta_ideal eps Heps Heps1 b Hb Hn); auto.
    + intros i Hi. pose proof (eta_slack b Hn sig n i Hs Hlo Hi). pose proof eta80_pos. lra.
    + apply (slack_sum_le b Hn); auto.
    + eapply Rle_trans; [apply (ideal_sum eps Heps Heps1 b Hb Hn); auto|]. apply bpow_le. lia.
    + cbv zeta in Fr, Vr. change (@n1 (ld LD)) with (f80_of_Z 1).
      set (I := @evalf BN LD m a (f80_of_Z 1) (S n) : f80) in *.
      exists I, delta. fold sig.
      split; [exact Fr|]. split; [exact HD|]. pose proof (INR_fact_lt_0 n) as Hf.
      split; [|split; [|reflexivity]].
      { unfold lead in Hhi. apply (Rmult_le_compat_r (INR (fact n))) in Hhi; [|lra]. unfold Rdiv in Hhi.
        rewrite Rmult_assoc, Rinv_l in Hhi by lra. lra. }
      assert (HA : forall i, (i <= n)%nat -> (B2R (f80_of_Z 1) + B2R (a i)) ^ i = (1 - bx (n - i)) ^ i).
      { intros i Hi. destruct (Ha i Hi) as [_ V]. rewrite V, V1. destruct i as [|i]; [reflexivity|]. reflexivity. }
      assert (S1 : rsum (S n) (fun i => ideal c sig n i * (B2R (f80_of_Z 1) + B2R (a i)) ^ i) = sig * G bx c n 0 1).
      { unfold G. rewrite rsum_rev, <- rsum_scal. apply rsum_ext. intros j Hj. replace (S n - 1 - j)%nat with (n - j)%nat by lia.
        rewrite HA by lia. unfold ideal. replace (n - (n - j))%nat with j by lia. rewrite Nat.add_0_r. unfold mono. field. apply fact_neq. }
      assert (S2 : rsum (S n) (fun i => Rabs (ideal c sig n i) * (B2R (f80_of_Z 1) + B2R (a i)) ^ i) = sig * Gabs bx c n 0 1).
      { unfold Gabs. rewrite rsum_rev, <- rsum_scal. apply rsum_ext. intros j Hj. replace (S n - 1 - j)%nat with (n - j)%nat by lia.
        rewrite HA by lia. unfold ideal. replace (n - (n - j))%nat with j by lia. rewrite Nat.add_0_r. unfold mono, Rdiv.
        rewrite !Rabs_mult, (Rabs_pos_eq sig) by lra. rewrite (Rabs_pos_eq (/ INR (fact (n - j)))) by apply Rlt_le, inv_fact_pos. ring. }
      rewrite S1, S2, slack_sum in Vr.
      assert (Hg0 : 0 <= gam eps b) by (apply gam_pos; assumption).
      assert (HgN : 4 * gam eps b * INR (S n) <= 1) by (pose proof (gam_n eps Heps Heps1 b Hn); lra).
      assert (Hw0 : 0 < wabs) by apply wabs_pos.
      assert (Hbn : bx n <= 1 <= 1) by (split; [apply H01|lra]).
      pose proof (Gabs_size bx (bx_mono b Hb Hn) c (gam eps b) wabs n Hg0 HgN (Rlt_le _ _ Hw0) (w_n1 b Hn n (le_n n)) H01 H0 He n 1 (le_n n) Hbn) as HGs.
      pose proof (final_error bx (bx_mono b Hb Hn) c (gam eps b) wabs n Hg0 HgN (Rlt_le _ _ Hw0) (w_n1 b Hn n (le_n n)) H01 H0 He 1 Hbn) as HGf.
      rewrite h_G by lia.
      set (g := G bx c n 0 1) in *. set (g0 := G bx (coef bx) n 0 1) in *. set (ga := Gabs bx c n 0 1) in *.
      set (f := INR (fact n)) in *. set (N := INR (S n)) in *.
      fold (gam eps b) in Vr. set (gm := gam eps b) in *.
      assert (HgmE : gm = 7 * N * eps) by reflexivity.
      assert (K1 : f * ga <= 8).
      { apply (Rmult_le_compat_l f) in HGs; [|lra]. replace (f * (8 / f)) with 8 in HGs by (field; lra). exact HGs. }
      assert (K2 : f * Rabs (g - g0) <= wabs * 2 ^ n + 8 * gm * N).
      { apply (Rmult_le_compat_l f) in HGf; [|lra]. replace (f * ((wabs * 2 ^ n + 8 * gm * N) / f)) with (wabs * 2 ^ n + 8 * gm * N) in HGf by (field; lra). exact HGf. }
      assert (K3 : f / sig * Rabs (B2R I - sig * g) <= gm * (f * ga) + wabs).
      { assert (Hfs : 0 < f / sig) by (unfold Rdiv; apply Rmult_lt_0_compat; [lra|apply Rinv_0_lt_compat; exact Hs]).
        apply (Rmult_le_compat_l (f / sig)) in Vr; [|lra]. eapply Rle_trans; [exact Vr|].
        unfold lead. fold f. rewrite <- HgmE.
        replace (f / sig * (gm * (sig * ga) + (3 * INR n + 7) * (zeta * 2 ^ n * (sig / f)))) with (gm * (f * ga) + (3 * INR n + 7) * (zeta * 2 ^ n)) by (field; lra).
        apply Rplus_le_compat_l. apply (zeta_w b Hn n (le_n n)). }
      replace (f * B2R I / sig - f * g0) with (f / sig * (B2R I - sig * g) + f * (g - g0)) by (field; lra).
      eapply Rle_trans; [apply Rabs_triang|]. 
      assert (Hfs : 0 < f / sig) by (unfold Rdiv; apply Rmult_lt_0_compat; [lra|apply Rinv_0_lt_compat; exact Hs]).
      rewrite (Rabs_mult (f / sig)), (Rabs_mult f), (Rabs_pos_eq f), (Rabs_pos_eq (f / sig)) by lra.
      assert (K4 : gm * (f * ga) <= gm * 8) by (apply Rmult_le_compat_l; assumption).
      assert (K5 : wabs + wabs * 2 ^ n <= eps).
      { pose proof (w_n b Hn n (le_n n)) as W. assert (wabs <= bpow radix2 (-3000)) by (apply bpow_le; lia).
        apply Rle_trans with (bpow radix2 1 * bpow radix2 (-3000)); [change (bpow radix2 1) with 2; lra|].
        rewrite <- bpow_plus. eapply Rle_trans; [|exact Heps]. apply bpow_le. lia. }
      assert (K6 : 1 <= N) by (apply (le_INR 1); lia). pose proof u80_pos.
      unfold err_bound. fold N. rewrite HgmE in *.
      assert (1 * eps <= N * eps) by (apply Rmult_le_compat_r; lra). lra.
Qed.

Lemma prob_h : is_prob n (noncrossing_b (map B2R b)) (INR (fact n) * h (map B2R b) n 1).
Proof. apply prob_is_D_b; [apply Hb|]. apply map_length. Qed.

Lemma err_small : 0 <= err_bound <= 1 / 100.
Proof.
  unfold err_bound. change (bpow radix2 (-40)) with (/ 1099511627776) in Heps1. pose proof u80_pos.
  assert (HN : 1 <= INR (S n) <= 4097).
  { split; [apply (le_INR 1); lia|]. change 4097 with (IZR (Z.of_nat 4097)). rewrite <- INR_IZR_INZ. apply le_INR. lia. }
  set (N := INR (S n)) in *. assert (0 <= N * N <= 4097 * 4097) by (split; [nra|apply Rmult_le_compat; lra]).
  split; [apply Rmult_le_pos; lra|].
  apply Rle_trans with ((56 * (4097 * 4097) + 57 * 4097) * / 1099511627776); [|lra]. apply Rmult_le_compat; lra.
Qed.

Definition mns_bound : R := (56 * (INR (S n) * INR (S n)) + 410 * INR (S n)) * eps + bpow radix2 (-52).

Lemma close_of_tail I delta : is_finite I = true -> 0 < B2R I -> (0 <= delta)%Z -> bpow radix2 delta <= 2 * INR (fact n) ->
  Rabs (INR (fact n) * B2R I / bpow radix2 delta - INR (fact n) * h (map B2R b) n 1) <= err_bound ->
  is_finite (mns_tail M n I delta) = true /\ Rabs (B2R (mns_tail M n I delta) - INR (fact n) * h (map B2R b) n 1) <= mns_bound.
Proof.
  intros FI HI Hd Hsig Hq. pose proof err_small as Hs. pose proof (is_prob_range _ _ _ prob_h) as Hp.
  destruct (tail_acc M eps HM Heps Heps1 n Hn I delta FI HI Hd Hsig) as [Fr Vr].
  - apply abs_split in Hq. lra.
  - split; [exact Fr|]. cbv zeta in Vr.
    set (q := INR (fact n) * B2R I / bpow radix2 delta) in *. set (pp := INR (fact n) * h (map B2R b) n 1) in *.
    replace (B2R (mns_tail M n I delta) - pp) with ((B2R (mns_tail M n I delta) - q) + (q - pp)) by ring.
    eapply Rle_trans; [apply Rabs_triang|]. unfold mns_bound, err_bound in *. 
    pose proof (pos_INR (S n)). pose proof u80_pos. assert (0 <= INR (S n) * eps) by (apply Rmult_le_pos; lra). lra.
Qed.

Lemma mns_b_accurate : exists p r, is_prob n (noncrossing_b (map B2R b)) p /\ @ecdf1_mns2016_b BN E b = Ok r /\
  (err_bound < p -> is_finite (r : f64) = true /\ Rabs (B2R (r : f64) - p) <= mns_bound).
Proof.
  destruct loop_result as (I & delta & FI & Hd & Hsig & Hq & Hr).
  exists (INR (fact n) * h (map B2R b) n 1), (mns_tail M n I delta). split; [exact prob_h|]. split; [exact Hr|].
  intros Hp. apply close_of_tail; auto.
  apply abs_split in Hq. apply Rnot_le_lt. intros HI. pose proof (INR_fact_lt_0 n) as Hf. pose proof (bpow_gt_0 radix2 delta) as Hs.
  assert (INR (fact n) * B2R I / bpow radix2 delta <= 0).
  { unfold Rdiv. rewrite <- (Rmult_0_l (/ bpow radix2 delta)). apply Rmult_le_compat_r; [apply Rlt_le, Rinv_0_lt_compat, Hs|]. nra. }
  lra.
Qed.

Lemma prod_finite delta : (0 <= delta)%Z -> bpow radix2 delta <= 2 * INR (fact n) ->
  is_finite (Bmult mode_NE (f80_of_Z delta) (lm_logl M (f80_of_Z 2))) = true.
Proof.
  intros Hd Hsig. pose proof ln_2_bounds as Hl2. pose proof ln_lt_2 as Hl2'. destruct (fact_4096 n Hn) as [HF0 HF1].
  pose proof (INR_fact_lt_0 n) as Hfp. pose proof (bpow_gt_0 radix2 delta) as Hsp.
  assert (HN : INR (S n) <= 4097).
  { change 4097 with (IZR (Z.of_nat 4097)). rewrite <- INR_IZR_INZ. apply le_INR. lia. }
  assert (HD : IZR delta * ln 2 <= ln (INR (fact n)) + 1).
  { rewrite <- ln_bpow_f. apply Rle_trans with (ln (2 * INR (fact n))); [apply ln_le; assumption|]. rewrite ln_mult by lra. lra. }
  assert (Hd0 : 0 <= IZR delta) by (apply IZR_le; exact Hd).
  assert (Hd1 : IZR delta <= 100000).
  { assert (IZR delta * / 2 <= IZR delta * ln 2) by (apply Rmult_le_compat_l; lra). lra. }
  destruct (ofZ80 2) as [F2 V2]; [lia|].
  destruct (accl_log M eps HM (f80_of_Z 2) F2) as [Ft Vt]; [rewrite V2; lra|].
  rewrite V2 in Vt. rewrite (Rabs_pos_eq (ln 2)) in Vt by lra.
  assert (Heps40 : eps <= / 1099511627776) by exact Heps1. pose proof u80_pos.
  assert (eps * ln 2 <= 1 * ln 2) by (apply Rmult_le_compat_r; lra).
  assert (HdZ : (delta < 2 ^ 64)%Z).
  { apply lt_IZR. apply Rlt_trans with 1000000; [lra|apply IZR_lt; reflexivity]. }
  destruct (ofZ80 delta) as [Fd Vd]; [lia|].
  apply (mult80 (f80_of_Z delta) (lm_logl M (f80_of_Z 2)) Fd Ft). rewrite Vd, Rabs_mult, (Rabs_pos_eq (IZR delta)) by lra.
  apply Rle_trans with (100000 * 2).
  - apply Rmult_le_compat; [lra|apply Rabs_pos|lra|]. apply abs_split in Vt. apply Rabs_le. lra.
  - unfold big80. apply Rle_trans with (bpow radix2 20); [simpl; lra|]. apply bpow_le. lia.
Qed.

Lemma mns_b_nan_or_accurate : libml_special M ->
  exists p r, is_prob n (noncrossing_b (map B2R b)) p /\ @ecdf1_mns2016_b BN E b = Ok r /\
  ((r : f64) = B754_nan /\ p <= err_bound \/ is_finite (r : f64) = true /\ Rabs (B2R (r : f64) - p) <= mns_bound).
Proof.
  intros HS. destruct loop_result as (I & delta & FI & Hd & Hsig & Hq & Hr).
  exists (INR (fact n) * h (map B2R b) n 1), (mns_tail M n I delta). split; [exact prob_h|]. split; [exact Hr|].
  pose proof (INR_fact_lt_0 n) as Hf. pose proof (bpow_gt_0 radix2 delta) as Hs.
  assert (His : 0 < / bpow radix2 delta) by (apply Rinv_0_lt_compat, Hs).
  destruct (Rtotal_order (B2R I) 0) as [Hneg|[Hz|Hpos]].
  - left. split.
    + unfold mns_tail. rewrite (accl_log_neg M HS I FI Hneg).
      destruct (accl_lgamma M eps HM (Z.of_nat n + 1) ltac:(lia)) as [Fg _].
      destruct (lm_lgammal M (Z.of_nat n + 1)); try discriminate Fg; cbn [Bplus]; destruct (Bmult _ _ _); cbn [Bminus]; rewrite (accl_exp_nan M HS); reflexivity.
    + apply abs_split in Hq.
      assert (INR (fact n) * B2R I / bpow radix2 delta <= 0).
      { unfold Rdiv. rewrite <- (Rmult_0_l (/ bpow radix2 delta)). apply Rmult_le_compat_r; [lra|]. nra. }
      lra.
  - right. assert (HI : exists s, I = B754_zero s).
    { destruct I as [s|s| |s mm ee Hbb]; try discriminate; [exists s; reflexivity|]. exfalso.
      assert (HFs : is_finite_strict (B754_finite s mm ee Hbb : f80) = true) by reflexivity.
      pose proof (abs_B2R_ge_emin 64 16384 _ HFs) as HG. rewrite Hz, Rabs_R0 in HG. pose proof (bpow_gt_0 radix2 (SpecFloat.emin 64 16384)). lra. }
    destruct HI as [s ->].
    assert (HT : mns_tail M n (B754_zero s) delta = B754_zero false).
    { unfold mns_tail. rewrite (accl_log_zero M HS s).
      destruct (accl_lgamma M eps HM (Z.of_nat n + 1) ltac:(lia)) as [Fg _].
      pose proof (prod_finite delta Hd Hsig) as Fp.
      destruct (lm_lgammal M (Z.of_nat n + 1)); try discriminate Fg; cbn [Bplus];
        destruct (Bmult mode_NE (f80_of_Z delta) (lm_logl M (f80_of_Z 2))); try discriminate Fp; cbn [Bminus]; rewrite (accl_exp_minf M HS); reflexivity. }
    rewrite HT. split; [reflexivity|]. change (B2R (B754_zero false : f64)) with 0. rewrite Hz in Hq.
    replace (INR (fact n) * 0 / bpow radix2 delta) with 0 in Hq by (unfold Rdiv; ring).
    eapply Rle_trans; [exact Hq|]. unfold err_bound, mns_bound. pose proof (bpow_gt_0 radix2 (-52)). pose proof u80_pos.
    pose proof (pos_INR (S n)). assert (0 <= INR (S n) * eps) by (apply Rmult_le_pos; lra). lra.
  - right. apply close_of_tail; auto.
Qed.
End Fixed.

(** ** ecdf1_mns2016_B *)
Notation nn v := (INR (List.length v) * INR (List.length v)).
Lemma mns_B_reduce (B : list f64) : accepted64 B -> exists p, is_prob (List.length B) (noncrossing_B (map B2R B)) p /\
  @ecdf1_mns2016_B BN E B = @ecdf1_mns2016_b BN E (@reflected BN B) /\ accepted64 (@reflected BN B) /\
  List.length (@reflected BN B) = List.length B /\
  forall q, is_prob (List.length (@reflected BN B)) (noncrossing_b (map B2R (@reflected BN B))) q -> Rabs (q - p) <= nn B * u64.
Proof.
  intros HB.
  assert (Hlen : List.length (@reflected BN B) = List.length B) by (unfold reflected; rewrite map_length, rev_length; reflexivity).
  assert (Hex : exists p, is_prob (List.length B) (noncrossing_b (reflect (map B2R B))) p).
  { eexists. apply prob_is_D_b; [apply valid_reflect, HB|]. rewrite reflect_length. apply map_length. }
  destruct Hex as [p Hp]. pose proof (accepted_reflected L B HB) as HB'.
  exists p. split; [apply prob_B_reflect; exact Hp|].
  split; [rewrite mns_B_eq, check_accepted by exact HB; reflexivity|]. split; [exact HB'|]. split; [exact Hlen|].
  intros q Hq.
  assert (HlB : List.length (map B2R (@reflected BN B)) = List.length B) by (rewrite <- Hlen; apply map_length).
  assert (HlR : List.length (reflect (map B2R B)) = List.length B) by (rewrite reflect_length; apply map_length).
  pose proof (prob_b_close (map B2R (@reflected BN B)) (reflect (map B2R B)) q p) as HC.
  rewrite HlB, HlR in HC.
  eapply Rle_trans; [apply HC; auto|].
  - apply HB'.
  - apply (valid_reflect (map B2R B)), HB.
  - rewrite <- Hlen at 1. exact Hq.
  - rewrite Rmult_assoc. apply Rmult_le_compat_l; [apply pos_INR|]. apply reflected_close, HB.
Qed.

Lemma mns_B_accurate (B : list f64) : accepted64 B -> (List.length B <= 4096)%nat ->
  exists p r, is_prob (List.length B) (noncrossing_B (map B2R B)) p /\ @ecdf1_mns2016_B BN E B = Ok r /\
  (err_bound B + nn B * u64 < p -> is_finite (r : f64) = true /\ Rabs (B2R (r : f64) - p) <= mns_bound B + nn B * u64).
Proof.
  intros HB Hn. destruct (mns_B_reduce B HB) as (p & Hp & Hr & HB' & Hlen & Hcl).
  pose (B' := @reflected BN B : list f64). assert (Hlen' : List.length B' = List.length B) by exact Hlen.
  destruct (mns_b_accurate B' HB' ltac:(lia)) as (q & r & Hq & Hr' & Hacc).
  pose proof (Hcl q Hq) as Hd.
  assert (E1 : err_bound B' = err_bound B) by (unfold err_bound; rewrite Hlen'; reflexivity).
  assert (E2 : mns_bound B' = mns_bound B) by (unfold mns_bound; rewrite Hlen'; reflexivity).
  exists p, r. split; [exact Hp|]. split; [rewrite Hr; exact Hr'|]. intros Hlt.
  destruct Hacc as [Fr Vr]; [rewrite E1; apply abs_split in Hd; lra|]. split; [exact Fr|].
  rewrite E2 in Vr. replace (B2R (r : f64) - p) with ((B2R (r : f64) - q) + (q - p)) by ring.
  eapply Rle_trans; [apply Rabs_triang|]. lra.
Qed.

Lemma mns_B_nan_or_accurate (B : list f64) : libml_special M -> accepted64 B -> (List.length B <= 4096)%nat ->
  exists p r, is_prob (List.length B) (noncrossing_B (map B2R B)) p /\ @ecdf1_mns2016_B BN E B = Ok r /\
  ((r : f64) = B754_nan /\ p <= err_bound B + nn B * u64 \/
   is_finite (r : f64) = true /\ Rabs (B2R (r : f64) - p) <= mns_bound B + nn B * u64).
Proof.
  intros HS HB Hn. destruct (mns_B_reduce B HB) as (p & Hp & Hr & HB' & Hlen & Hcl).
  pose (B' := @reflected BN B : list f64). assert (Hlen' : List.length B' = List.length B) by exact Hlen.
  destruct (mns_b_nan_or_accurate B' HB' ltac:(lia) HS) as (q & r & Hq & Hr' & Hacc).
  pose proof (Hcl q Hq) as Hd.
  assert (E1 : err_bound B' = err_bound B) by (unfold err_bound; rewrite Hlen'; reflexivity).
  assert (E2 : mns_bound B' = mns_bound B) by (unfold mns_bound; rewrite Hlen'; reflexivity).
  exists p, r. split; [exact Hp|]. split; [rewrite Hr; exact Hr'|].
  destruct Hacc as [[Hnan Hle]|[Fr Vr]]; [left|right].
  - split; [exact Hnan|]. rewrite E1 in Hle. apply abs_split in Hd. lra.
  - split; [exact Fr|]. rewrite E2 in Vr. replace (B2R (r : f64) - p) with ((B2R (r : f64) - q) + (q - p)) by ring.
    eapply Rle_trans; [apply Rabs_triang|]. lra.
Qed.
End Acc.
