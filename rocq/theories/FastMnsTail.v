(** * FastMnsTail: the last expression of ecdf1_mns2016_b under -ffast-math: the three summands of the exponent are added in any order. *)
From Coquelicot Require Import Coquelicot.
From Flocq Require Import Core.Core IEEE754.BinarySingleNaN.
From Coq Require Import ZArith Reals List Bool Lia Lra Factorial.
From Verif Require Import Base Num RSum Binary64 B64Round LongDouble LdRound Ecdf1Mns AccPmf AccMnsEval AccMnsTail.
From Verif Require Import FastMath FastLong FastMnsSum.
Import List. Import ListNotations.
Local Open Scope R_scope.

Section Tail.
Context (D : lcompiler) (M : libml) (eps : R).
Hypothesis HM : libml_accurate M eps.
Hypothesis Heps : u80 <= eps.
Hypothesis Heps1 : eps <= bpow radix2 (-40).
Variable n : nat.
Hypothesis Hn : (n <= 4096)%nat.

Definition mns_tail_fast (I : f80) (delta : Z) : f64 :=
  f64_of_f80 (lm_expl M (lc_sum D [lm_lgammal M (Z.of_nat n + 1); lm_logl M I; Bopp (Bmult mode_NE (f80_of_Z delta) (lm_logl M (f80_of_Z 2)))])).

Lemma tail_fast (I : f80) (delta : Z) : is_finite I = true -> 0 < B2R I -> (0 <= delta)%Z ->
  bpow radix2 delta <= 2 * INR (fact n) ->
  let q := INR (fact n) * B2R I / bpow radix2 delta in q <= 11 / 10 ->
  is_finite (mns_tail_fast I delta) = true /\ Rabs (B2R (mns_tail_fast I delta) - q) <= 350 * INR (S n) * eps + bpow radix2 (-52).
Proof.
  intros FI HI Hd Hsig q Hq. unfold mns_tail_fast.
  assert (Heps40 : eps <= / 1099511627776) by exact Heps1.
  pose proof u80_pos as Hu0. assert (He0 : 0 < eps) by lra.
  pose proof ln_2_bounds as Hl2. pose proof ln_lt_2 as Hl2'.
  destruct (fact_4096 n Hn) as [HF0 HF1]. pose proof (INR_fact_lt_0 n) as Hfp. pose proof (bpow_gt_0 radix2 delta) as Hsp.
  assert (HN : 1 <= INR (S n) <= 4097).
  { split; [apply (le_INR 1); lia|]. change 4097 with (IZR (Z.of_nat 4097)). rewrite <- INR_IZR_INZ. apply le_INR. lia. }
  set (N := INR (S n)) in *. 
  assert (HD : IZR delta * ln 2 <= ln (INR (fact n)) + 1).
  { rewrite <- ln_bpow_f. apply Rle_trans with (ln (2 * INR (fact n))); [apply ln_le; assumption|]. rewrite ln_mult by lra. lra. }
  assert (Hd0 : 0 <= IZR delta) by (apply IZR_le; exact Hd).
  assert (Hq0 : 0 < q).
  { unfold q, Rdiv. apply Rmult_lt_0_compat; [apply Rmult_lt_0_compat; assumption|apply Rinv_0_lt_compat; exact Hsp]. }
  assert (HlI : ln (B2R I) = ln q - ln (INR (fact n)) + IZR delta * ln 2).
  { rewrite <- ln_bpow_f. unfold q, Rdiv. rewrite !ln_mult, ln_Rinv; try assumption; try ring.
    - apply Rmult_lt_0_compat; assumption.
    - apply Rinv_0_lt_compat; assumption. }
  set (F := ln (INR (fact n))) in *. set (DD := IZR delta * ln 2) in *. set (l := ln (B2R I)) in *.
  assert (HD0 : 0 <= DD) by (apply Rmult_le_pos; lra).
  assert (HlX : Rabs l <= 50000).
  { apply Rabs_le. split.
    - apply Rle_trans with (ln (bpow radix2 (-16445))); [rewrite ln_bpow_f; lra|].
      apply ln_le; [apply bpow_gt_0|].
      assert (HFs : is_finite_strict I = true) by (destruct I as [s|s| |s m e Hb]; simpl in HI; try lra; reflexivity).
      pose proof (abs_B2R_ge_emin 64 16384 I HFs) as HG. rewrite Rabs_pos_eq in HG by lra. exact HG.
    - pose proof (ln_le_m q Hq0). lra. }
  assert (Hlq : Rabs l <= Rabs (ln q) + F + DD).
  { rewrite HlI. replace (ln q - F + DD) with (ln q + (- F + DD)) by ring. eapply Rle_trans; [apply Rabs_triang|].
    assert (Rabs (- F + DD) <= F + DD) by (apply Rabs_le; lra). lra. }
  destruct (accl_lgamma M eps HM (Z.of_nat n + 1) ltac:(lia)) as [Fg Vg].
  replace (Z.to_nat (Z.of_nat n + 1 - 1)) with n in Vg by lia. fold F in Vg.
  destruct (accl_log M eps HM I FI HI) as [Fl Vl]. fold l in Vl.
  destruct (ofZ80 2) as [F2 V2]; [lia|].
  destruct (accl_log M eps HM (f80_of_Z 2) F2) as [Ft Vt]; [rewrite V2; lra|].
  rewrite V2 in Vt. rewrite (Rabs_pos_eq (ln 2)) in Vt by lra.
  assert (HdZ : (delta < 2 ^ 64)%Z).
  { apply lt_IZR. apply Rlt_trans with 1000000; [|apply IZR_lt; reflexivity].
    assert (IZR delta * / 2 <= DD) by (apply Rmult_le_compat_l; lra). lra. }
  destruct (ofZ80 delta) as [Fd Vd]; [lia|].
  set (g := lm_lgammal M (Z.of_nat n + 1)) in *. set (lh := lm_logl M I) in *. set (t2 := lm_logl M (f80_of_Z 2)) in *.
  set (dz := f80_of_Z delta) in *.
  assert (Hbig : 1048576 <= big80) by (unfold big80; change 1048576 with (bpow radix2 20); apply bpow_le; lia).
  pose proof (Rabs_pos l) as Hl0.
  assert (HepsF : eps * F <= / 1000 * F) by (apply Rmult_le_compat_r; lra).
  assert (Hepsl : eps * Rabs l <= / 1000 * Rabs l) by (apply Rmult_le_compat_r; lra).
  assert (Hg2 : Rabs (B2R g) <= 2 * F).
  { replace (B2R g) with (F + (B2R g - F)) by ring. eapply Rle_trans; [apply Rabs_triang|]. rewrite (Rabs_pos_eq F) by lra. lra. }
  assert (Hlh2 : Rabs (B2R lh) <= 2 * Rabs l).
  { replace (B2R lh) with (l + (B2R lh - l)) by ring. eapply Rle_trans; [apply Rabs_triang|]. lra. }
  (* product *)
  assert (Hepsn : eps * ln 2 <= / 1000 * ln 2) by (apply Rmult_le_compat_r; lra).
  assert (Hdt : Rabs (B2R dz * B2R t2 - DD) <= eps * DD).
  { rewrite Vd. unfold DD. rewrite <- Rmult_minus_distr_l, Rabs_mult, (Rabs_pos_eq (IZR delta)) by lra.
    replace (eps * (IZR delta * ln 2)) with (IZR delta * (eps * ln 2)) by ring. apply Rmult_le_compat_l; assumption. }
  assert (HepsD : eps * DD <= / 1000 * DD) by (apply Rmult_le_compat_r; lra).
  assert (Hdt2 : Rabs (B2R dz * B2R t2) <= 2 * DD).
  { replace (B2R dz * B2R t2) with (DD + (B2R dz * B2R t2 - DD)) by ring. eapply Rle_trans; [apply Rabs_triang|]. rewrite (Rabs_pos_eq DD) by lra. lra. }
  destruct (mult80 dz t2 Fd Ft) as (Fp & Vp); [lra|]. set (pr := Bmult mode_NE dz t2) in *.
  assert (Heta : eta80 <= eps * / 8).
  { apply Rle_trans with (u80 * / 8); [|apply Rmult_le_compat_r; lra]. unfold eta80, u80. change (/ 8) with (bpow radix2 (-3)).
    rewrite <- bpow_plus. apply bpow_le. lia. }
  pose proof eta80_pos as Heta0.
  assert (Vp' : Rabs (B2R pr - B2R dz * B2R t2) <= eps * (2 * DD) + eps * / 8).
  { eapply Rle_trans; [exact Vp|]. apply Rplus_le_compat; [|exact Heta]. apply Rmult_le_compat; [lra|apply Rabs_pos|lra|exact Hdt2]. }
  assert (Hp2 : Rabs (B2R pr) <= 3 * DD + 1 / 8).
  { replace (B2R pr) with (B2R dz * B2R t2 + (B2R pr - B2R dz * B2R t2)) by ring. eapply Rle_trans; [apply Rabs_triang|]. lra. }
  (* sum *)
  set (l3 := [g; lh; Bopp pr]).
  assert (HL3 : lab l3 <= 2 * F + 2 * Rabs l + 3 * DD + 1 / 8).
  { unfold lab, l3. cbn [fold_right]. rewrite B2R_Bopp, Rabs_Ropp. lra. }
  assert (HL3' : lab l3 <= 101 / 100 * (F + Rabs l + DD) + 1 / 100).
  { unfold lab, l3. cbn [fold_right]. rewrite B2R_Bopp, Rabs_Ropp.
    assert (Rabs (B2R g) <= 101 / 100 * F).
    { replace (B2R g) with (F + (B2R g - F)) by ring. eapply Rle_trans; [apply Rabs_triang|]. rewrite (Rabs_pos_eq F) by lra. lra. }
    assert (Rabs (B2R lh) <= 101 / 100 * Rabs l).
    { replace (B2R lh) with (l + (B2R lh - l)) by ring. eapply Rle_trans; [apply Rabs_triang|]. lra. }
    assert (Rabs (B2R dz * B2R t2) <= 1001 / 1000 * DD).
    { replace (B2R dz * B2R t2) with (DD + (B2R dz * B2R t2 - DD)) by ring. eapply Rle_trans; [apply Rabs_triang|]. rewrite (Rabs_pos_eq DD) by lra. lra. }
    assert (Rabs (B2R pr) <= 101 / 100 * DD + 1 / 100).
    { replace (B2R pr) with (B2R dz * B2R t2 + (B2R pr - B2R dz * B2R t2)) by ring. eapply Rle_trans; [apply Rabs_triang|]. lra. }
    lra. }
  destruct (sum_err D l3) as [Fx Vx].
  { discriminate. }
  { repeat constructor; auto. rewrite is_finite_Bopp. exact Fp. }
  { cbn. lia. }
  { apply Rle_trans with (bpow radix2 20); [change (bpow radix2 20) with 1048576; lra|apply bpow_le; lia]. }
  set (x := lc_sum D l3) in *.
  assert (HSM : lsm l3 = B2R g + B2R lh - B2R pr).
  { unfold lsm, l3. cbn [fold_right]. rewrite B2R_Bopp. ring. }
  change (INR (List.length l3)) with (INR 3) in Vx. replace (INR 3) with 3 in Vx by (simpl; ring). rewrite HSM in Vx.
  assert (Vx' : Rabs (B2R x - (B2R g + B2R lh - B2R pr)) <= eps * (334 / 100 * (F + Rabs l + DD) + 4 / 100)).
  { eapply Rle_trans; [exact Vx|]. apply Rle_trans with (u80 * (33 / 10 * lab l3)); [apply Req_le; field|].
    pose proof (lab_pos l3). apply Rmult_le_compat; lra. }
  assert (HE : Rabs (B2R x - ln q) <= eps * (252 * N + 20 + 7 * Rabs (ln q))).
  { apply Rle_trans with (eps * (6 * F + 6 * Rabs l + 6 * DD + 1 / 4)).
    - replace (ln q) with (F + l - DD) by (rewrite HlI; ring).
      assert (HeF : 0 <= eps * F) by (apply Rmult_le_pos; lra). assert (Hel : 0 <= eps * Rabs l) by (apply Rmult_le_pos; lra).
      assert (HeD : 0 <= eps * DD) by (apply Rmult_le_pos; lra).
      assert (Vp2 : Rabs (B2R pr - B2R dz * B2R t2) <= eps * (11 / 10 * DD) + eps * / 8).
      { eapply Rle_trans; [exact Vp|]. apply Rplus_le_compat; [|exact Heta]. apply Rmult_le_compat; [lra|apply Rabs_pos|lra|].
        replace (B2R dz * B2R t2) with (DD + (B2R dz * B2R t2 - DD)) by ring. eapply Rle_trans; [apply Rabs_triang|]. rewrite (Rabs_pos_eq DD) by lra. lra. }
      apply abs_split in Vx'. apply abs_split in Vp2. apply abs_split in Hdt. apply abs_split in Vg. apply abs_split in Vl.
      apply Rabs_le. lra.
    - apply Rmult_le_compat_l; [lra|]. pose proof (Rabs_pos (ln q)). lra. }
  set (E2 := eps * (252 * N + 20 + 7 * Rabs (ln q))) in *.
  pose proof (Rabs_pos (ln q)) as Hlq0.
  assert (Hlq1 : Rabs (ln q) <= 200000).
  { replace (ln q) with (l + (F - DD)) by (rewrite HlI; ring). eapply Rle_trans; [apply Rabs_triang|].
    assert (Rabs (F - DD) <= F + DD) by (apply Rabs_le; lra). lra. }
  assert (HE2 : E2 <= / 16384).
  { unfold E2. apply Rle_trans with (/ 1099511627776 * (252 * N + 20 + 7 * Rabs (ln q))); [apply Rmult_le_compat_r; lra|]. lra. }
  assert (HE20 : 0 <= E2) by (unfold E2; apply Rmult_le_pos; lra).
  assert (Hexp : Rabs (exp (B2R x) - q) <= 11 / 10 * (q * E2)).
  { replace (exp (B2R x)) with (q * exp (B2R x - ln q)).
    - replace (q * exp (B2R x - ln q) - q) with (q * (exp (B2R x - ln q) - 1)) by ring. rewrite Rabs_mult, (Rabs_pos_eq q) by lra.
      replace (11 / 10 * (q * E2)) with (q * (11 / 10 * E2)) by ring. apply Rmult_le_compat_l; [lra|].
      eapply Rle_trans; [apply exp_le_1; lra|]. lra.
    - unfold Rminus. rewrite exp_plus, exp_Ropp, exp_ln by exact Hq0. field. lra. }
  assert (HqE : q * E2 <= eps * (278 * N + 29)).
  { unfold E2. pose proof (q_ln_q q (conj Hq0 Hq)) as Hql.
    replace (q * (eps * (252 * N + 20 + 7 * Rabs (ln q)))) with (eps * (q * (252 * N + 20) + 7 * (q * Rabs (ln q)))) by ring.
    apply Rmult_le_compat_l; [lra|]. assert (q * (252 * N + 20) <= 11 / 10 * (252 * N + 20)) by (apply Rmult_le_compat_r; lra). lra. }
  assert (Hx1 : B2R x <= 1).
  { pose proof (ln_le_m q Hq0). apply abs_split in HE. lra. }
  assert (Hex0 : exp (B2R x) <= 12 / 10).
  { apply abs_split in Hexp. assert (q * E2 <= 11 / 10 * / 16384) by (apply Rmult_le_compat; lra). lra. }
  pose proof (exp_pos (B2R x)) as Hexp0.
  destruct (accl_exp M eps HM x Fx Hx1) as [Fe Ve]. set (ex := lm_expl M x) in *.
  assert (Hee : eps * exp (B2R x) <= eps * (12 / 10)) by (apply Rmult_le_compat_l; lra).
  fold eta80 in Ve.
  assert (Hexb : Rabs (B2R ex) <= 13 / 10).
  { apply Rabs_le. apply abs_split in Ve. lra. }
  destruct (narrow_ok ex Fe) as [Fr Vr].
  { change (bpow radix2 60) with 1152921504606846976. lra. }
  split; [exact Fr|].
  assert (H53 : u64 = / 9007199254740992) by reflexivity. assert (H52 : bpow radix2 (-52) = / 4503599627370496) by reflexivity.
  assert (Hnar : u64 * Rabs (B2R ex) + eta64 <= bpow radix2 (-52)).
  { assert (u64 * Rabs (B2R ex) <= u64 * (13 / 10)) by (apply Rmult_le_compat_l; [rewrite H53; lra|exact Hexb]).
    assert (eta64 <= bpow radix2 (-60)) by (unfold eta64; apply bpow_le; lia).
    change (bpow radix2 (-60)) with (/ 1152921504606846976) in H0. rewrite H53 in *. lra. }
  set (r := B2R (f64_of_f80 ex)) in *.
  replace (r - q) with ((r - B2R ex) + (B2R ex - exp (B2R x)) + (exp (B2R x) - q)) by ring.
  eapply Rle_trans; [apply Rabs_triang|]. eapply Rle_trans; [apply Rplus_le_compat_r, Rabs_triang|].
  assert (HNe : 1 * eps <= N * eps) by (apply Rmult_le_compat_r; lra). lra.
Qed.
End Tail.
