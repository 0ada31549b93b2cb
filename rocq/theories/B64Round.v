(** * B64Round: rounding errors of the binary64 operations. *)
From Coquelicot Require Import Coquelicot.
From Flocq Require Import Core.Core IEEE754.BinarySingleNaN Relative Plus_error.
From Coq Require Import ZArith Reals List Bool Lia Lra.
From Verif Require Import Base Num Binary64 Binary64Facts.
Local Open Scope R_scope.

Definition u64 : R := bpow radix2 (-53).
Definition eta64 : R := bpow radix2 (-1074).

Lemma u64_pos : 0 < u64.
Proof. apply bpow_gt_0. Qed.
Lemma eta64_pos : 0 < eta64.
Proof. apply bpow_gt_0. Qed.

Lemma bpow_format e : (-1074 <= e)%Z -> rnd (bpow radix2 e) = bpow radix2 e.
Proof.
  intros He. apply round_generic; auto with typeclass_instances.
  apply generic_format_bpow. unfold SpecFloat.fexp, SpecFloat.emin. lia.
Qed.

Lemma rnd_opp x : rnd (- x) = - rnd x.
Proof. apply round_NE_opp. Qed.

Lemma rnd_abs_le x b : rnd b = b -> Rabs x <= b -> Rabs (rnd x) <= b.
Proof.
  intros Hb Hx. apply Rabs_le_inv in Hx. apply Rabs_le.
  assert (Hb' : rnd (- b) = - b) by (rewrite rnd_opp, Hb; reflexivity).
  apply (rnd_between (- b) x b Hb' Hb Hx).
Qed.

Lemma no_overflow60 x : Rabs x <= bpow radix2 60 -> Rlt_bool (Rabs (rnd x)) (bpow radix2 1024) = true.
Proof.
  intros Hx. apply Rlt_bool_true. eapply Rle_lt_trans; [apply (rnd_abs_le _ (bpow radix2 60))|apply bpow_lt; lia].
  - apply bpow_format. lia.
  - exact Hx.
Qed.

Lemma rnd_err x : Rabs (rnd x - x) <= u64 * Rabs x + eta64.
Proof.
  destruct (error_N_FLT radix2 (-1074) 53 ltac:(lia) (fun z => negb (Z.even z)) x) as (e & t & He & Ht & _ & Hr).
  change (SpecFloat.fexp 53 1024) with (FLT_exp (-1074) 53). rewrite Hr.
  replace (x * (1 + e) + t - x) with (x * e + t) by ring.
  eapply Rle_trans; [apply Rabs_triang|]. rewrite Rabs_mult.
  assert (Hu : / 2 * bpow radix2 (-53 + 1) = u64).
  { unfold u64. rewrite bpow_plus. change (bpow radix2 1) with 2. field. }
  change (Rabs e <= / 2 * bpow radix2 (-53 + 1)) in He. rewrite Hu in He. pose proof (Rabs_pos x). pose proof eta64_pos. unfold eta64 in *.
  assert (Rabs x * Rabs e <= u64 * Rabs x) by (rewrite Rmult_comm; apply Rmult_le_compat_r; auto). lra.
Qed.

Lemma rnd_plus_err (x y : f64) : Rabs (rnd (B2R x + B2R y) - (B2R x + B2R y)) <= u64 * Rabs (B2R x + B2R y).
Proof.
  destruct (FLT_plus_error_N_ex radix2 (-1074) 53 (fun z => negb (Z.even z)) (B2R x) (B2R y)) as (e & He & Hr).
  { apply (generic_format_B2R 53 1024 x). } { apply (generic_format_B2R 53 1024 y). }
  change (SpecFloat.fexp 53 1024) with (FLT_exp (-1074) 53). rewrite Hr.
  replace ((B2R x + B2R y) * (1 + e) - (B2R x + B2R y)) with (e * (B2R x + B2R y)) by ring.
  rewrite Rabs_mult. apply Rmult_le_compat_r; [apply Rabs_pos|].
  eapply Rle_trans; [exact He|].
  assert (Hu : u_ro radix2 53 = u64).
  { unfold u_ro, u64. rewrite bpow_plus. change (bpow radix2 1) with 2. simpl Z.opp. field. }
  rewrite Hu. pose proof u64_pos. apply Rle_trans with (u64 / 1); [|lra].
  apply Rmult_le_compat_l; [lra|]. apply Rinv_le; lra.
Qed.

Lemma rnd_minus_err (x y : f64) : Rabs (rnd (B2R x - B2R y) - (B2R x - B2R y)) <= u64 * Rabs (B2R x - B2R y).
Proof.
  pose proof (rnd_plus_err x (Bopp y)) as H. rewrite B2R_Bopp in H. exact H.
Qed.

(** an integer times a binary64 number is a multiple of the smallest positive number *)
Lemma rnd_int_mult_err z (d : f64) : Rabs (rnd (IZR z * B2R d) - IZR z * B2R d) <= u64 * Rabs (IZR z * B2R d).
Proof.
  set (x := IZR z * B2R d).
  destruct (Rle_or_lt (bpow radix2 (-1074 + 53 - 1)) (Rabs x)) as [Hx|Hx].
  - pose proof (relative_error_N_FLT radix2 (-1074) 53 ltac:(lia) (fun z => negb (Z.even z)) x Hx) as H.
    change (SpecFloat.fexp 53 1024) with (FLT_exp (-1074) 53). eapply Rle_trans; [exact H|].
    apply Rmult_le_compat_r; [apply Rabs_pos|]. apply Req_le.
    unfold u64. rewrite bpow_plus. change (bpow radix2 1) with 2. simpl Z.opp. field.
  - rewrite round_generic; auto with typeclass_instances.
    + rewrite Rminus_diag_eq, Rabs_R0 by reflexivity. apply Rmult_le_pos; [apply Rlt_le, u64_pos|apply Rabs_pos].
    + pose proof (generic_format_B2R 53 1024 d) as Hd.
      assert (Hd' : FIX_format radix2 (-1074) (B2R d)).
      { apply FIX_format_generic. apply (generic_format_FIX_FLT radix2 (-1074) 53). exact Hd. }
      destruct Hd' as [[m e] Hm He]. simpl in He. subst e.
      apply (generic_format_FLT radix2 (-1074) 53). exists (Float radix2 (z * m) (-1074)).
      * unfold x. rewrite Hm. unfold F2R. cbn [Fnum Fexp]. rewrite mult_IZR. ring.
      * cbn [Fnum]. apply lt_IZR. rewrite abs_IZR, mult_IZR, IZR_Zpower by lia.
        apply (Rmult_lt_reg_r (bpow radix2 (-1074))); [apply bpow_gt_0|].
        rewrite <- bpow_plus. eapply Rle_lt_trans; [|eapply Rlt_le_trans; [exact Hx|apply bpow_le; lia]].
        apply Req_le. unfold x. rewrite Hm. unfold F2R. cbn [Fnum Fexp].
        rewrite !Rabs_mult, (Rabs_pos_eq (bpow radix2 (-1074))) by apply bpow_ge_0. ring.
      * cbn [Fexp]. lia.
Qed.

(** ** The operations *)
Lemma plus_err (x y : f64) : is_finite x = true -> is_finite y = true ->
  Rabs (B2R x + B2R y) <= bpow radix2 60 ->
  is_finite (Bplus mode_NE x y) = true /\
  Rabs (B2R (Bplus mode_NE x y) - (B2R x + B2R y)) <= u64 * Rabs (B2R x + B2R y).
Proof.
  intros Fx Fy Hb. pose proof (Bplus_correct 53 1024 prec_ok emax_ok mode_NE x y Fx Fy) as H.
  cbn [round_mode] in H. rewrite no_overflow60 in H by exact Hb. destruct H as (H1 & H2 & _).
  rewrite H1. split; [exact H2|apply rnd_plus_err].
Qed.

Lemma minus_err (x y : f64) : is_finite x = true -> is_finite y = true ->
  Rabs (B2R x - B2R y) <= bpow radix2 60 ->
  is_finite (Bminus mode_NE x y) = true /\
  Rabs (B2R (Bminus mode_NE x y) - (B2R x - B2R y)) <= u64 * Rabs (B2R x - B2R y).
Proof.
  intros Fx Fy Hb. pose proof (Bminus_correct 53 1024 prec_ok emax_ok mode_NE x y Fx Fy) as H.
  cbn [round_mode] in H. rewrite no_overflow60 in H by exact Hb. destruct H as (H1 & H2 & _).
  rewrite H1. split; [exact H2|apply rnd_minus_err].
Qed.

Lemma mult_err (x y : f64) : is_finite x = true -> is_finite y = true ->
  Rabs (B2R x * B2R y) <= bpow radix2 60 ->
  is_finite (Bmult mode_NE x y) = true /\
  Rabs (B2R (Bmult mode_NE x y) - B2R x * B2R y) <= u64 * Rabs (B2R x * B2R y) + eta64.
Proof.
  intros Fx Fy Hb. pose proof (Bmult_correct 53 1024 prec_ok emax_ok mode_NE x y) as H.
  cbn [round_mode] in H. rewrite no_overflow60 in H by exact Hb. destruct H as (H1 & H2 & _).
  rewrite H1, H2, Fx, Fy. split; [reflexivity|apply rnd_err].
Qed.

Lemma div_err (x y : f64) : is_finite x = true -> B2R y <> 0 ->
  Rabs (B2R x / B2R y) <= bpow radix2 60 ->
  is_finite (Bdiv mode_NE x y) = true /\
  Rabs (B2R (Bdiv mode_NE x y) - B2R x / B2R y) <= u64 * Rabs (B2R x / B2R y) + eta64.
Proof.
  intros Fx Hy Hb. pose proof (Bdiv_correct 53 1024 prec_ok emax_ok mode_NE x y Hy) as H.
  cbn [round_mode] in H. rewrite no_overflow60 in H by exact Hb. destruct H as (H1 & H2 & _).
  rewrite H1, H2, Fx. split; [reflexivity|apply rnd_err].
Qed.
