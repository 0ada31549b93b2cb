(** * LdRound: rounding errors of the long double operations. *)
From Coquelicot Require Import Coquelicot.
From Flocq Require Import Core.Core IEEE754.BinarySingleNaN Relative Plus_error.
From Coq Require Import ZArith Reals List Bool Lia Lra.
From Verif Require Import Base Num Binary64 Binary64Facts B64Round LongDouble.
Local Open Scope R_scope.

Notation rndl := (round radix2 (SpecFloat.fexp 64 16384) ZnearestE).
Definition u80 : R := bpow radix2 (-64).
Definition eta80 : R := bpow radix2 (-16445).

#[global] Instance fexp80_valid : Valid_exp (SpecFloat.fexp 64 16384).
Proof. exact (fexp_correct 64 16384 prec80_ok). Qed.
#[global] Instance fexp80_mono : Monotone_exp (SpecFloat.fexp 64 16384).
Proof. exact (fexp_monotone 64 16384). Qed.

Lemma u80_pos : 0 < u80.
Proof. apply bpow_gt_0. Qed.
Lemma eta80_pos : 0 < eta80.
Proof. apply bpow_gt_0. Qed.

Lemma rndl_le x y : x <= y -> rndl x <= rndl y.
Proof. apply round_le; auto with typeclass_instances. Qed.
Lemma rndl_0 : rndl 0 = 0.
Proof. apply round_0; auto with typeclass_instances. Qed.
Lemma rndl_B2R (x : f80) : rndl (B2R x) = B2R x.
Proof. apply round_generic; auto with typeclass_instances. apply generic_format_B2R. Qed.
Lemma rndl_int (z : Z) : (Z.abs z < 2 ^ 64)%Z -> rndl (IZR z) = IZR z.
Proof.
  intros Hz. apply round_generic; auto with typeclass_instances.
  replace (IZR z) with (F2R (Float radix2 z 0)) by (unfold F2R; simpl; ring).
  change (SpecFloat.fexp 64 16384) with (FLT_exp (-16445) 64).
  apply generic_format_FLT. exists (Float radix2 z 0); simpl; try lia; reflexivity.
Qed.
Lemma rndl_1 : rndl 1 = 1.
Proof. apply (rndl_int 1). reflexivity. Qed.
Lemma rndl_between x y z : rndl x = x -> rndl z = z -> x <= y <= z -> x <= rndl y <= z.
Proof. intros Hx Hz [H1 H2]. apply rndl_le in H1. apply rndl_le in H2. lra. Qed.
Lemma bpow80_format e : (-16445 <= e)%Z -> rndl (bpow radix2 e) = bpow radix2 e.
Proof.
  intros He. apply round_generic; auto with typeclass_instances.
  apply generic_format_bpow. unfold SpecFloat.fexp, SpecFloat.emin. lia.
Qed.
Lemma rndl_opp x : rndl (- x) = - rndl x.
Proof. apply round_NE_opp. Qed.
Lemma rndl_abs_le x b : rndl b = b -> Rabs x <= b -> Rabs (rndl x) <= b.
Proof.
  intros Hb Hx. apply Rabs_le_inv in Hx. apply Rabs_le.
  assert (Hb' : rndl (- b) = - b) by (rewrite rndl_opp, Hb; reflexivity).
  apply (rndl_between (- b) x b Hb' Hb Hx).
Qed.

(** numbers far from overflow *)
Definition big80 : R := bpow radix2 16000.
Lemma no_overflow80 x : Rabs x <= big80 -> Rlt_bool (Rabs (rndl x)) (bpow radix2 16384) = true.
Proof.
  intros Hx. apply Rlt_bool_true. eapply Rle_lt_trans; [apply (rndl_abs_le _ big80)|apply bpow_lt; lia].
  - apply bpow80_format. lia.
  - exact Hx.
Qed.

Lemma rndl_err x : Rabs (rndl x - x) <= u80 * Rabs x + eta80.
Proof.
  destruct (error_N_FLT radix2 (-16445) 64 ltac:(lia) (fun z => negb (Z.even z)) x) as (e & t & He & Ht & _ & Hr).
  change (SpecFloat.fexp 64 16384) with (FLT_exp (-16445) 64). rewrite Hr.
  replace (x * (1 + e) + t - x) with (x * e + t) by ring.
  eapply Rle_trans; [apply Rabs_triang|]. rewrite Rabs_mult.
  assert (Hu : / 2 * bpow radix2 (-64 + 1) = u80).
  { unfold u80. rewrite bpow_plus. change (bpow radix2 1) with 2. field. }
  change (Rabs e <= / 2 * bpow radix2 (-64 + 1)) in He. rewrite Hu in He. pose proof (Rabs_pos x). pose proof eta80_pos. unfold eta80 in *.
  assert (Rabs x * Rabs e <= u80 * Rabs x) by (rewrite Rmult_comm; apply Rmult_le_compat_r; auto). lra.
Qed.

Lemma rndl_plus_err (x y : f80) : Rabs (rndl (B2R x + B2R y) - (B2R x + B2R y)) <= u80 * Rabs (B2R x + B2R y).
Proof.
  destruct (FLT_plus_error_N_ex radix2 (-16445) 64 (fun z => negb (Z.even z)) (B2R x) (B2R y)) as (e & He & Hr).
  { apply (generic_format_B2R 64 16384 x). } { apply (generic_format_B2R 64 16384 y). }
  change (SpecFloat.fexp 64 16384) with (FLT_exp (-16445) 64). rewrite Hr.
  replace ((B2R x + B2R y) * (1 + e) - (B2R x + B2R y)) with (e * (B2R x + B2R y)) by ring.
  rewrite Rabs_mult. apply Rmult_le_compat_r; [apply Rabs_pos|].
  eapply Rle_trans; [exact He|].
  assert (Hu : u_ro radix2 64 = u80).
  { unfold u_ro, u80. rewrite bpow_plus. change (bpow radix2 1) with 2. simpl Z.opp. field. }
  rewrite Hu. pose proof u80_pos. apply Rle_trans with (u80 / 1); [|lra].
  apply Rmult_le_compat_l; [lra|]. apply Rinv_le; lra.
Qed.

Lemma plus80 (x y : f80) : is_finite x = true -> is_finite y = true ->
  Rabs (B2R x + B2R y) <= big80 ->
  is_finite (Bplus mode_NE x y) = true /\ B2R (Bplus mode_NE x y) = rndl (B2R x + B2R y) /\
  Rabs (B2R (Bplus mode_NE x y) - (B2R x + B2R y)) <= u80 * Rabs (B2R x + B2R y).
Proof.
  intros Fx Fy Hb. pose proof (Bplus_correct 64 16384 prec80_ok emax80_ok mode_NE x y Fx Fy) as H.
  cbn [round_mode] in H. rewrite no_overflow80 in H by exact Hb. destruct H as (H1 & H2 & _).
  rewrite H1. split; [exact H2|]. split; [reflexivity|apply rndl_plus_err].
Qed.
Lemma minus80 (x y : f80) : is_finite x = true -> is_finite y = true ->
  Rabs (B2R x - B2R y) <= big80 ->
  is_finite (Bminus mode_NE x y) = true /\
  Rabs (B2R (Bminus mode_NE x y) - (B2R x - B2R y)) <= u80 * Rabs (B2R x - B2R y).
Proof.
  intros Fx Fy Hb. pose proof (Bminus_correct 64 16384 prec80_ok emax80_ok mode_NE x y Fx Fy) as H.
  cbn [round_mode] in H. rewrite no_overflow80 in H by exact Hb. destruct H as (H1 & H2 & _).
  rewrite H1. split; [exact H2|]. pose proof (rndl_plus_err x (Bopp y)) as H. rewrite B2R_Bopp in H. exact H.
Qed.
Lemma mult80 (x y : f80) : is_finite x = true -> is_finite y = true ->
  Rabs (B2R x * B2R y) <= big80 ->
  is_finite (Bmult mode_NE x y) = true /\
  Rabs (B2R (Bmult mode_NE x y) - B2R x * B2R y) <= u80 * Rabs (B2R x * B2R y) + eta80.
Proof.
  intros Fx Fy Hb. pose proof (Bmult_correct 64 16384 prec80_ok emax80_ok mode_NE x y) as H.
  cbn [round_mode] in H. rewrite no_overflow80 in H by exact Hb. destruct H as (H1 & H2 & _).
  rewrite H1, H2, Fx, Fy. split; [reflexivity|apply rndl_err].
Qed.
Lemma div80 (x y : f80) : is_finite x = true -> B2R y <> 0 ->
  Rabs (B2R x / B2R y) <= big80 ->
  is_finite (Bdiv mode_NE x y) = true /\ B2R (Bdiv mode_NE x y) = rndl (B2R x / B2R y) /\
  Rabs (B2R (Bdiv mode_NE x y) - B2R x / B2R y) <= u80 * Rabs (B2R x / B2R y) + eta80.
Proof.
  intros Fx Hy Hb. pose proof (Bdiv_correct 64 16384 prec80_ok emax80_ok mode_NE x y Hy) as H.
  cbn [round_mode] in H. rewrite no_overflow80 in H by exact Hb. destruct H as (H1 & H2 & _).
  rewrite H1, H2, Fx. split; [reflexivity|]. split; [reflexivity|apply rndl_err].
Qed.

(** multiplication by a positive power of two is exact *)
Lemma ldexp80 (x : f80) e : is_finite x = true -> (0 <= e)%Z -> Rabs (B2R x * bpow radix2 e) <= big80 ->
  is_finite (Bldexp mode_NE x e) = true /\ B2R (Bldexp mode_NE x e) = B2R x * bpow radix2 e.
Proof.
  intros Fx He Hb. pose proof (Bldexp_correct 64 16384 prec80_ok emax80_ok mode_NE x e) as H.
  cbn [round_mode] in H. rewrite no_overflow80 in H by exact Hb. destruct H as (H1 & H2 & _).
  rewrite H1, H2. split; [exact Fx|].
  apply round_generic; auto with typeclass_instances.
  pose proof (generic_format_B2R 64 16384 x) as HF.
  change (SpecFloat.fexp 64 16384) with (FLT_exp (-16445) 64) in *.
  apply FLT_format_generic in HF; [|reflexivity]. destruct HF as [[m ex] H3 H4 H5]. cbn [Fnum Fexp] in *.
  apply generic_format_FLT. exists (Float radix2 m (ex + e)); cbn [Fnum Fexp]; [|exact H4|lia].
  rewrite H3. unfold F2R. cbn [Fnum Fexp]. rewrite bpow_plus. ring.
Qed.

(** ** Conversions *)
Lemma ofZ80 z : (0 <= z < 2 ^ 64)%Z -> is_finite (f80_of_Z z) = true /\ B2R (f80_of_Z z) = IZR z.
Proof.
  intros Hz. pose proof (binary_normalize_correct 64 16384 prec80_ok emax80_ok mode_NE z 0 false) as H.
  cbv zeta in H. cbn [round_mode] in H.
  replace (F2R (Float radix2 z 0)) with (IZR z) in H by (unfold F2R; simpl; ring).
  rewrite rndl_int in H by lia. rewrite Rlt_bool_true in H.
  - unfold f80_of_Z. tauto.
  - rewrite Rabs_pos_eq by (apply IZR_le; lia).
    eapply Rle_lt_trans; [apply IZR_le, Z.lt_le_incl, (proj2 Hz)|].
    change (IZR (2 ^ 64)) with (IZR (Zpower radix2 64)). rewrite IZR_Zpower by lia. apply bpow_lt. lia.
Qed.

Lemma widen_ok (x : f64) : is_finite x = true -> is_finite (f80_of_f64 x) = true /\ B2R (f80_of_f64 x) = B2R x.
Proof.
  destruct x as [s|s| |s m e Hb]; intros Fx; try discriminate; [split; reflexivity|].
  cbn [f80_of_f64].
  pose proof (binary_normalize_correct 64 16384 prec80_ok emax80_ok mode_NE (cond_Zopp s (Zpos m)) e s) as H.
  cbv zeta in H. cbn [round_mode] in H.
  set (x := B754_finite s m e Hb : f64).
  change (F2R (Float radix2 (cond_Zopp s (Z.pos m)) e)) with (B2R x) in H.
  assert (HR : rndl (B2R x) = B2R x).
  { apply round_generic; auto with typeclass_instances.
    pose proof (generic_format_B2R 53 1024 x) as HF.
    change (SpecFloat.fexp 64 16384) with (FLT_exp (-16445) 64).
    change (SpecFloat.fexp 53 1024) with (FLT_exp (-1074) 53) in HF.
    apply FLT_format_generic in HF; [|reflexivity]. destruct HF as [f H3 H4 H5].
    apply generic_format_FLT. exists f; [exact H3| |lia].
    eapply Z.lt_trans; [exact H4|]. reflexivity. }
  rewrite HR in H. rewrite Rlt_bool_true in H; [tauto|].
  eapply Rlt_trans; [apply (abs_B2R_lt_emax 53 1024 x)|]. apply bpow_lt. lia.
Qed.

Lemma narrow_ok (x : f80) : is_finite x = true -> Rabs (B2R x) <= bpow radix2 60 ->
  is_finite (f64_of_f80 x) = true /\ Rabs (B2R (f64_of_f80 x) - B2R x) <= u64 * Rabs (B2R x) + eta64.
Proof.
  destruct x as [s|s| |s m e Hb]; intros Fx Hx; try discriminate.
  - split; [reflexivity|]. simpl. rewrite Rminus_0_r, Rabs_R0. pose proof eta64_pos. lra.
  - cbn [f64_of_f80].
    pose proof (binary_normalize_correct 53 1024 prec_ok emax_ok mode_NE (cond_Zopp s (Zpos m)) e s) as H.
    cbv zeta in H. cbn [round_mode] in H.
    set (x := B754_finite s m e Hb : f80) in *.
    change (F2R (Float radix2 (cond_Zopp s (Z.pos m)) e)) with (B2R x) in H.
    rewrite no_overflow60 in H by exact Hx. destruct H as (H1 & H2 & _). rewrite H1.
    split; [exact H2|apply rnd_err].
Qed.
