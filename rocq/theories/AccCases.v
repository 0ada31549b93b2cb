(** * AccCases: a C library meeting [libm_accurate], and a concrete boundary. *)
From Coquelicot Require Import Coquelicot.
From Flocq Require Import Core.Core IEEE754.BinarySingleNaN Relative.
From Coq Require Import ZArith Reals List Bool Lia Lra String Factorial.
From Verif Require Import Base Num RSum Dft Ecdf2 ExactEnv Binary64 Binary64Facts Binary64Cases Spec XFft XEcdf2Main ErrBound B64Round AccPmf FftMath AccProd AccFft.
Import List. Import ListNotations.
Local Open Scope R_scope.

(** the binary64 number nearest to a real number *)
Definition of_R (x : R) : f64 :=
  binary_normalize 53 1024 prec_ok emax_ok mode_NE
    (Ztrunc (scaled_mantissa radix2 (SpecFloat.fexp 53 1024) (rnd x))) (cexp radix2 (SpecFloat.fexp 53 1024) (rnd x)) false.

Lemma of_R_ok x : Rabs x <= bpow radix2 60 -> is_finite (of_R x) = true /\ B2R (of_R x) = rnd x.
Proof.
  intros Hx. unfold of_R. set (r := rnd x).
  assert (Hr : F2R (Float radix2 (Ztrunc (scaled_mantissa radix2 (SpecFloat.fexp 53 1024) r)) (cexp radix2 (SpecFloat.fexp 53 1024) r)) = r).
  { symmetry. apply (generic_format_round radix2 (SpecFloat.fexp 53 1024) ZnearestE x). }
  pose proof (binary_normalize_correct 53 1024 prec_ok emax_ok mode_NE
    (Ztrunc (scaled_mantissa radix2 (SpecFloat.fexp 53 1024) r)) (cexp radix2 (SpecFloat.fexp 53 1024) r) false) as H.
  cbv zeta in H. rewrite Hr in H. cbn [round_mode] in H.
  assert (Hrr : rnd r = r).
  { apply round_generic; auto with typeclass_instances. apply generic_format_round; auto with typeclass_instances. }
  rewrite Hrr in H. pose proof (no_overflow60 x Hx) as HO. fold r in HO. rewrite HO in H. tauto.
Qed.

(** a library whose functions are correctly rounded *)
Definition cr_libm : libm := mkLibm (fun x => of_R (exp (B2R x))) (fun x => of_R (ln (B2R x)))
  (fun k => of_R (ln (INR (fact (Z.to_nat (k - 1)))))) (fun x _ => x) (fun _ => 0%Z) (fun _ => (B754_nan, false)).

Lemma rnd_rel x : x = 0 \/ bpow radix2 (-54) <= Rabs x -> Rabs (rnd x - x) <= u64 * Rabs x.
Proof.
  intros [->|Hx].
  - rewrite rnd_0, Rminus_diag_eq, Rabs_R0 by reflexivity. lra.
  - pose proof (relative_error_N_FLT radix2 (-1074) 53 ltac:(lia) (fun z => negb (Z.even z)) x) as H.
    change (SpecFloat.fexp 53 1024) with (FLT_exp (-1074) 53). eapply Rle_trans; [apply H|].
    + eapply Rle_trans; [|exact Hx]. apply bpow_le. lia.
    + apply Rmult_le_compat_r; [apply Rabs_pos|]. apply Req_le.
      unfold u64. rewrite bpow_plus. change (bpow radix2 1) with 2. simpl Z.opp. field.
Qed.

(** no binary64 number is very close to 1 without being 1 *)
Lemma gap_at_1 (x : f64) : 0 < B2R x -> B2R x <> 1 -> bpow radix2 (-53) <= Rabs (B2R x - 1).
Proof.
  intros H0 H1.
  destruct (Rlt_or_le (B2R x) (/ 2)) as [Hlo|Hlo].
  { rewrite Rabs_minus_sym, Rabs_pos_eq by lra. apply Rle_trans with (bpow radix2 (-1)); [apply bpow_le; lia|].
    change (bpow radix2 (-1)) with (/ 2). lra. }
  pose proof (generic_format_B2R 53 1024 x) as HF. unfold generic_format in HF.
  set (m := Ztrunc (scaled_mantissa radix2 (SpecFloat.fexp 53 1024) (B2R x))) in *.
  set (e := cexp radix2 (SpecFloat.fexp 53 1024) (B2R x)) in *.
  assert (He : (-53 <= e)%Z).
  { unfold e, cexp. assert (0 <= mag radix2 (B2R x))%Z.
    { apply mag_ge_bpow. rewrite Rabs_pos_eq by lra. change (bpow radix2 (0 - 1)) with (/ 2). exact Hlo. }
    unfold SpecFloat.fexp, SpecFloat.emin. lia. }
  (* x - 1 is a multiple of 2^-53 *)
  assert (HM : exists k : Z, B2R x - 1 = IZR k * bpow radix2 (-53)).
  { exists (m * 2 ^ (e + 53) - 2 ^ 53)%Z. rewrite minus_IZR, mult_IZR.
    change (IZR (2 ^ 53)) with (IZR (Zpower radix2 53)).
    change (IZR (2 ^ (e + 53))) with (IZR (Zpower radix2 (e + 53))). rewrite !IZR_Zpower by lia.
    rewrite Rmult_minus_distr_r, Rmult_assoc, <- !bpow_plus.
    replace (e + 53 + -53)%Z with e by lia. change (bpow radix2 (53 + -53)) with 1.
    unfold F2R in HF. cbn [Fnum Fexp] in HF. rewrite HF at 1. reflexivity. }
  destruct HM as [k Hk]. rewrite Hk, Rabs_mult, (Rabs_pos_eq (bpow radix2 (-53))) by apply bpow_ge_0.
  rewrite <- (Rmult_1_l (bpow radix2 (-53))) at 1. apply Rmult_le_compat_r; [apply bpow_ge_0|].
  rewrite <- abs_IZR. apply IZR_le. assert (k <> 0)%Z; [|lia].
  intros ->. rewrite Rmult_0_l in Hk. lra.
Qed.

Lemma ln_gap (x : f64) : 0 < B2R x -> ln (B2R x) = 0 \/ bpow radix2 (-54) <= Rabs (ln (B2R x)).
Proof.
  intros H0. destruct (Req_dec (B2R x) 1) as [->|H1]; [left; apply ln_1|right].
  pose proof (gap_at_1 x H0 H1) as HG. set (y := B2R x) in *.
  assert (Hb : bpow radix2 (-54) = bpow radix2 (-53) / 2).
  { change (-54)%Z with (-53 + -1)%Z. rewrite bpow_plus. reflexivity. }
  pose proof (bpow_gt_0 radix2 (-53)) as Hb0.
  assert (Hbu : bpow radix2 (-53) <= / 2) by (change (/ 2) with (bpow radix2 (-1)); apply bpow_le; lia).
  assert (HU : forall z, 0 < z -> ln z <= z - 1).
  { intros z Hz. pose proof (exp_ineq1_le (ln z)) as H. rewrite exp_ln in H by exact Hz. lra. }
  destruct (Rlt_or_le y 1) as [Hy|Hy].
  - rewrite Rabs_minus_sym, Rabs_pos_eq in HG by lra. specialize (HU y H0).
    rewrite Rabs_left1 by lra. lra.
  - rewrite Rabs_pos_eq in HG by lra. destruct (Rle_or_lt 2 y) as [H2|H2].
    + pose proof ln_lt_2 as Hl. assert (ln 2 <= ln y) by (apply ln_le; lra). rewrite Rabs_pos_eq by lra. lra.
    + specialize (HU (/ y) ltac:(apply Rinv_0_lt_compat; lra)). rewrite ln_Rinv in HU by lra.
      assert (HI : / y * y = 1) by (field; lra).
      assert (Hly : (y - 1) / 2 <= ln y).
      { apply Rle_trans with (1 - / y); [|lra].
        apply (Rmult_le_reg_r y); [lra|]. rewrite Rmult_minus_distr_r, HI. nra. }
      rewrite Rabs_pos_eq by lra. lra.
Qed.

Lemma cr_accurate : libm_accurate cr_libm u64.
Proof.
  constructor; cbn [lm_log lm_lgamma lm_exp cr_libm].
  - intros x Fx Hx. destruct (of_R_ok (ln (B2R x))) as [F V].
    + assert (HB : Rabs (ln (B2R x)) <= 1100).
      { pose proof (abs_B2R_lt_emax 53 1024 x) as Hmax. rewrite Rabs_pos_eq in Hmax by lra.
        pose proof ln_2_bounds as H2. pose proof ln_lt_2 as H3.
        assert (Hlo : bpow radix2 (-1074) <= B2R x).
        { assert (HF : is_finite_strict x = true) by (destruct x as [s|s| |s m e Hb]; simpl in Hx; try lra; reflexivity).
          pose proof (abs_B2R_ge_emin 53 1024 x HF) as H. rewrite Rabs_pos_eq in H by lra. exact H. }
        apply ln_le in Hlo; [|apply bpow_gt_0]. rewrite ln_bpow_f in Hlo.
        apply ln_increasing in Hmax; [|exact Hx]. rewrite ln_bpow_f in Hmax. apply Rabs_le. lra. }
      eapply Rle_trans; [exact HB|]. change 1100 with (IZR 1100). apply Rle_trans with (bpow radix2 20); [simpl; lra|apply bpow_le; lia].
    + split; [exact F|]. rewrite V. apply rnd_rel, ln_gap, Hx.
  - intros k Hk. set (m := Z.to_nat (k - 1)).
    assert (Hm : INR m <= bpow radix2 31).
    { rewrite INR_IZR_INZ. unfold m. rewrite Z2Nat.id by lia. rewrite <- IZR_Zpower by lia. apply IZR_le. simpl Zpower. lia. }
    destruct (ln_fact_bounds m (bpow radix2 31) Hm) as [H0 H1].
    { split; [change 1 with (bpow radix2 0); apply bpow_le; lia|lra]. }
    destruct (of_R_ok (ln (INR (fact m)))) as [F V].
    + rewrite Rabs_pos_eq by exact H0. eapply Rle_trans; [exact H1|].
      apply Rle_trans with (bpow radix2 5 * bpow radix2 31); [apply Rmult_le_compat_r; [apply bpow_ge_0|simpl; lra]|].
      rewrite <- bpow_plus. apply bpow_le. lia.
    + split; [exact F|]. rewrite V. rewrite <- (Rabs_pos_eq (ln (INR (fact m)))) at 3 by exact H0.
      apply rnd_rel. destruct (Nat.leb_spec m 1) as [Hs|Hs].
      * left. replace (fact m) with 1%nat; [simpl; apply ln_1|]. destruct m as [|[|]]; [reflexivity|reflexivity|lia].
      * right. rewrite Rabs_pos_eq by exact H0.
        apply Rle_trans with (bpow radix2 (-1)); [apply bpow_le; lia|].
        apply Rle_trans with (ln 2); [pose proof ln_lt_2; simpl; lra|]. apply ln_le; [lra|].
        change 2 with (INR 2). apply le_INR. change 2%nat with (fact 2). apply fact_le. lia.
  - intros x Fx Hx. assert (He : 0 < exp (B2R x) <= 3).
    { split; [apply exp_pos|]. apply Rle_trans with (exp 1).
      - destruct (Rle_lt_or_eq_dec _ _ Hx) as [H|H]; [apply Rlt_le, exp_increasing, H|rewrite H; lra].
      - apply exp_le_3. }
    destruct (of_R_ok (exp (B2R x))) as [F V].
    + rewrite Rabs_pos_eq by lra. apply Rle_trans with (bpow radix2 2); [simpl; lra|apply bpow_le; lia].
    + split; [exact F|]. rewrite V. rewrite <- (Rabs_pos_eq (exp (B2R x))) at 3 by lra. apply rnd_err.
Qed.

(** ** Correctly rounded transforms *)
Definition cr_r2c (x : list f64) : list (f64 * f64) :=
  map (fun k => (of_R (dft_re (List.length x) (val x) k), of_R (dft_im (List.length x) (val x) k)))
      (seq 0 (List.length x / 2 + 1)).
Definition cr_c2r (n : nat) (z : list (f64 * f64)) : list f64 :=
  map (fun j => of_R (idft n (val_re z) (val_im z) j)) (seq 0 n).
Definition cr_env (a : bool) : env (Bnum cr_libm) :=
  mkEnv (Bnum cr_libm) a (fun _ _ => B754_nan) isort cr_r2c cr_c2r (fun _ => EmptyString) (@mkLD (Bnum cr_libm) (Bnum cr_libm) (fun x => x) (fun x => x)).
Lemma cr_sort a : sort_ok (cr_env a).
Proof. apply isort_ok. reflexivity. Qed.

Lemma of_R_near x M : Rabs x <= M -> M <= 2048 -> fabs (of_R x) x (u64 * M + bpow radix2 (-1000)).
Proof.
  intros Hx HM. destruct (of_R_ok x) as [F V].
  { apply Rle_trans with (bpow radix2 11); [change (bpow radix2 11) with 2048; lra|apply bpow_le; lia]. }
  split; [exact F|]. rewrite V. eapply Rle_trans; [apply rnd_err|].
  pose proof u64_pos. apply Rplus_le_compat; [apply Rmult_le_compat_l; lra|]. unfold eta64. apply bpow_le. lia.
Qed.

Lemma cr_fft_accurate a : fft_accurate (cr_env a) u64.
Proof.
  split.
  - intros h x Hh Hl _ HS z.
    assert (Hd : (List.length x / 2 + 1 = S h)%nat).
    { rewrite Hl, Nat.mul_comm, Nat.div_mul by lia. lia. }
    split; [unfold z; simpl; unfold cr_r2c; rewrite map_length, seq_length; exact Hd|].
    intros k Hk. unfold z. simpl fft_r2c. unfold cr_r2c. rewrite Hd.
    change (car (Bnum cr_libm)) with f64 in *.
    rewrite nth_map_seq by lia. cbn [fst snd]. rewrite Hl.
    split; (apply of_R_near; [|lra]); [apply dft_re_abs|apply dft_im_abs].
  - intros h z Hh Hl _ HS y. split; [unfold y; simpl fft_c2r; unfold cr_c2r; rewrite map_length, seq_length; reflexivity|].
    intros j Hj. unfold y. simpl fft_c2r. unfold cr_c2r. rewrite nth_map_seq by exact Hj.
    apply of_R_near; [|lra]. apply idft_abs. exact Hh.
Qed.

(** 200 points between the constant boundaries 0.1 and 1: long enough for the FFT to be used *)
Definition case200_b : list f64 := repeat f_tenth 200.
Definition case200_B : list f64 := repeat f_one 200.
Lemma repeat_accepted (v : f64) k : is_finite v = true -> 0 <= B2R v <= 1 -> accepted64 (repeat v k).
Proof.
  intros Fv Hv. assert (HR : forall P : f64 -> Prop, P v -> Forall P (repeat v k)).
  { intros P HP. apply Forall_forall. intros x Hx. apply repeat_spec in Hx. subst. exact HP. }
  split; [apply HR, Fv|]. split.
  - clear HR. induction k as [|k IH]; simpl; [constructor|]. constructor; [exact IH|].
    destruct k as [|k]; simpl; constructor. lra.
  - apply Forall_map. apply HR. exact Hv.
Qed.
Lemma case200_ok : accepted64 case200_b /\ accepted64 case200_B /\ List.length case200_b = 200%nat /\
  List.length case200_B = 200%nat /\
  forall i, (S i < List.length case200_b)%nat -> nth i (map B2R case200_b) 0 <= nth (S i) (map B2R case200_B) 0.
Proof.
  pose proof v_tenth. pose proof v_one.
  split; [apply repeat_accepted; [reflexivity|lra]|]. split; [apply repeat_accepted; [reflexivity|lra]|].
  split; [apply repeat_length|]. split; [apply repeat_length|].
  intros i Hi. unfold case200_b, case200_B in *. rewrite repeat_length in Hi.
  assert (HR : forall (v : f64) j, (j < 200)%nat -> nth j (map B2R (repeat v 200)) 0 = B2R v).
  { intros v j Hj. rewrite (nth_indep _ 0 (B2R v)) by (rewrite map_length, repeat_length; exact Hj).
    rewrite map_nth. f_equal. apply nth_repeat. }
  rewrite !HR by lia. lra.
Qed.
