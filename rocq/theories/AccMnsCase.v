(** * AccMnsCase: a C library meeting [libml_accurate] and [libml_special]. *)
From Coquelicot Require Import Coquelicot.
From Flocq Require Import Core.Core IEEE754.BinarySingleNaN Relative.
From Coq Require Import ZArith Reals List Bool Lia Lra String Factorial.
From Verif Require Import Base Num RSum Binary64 Binary64Facts Binary64Cases B64Round AccPmf AccCases LongDouble LdRound AccMnsEval AccMnsTail AccMns.
Import List. Import ListNotations.
Local Open Scope R_scope.

(** the long double nearest to a real number *)
Definition of_R80 (x : R) : f80 :=
  binary_normalize 64 16384 prec80_ok emax80_ok mode_NE
    (Ztrunc (scaled_mantissa radix2 (SpecFloat.fexp 64 16384) (rndl x))) (cexp radix2 (SpecFloat.fexp 64 16384) (rndl x)) false.
Lemma of_R80_ok x : Rabs x <= big80 -> is_finite (of_R80 x) = true /\ B2R (of_R80 x) = rndl x.
Proof.
  intros Hx. unfold of_R80. set (r := rndl x).
  assert (Hr : F2R (Float radix2 (Ztrunc (scaled_mantissa radix2 (SpecFloat.fexp 64 16384) r)) (cexp radix2 (SpecFloat.fexp 64 16384) r)) = r).
  { symmetry. apply (generic_format_round radix2 (SpecFloat.fexp 64 16384) ZnearestE x). }
  pose proof (binary_normalize_correct 64 16384 prec80_ok emax80_ok mode_NE
    (Ztrunc (scaled_mantissa radix2 (SpecFloat.fexp 64 16384) r)) (cexp radix2 (SpecFloat.fexp 64 16384) r) false) as H.
  cbv zeta in H. rewrite Hr in H. cbn [round_mode] in H.
  assert (Hrr : rndl r = r).
  { apply round_generic; auto with typeclass_instances. apply generic_format_round; auto with typeclass_instances. }
  rewrite Hrr in H. pose proof (no_overflow80 x Hx) as HO. fold r in HO. rewrite HO in H. tauto.
Qed.

(** x^i for 0 <= x, correctly rounded, by exact integer arithmetic *)
Definition pow_cr (x : f80) (i : Z) : f80 :=
  match x with
  | B754_zero s => if Z.eqb i 0 then f80_of_Z 1 else B754_zero (andb s (Z.odd i))
  | B754_finite false m e _ => binary_normalize 64 16384 prec80_ok emax80_ok mode_NE (Z.pow (Zpos m) i) (e * i) false
  | _ => B754_nan
  end.
Definition cr_libml : libml := mkLibml
  (fun x => match x with B754_nan => B754_nan | B754_infinity true => B754_zero false | _ => of_R80 (exp (B2R x)) end)
  (fun x => match x with
            | B754_zero _ => B754_infinity true
            | B754_finite false _ _ _ => of_R80 (ln (B2R x))
            | _ => B754_nan end)
  (fun k => of_R80 (ln (INR (fact (Z.to_nat (k - 1))))))
  pow_cr (fun _ => 0%Z).

Lemma rndl_rel x : x = 0 \/ bpow radix2 (-65) <= Rabs x -> Rabs (rndl x - x) <= u80 * Rabs x.
Proof.
  intros [->|Hx].
  - rewrite rndl_0, Rminus_diag_eq, Rabs_R0 by reflexivity. lra.
  - pose proof (relative_error_N_FLT radix2 (-16445) 64 ltac:(lia) (fun z => negb (Z.even z)) x) as H.
    change (SpecFloat.fexp 64 16384) with (FLT_exp (-16445) 64). eapply Rle_trans; [apply H|].
    + eapply Rle_trans; [|exact Hx]. apply bpow_le. lia.
    + apply Rmult_le_compat_r; [apply Rabs_pos|]. apply Req_le.
      unfold u80. rewrite bpow_plus. change (bpow radix2 1) with 2. simpl Z.opp. field.
Qed.

Lemma gap80_at_1 (x : f80) : 0 < B2R x -> B2R x <> 1 -> bpow radix2 (-64) <= Rabs (B2R x - 1).
Proof.
  intros H0 H1.
  destruct (Rlt_or_le (B2R x) (/ 2)) as [Hlo|Hlo].
  { rewrite Rabs_minus_sym, Rabs_pos_eq by lra. apply Rle_trans with (bpow radix2 (-1)); [apply bpow_le; lia|].
    change (bpow radix2 (-1)) with (/ 2). lra. }
  pose proof (generic_format_B2R 64 16384 x) as HF. unfold generic_format in HF.
  set (m := Ztrunc (scaled_mantissa radix2 (SpecFloat.fexp 64 16384) (B2R x))) in *.
  set (e := cexp radix2 (SpecFloat.fexp 64 16384) (B2R x)) in *.
  assert (He : (-64 <= e)%Z).
  { unfold e, cexp. assert (0 <= mag radix2 (B2R x))%Z.
    { apply mag_ge_bpow. rewrite Rabs_pos_eq by lra. change (bpow radix2 (0 - 1)) with (/ 2). exact Hlo. }
    unfold SpecFloat.fexp, SpecFloat.emin. lia. }
  assert (HM : exists k : Z, B2R x - 1 = IZR k * bpow radix2 (-64)).
  { exists (m * 2 ^ (e + 64) - 2 ^ 64)%Z. rewrite minus_IZR, mult_IZR.
    change (IZR (2 ^ 64)) with (IZR (Zpower radix2 64)).
    change (IZR (2 ^ (e + 64))) with (IZR (Zpower radix2 (e + 64))). rewrite !IZR_Zpower by lia.
    rewrite Rmult_minus_distr_r, Rmult_assoc, <- !bpow_plus.
    replace (e + 64 + -64)%Z with e by lia. change (bpow radix2 (64 + -64)) with 1.
    unfold F2R in HF. cbn [Fnum Fexp] in HF. rewrite HF at 1. reflexivity. }
  destruct HM as [k Hk]. rewrite Hk, Rabs_mult, (Rabs_pos_eq (bpow radix2 (-64))) by apply bpow_ge_0.
  rewrite <- (Rmult_1_l (bpow radix2 (-64))) at 1. apply Rmult_le_compat_r; [apply bpow_ge_0|].
  rewrite <- abs_IZR. apply IZR_le. assert (k <> 0)%Z; [|lia].
  intros ->. rewrite Rmult_0_l in Hk. lra.
Qed.

Lemma ln_gap80 (x : f80) : 0 < B2R x -> ln (B2R x) = 0 \/ bpow radix2 (-65) <= Rabs (ln (B2R x)).
Proof.
  intros H0. destruct (Req_dec (B2R x) 1) as [->|H1]; [left; apply ln_1|right].
  pose proof (gap80_at_1 x H0 H1) as HG. set (y := B2R x) in *.
  assert (Hb : bpow radix2 (-65) = bpow radix2 (-64) / 2).
  { change (-65)%Z with (-64 + -1)%Z. rewrite bpow_plus. reflexivity. }
  pose proof (bpow_gt_0 radix2 (-64)) as Hb0.
  assert (Hbu : bpow radix2 (-64) <= / 2) by (change (/ 2) with (bpow radix2 (-1)); apply bpow_le; lia).
  pose proof ln_le_m as HU.
  destruct (Rlt_or_le y 1) as [Hy|Hy].
  - rewrite Rabs_minus_sym, Rabs_pos_eq in HG by lra. specialize (HU y H0).
    rewrite Rabs_left1 by lra. lra.
  - rewrite Rabs_pos_eq in HG by lra. destruct (Rle_or_lt 2 y) as [H2|H2].
    + pose proof ln_lt_2 as Hl. assert (ln 2 <= ln y) by (apply ln_le; lra). rewrite Rabs_pos_eq by lra. lra.
    + specialize (HU (/ y) ltac:(apply Rinv_0_lt_compat; lra)). rewrite ln_Rinv in HU by lra.
      assert (HI : / y * y = 1) by (field; lra).
      assert (Hly : (y - 1) / 2 <= ln y).
      { apply Rle_trans with (1 - / y); [|lra].
        apply (Rmult_le_reg_r y); [lra|]. rewrite Rmult_minus_distr_r, HI. nra. }
      rewrite Rabs_pos_eq by lra. lra.
Qed.

Lemma pow_cr_ok (x : f80) (i : Z) : is_finite x = true -> 0 <= B2R x <= 1 -> (0 <= i)%Z ->
  is_finite (pow_cr x i) = true /\ B2R (pow_cr x i) = rndl (B2R x ^ Z.to_nat i).
Proof.
  intros Fx Hx Hi. destruct x as [s|s| |s m e Hb]; try discriminate.
  - cbn [pow_cr]. destruct (Z.eqb_spec i 0) as [->|Hne].
    + destruct (ofZ80 1) as [F V]; [lia|]. rewrite V. simpl pow. rewrite rndl_1. auto.
    + split; [reflexivity|]. simpl B2R. rewrite pow_i by lia. rewrite rndl_0. reflexivity.
  - destruct s; [simpl in Hx; pose proof (F2R_lt_0 radix2 (Float radix2 (Zneg m) e) ltac:(reflexivity)); lra|].
    cbn [pow_cr].
    pose proof (binary_normalize_correct 64 16384 prec80_ok emax80_ok mode_NE (Z.pos m ^ i) (e * i) false) as H.
    cbv zeta in H. cbn [round_mode] in H.
    assert (HR : F2R (Float radix2 (Z.pos m ^ i) (e * i)) = B2R (B754_finite false m e Hb : f80) ^ Z.to_nat i).
    { simpl B2R. unfold F2R. cbn [Fnum Fexp]. rewrite Rpow_mult_distr.
      rewrite <- (Z2Nat.id i) at 1 2 by lia. rewrite <- pow_IZR. f_equal.
      generalize (Z.to_nat i). clear. induction n as [|n IH]; [rewrite Z.mul_0_r; reflexivity|].
      rewrite Nat2Z.inj_succ, Z.mul_succ_r, bpow_plus, IH. simpl. ring. }
    rewrite HR in H. rewrite no_overflow80 in H.
    + tauto.
    + set (y := B2R _) in *. rewrite Rabs_pos_eq by (apply pow_le; lra).
      apply Rle_trans with 1; [rewrite <- (pow1 (Z.to_nat i)); apply pow_incr; lra|]. unfold big80. change 1 with (bpow radix2 0). apply bpow_le. lia.
Qed.

Lemma big_1e6 : 1048576 <= big80.
Proof. unfold big80. change 1048576 with (bpow radix2 20). apply bpow_le. lia. Qed.

Lemma cr80_accurate : libml_accurate cr_libml u80.
Proof.
  constructor; cbn [lm_logl lm_lgammal lm_expl lm_powl cr_libml].
  - intros x i Fx Hx Hi. destruct (pow_cr_ok x i Fx Hx Hi) as [F V]. split; [exact F|]. rewrite V.
    assert (0 <= B2R x ^ Z.to_nat i) by (apply pow_le; lra).
    rewrite <- (Rabs_pos_eq (B2R x ^ Z.to_nat i)) at 3 by assumption. apply rndl_err.
  - intros x Fx Hx.
    assert (HL : (match x with B754_zero _ => B754_infinity true | B754_finite false _ _ _ => of_R80 (ln (B2R x)) | _ => B754_nan end : f80) = of_R80 (ln (B2R x))).
    { destruct x as [s|s| |s m e Hb]; try discriminate; [simpl in Hx; lra|]. destruct s; [|reflexivity].
      simpl in Hx. pose proof (F2R_lt_0 radix2 (Float radix2 (Zneg m) e) ltac:(reflexivity)). lra. }
    rewrite HL. destruct (of_R80_ok (ln (B2R x))) as [F V].
    + eapply Rle_trans; [|exact big_1e6].
      pose proof (abs_B2R_lt_emax 64 16384 x) as Hmax. rewrite Rabs_pos_eq in Hmax by lra.
      pose proof ln_2_bounds as H2. pose proof ln_lt_2 as H3.
      assert (Hlo : bpow radix2 (-16445) <= B2R x).
      { assert (HF : is_finite_strict x = true) by (destruct x as [s|s| |s m e Hb]; simpl in Hx; try lra; reflexivity).
        pose proof (abs_B2R_ge_emin 64 16384 x HF) as H. rewrite Rabs_pos_eq in H by lra. exact H. }
      apply ln_le in Hlo; [|apply bpow_gt_0]. rewrite ln_bpow_f in Hlo.
      apply ln_increasing in Hmax; [|exact Hx]. rewrite ln_bpow_f in Hmax. apply Rabs_le. lra.
    + split; [exact F|]. rewrite V. apply rndl_rel, ln_gap80, Hx.
  - intros k Hk. set (m := Z.to_nat (k - 1)).
    assert (Hm : INR m <= bpow radix2 31).
    { rewrite INR_IZR_INZ. unfold m. rewrite Z2Nat.id by lia. rewrite <- IZR_Zpower by lia. apply IZR_le. simpl Zpower. lia. }
    destruct (ln_fact_bounds m (bpow radix2 31) Hm) as [H0 H1].
    { split; [change 1 with (bpow radix2 0); apply bpow_le; lia|lra]. }
    destruct (of_R80_ok (ln (INR (fact m)))) as [F V].
    + rewrite Rabs_pos_eq by exact H0. eapply Rle_trans; [exact H1|].
      apply Rle_trans with (bpow radix2 5 * bpow radix2 31); [apply Rmult_le_compat_r; [apply bpow_ge_0|simpl; lra]|].
      rewrite <- bpow_plus. apply bpow_le. lia.
    + split; [exact F|]. rewrite V. rewrite <- (Rabs_pos_eq (ln (INR (fact m)))) at 3 by exact H0.
      apply rndl_rel. destruct (Nat.leb_spec m 1) as [Hs|Hs].
      * left. replace (fact m) with 1%nat; [simpl; apply ln_1|]. destruct m as [|[|]]; [reflexivity|reflexivity|lia].
      * right. rewrite Rabs_pos_eq by exact H0.
        apply Rle_trans with (bpow radix2 (-1)); [apply bpow_le; lia|].
        apply Rle_trans with (ln 2); [pose proof ln_lt_2; simpl; lra|]. apply ln_le; [lra|].
        change 2 with (INR 2). apply le_INR. change 2%nat with (fact 2). apply fact_le. lia.
  - intros x Fx Hx. 
    assert (HL : (match x with B754_nan => B754_nan | B754_infinity true => B754_zero false | _ => of_R80 (exp (B2R x)) end : f80) = of_R80 (exp (B2R x))).
    { destruct x as [s|s| |s m e Hb]; try discriminate; reflexivity. }
    rewrite HL. assert (He : 0 < exp (B2R x) <= 3).
    { split; [apply exp_pos|]. apply Rle_trans with (exp 1).
      - destruct (Rle_lt_or_eq_dec _ _ Hx) as [H|H]; [apply Rlt_le, exp_increasing, H|rewrite H; lra].
      - apply exp_le_3. }
    destruct (of_R80_ok (exp (B2R x))) as [F V].
    + rewrite Rabs_pos_eq by lra. pose proof big_1e6. lra.
    + split; [exact F|]. rewrite V. rewrite <- (Rabs_pos_eq (exp (B2R x))) at 3 by lra. apply rndl_err.
Qed.

Lemma cr80_special : libml_special cr_libml.
Proof.
  constructor; try reflexivity. intros x Fx Hx. destruct x as [s|s| |s m e Hb]; try discriminate; [simpl in Hx; lra|].
  destruct s; [reflexivity|]. simpl in Hx. pose proof (F2R_gt_0 radix2 (Float radix2 (Zpos m) e) ltac:(reflexivity)). lra.
Qed.

Definition cr80_env (a : bool) : env (Bnum cr_libm) :=
  mkEnv (Bnum cr_libm) a (fun _ _ => B754_nan) (sort_bounds (cr_env a)) cr_r2c cr_c2r (fun _ => EmptyString) (x87 cr_libm cr_libml).
