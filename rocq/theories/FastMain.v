(** * FastMain: accuracy of ecdf2 under -ffast-math, and a vectorising compiler as an example. *)
From Coquelicot Require Import Coquelicot.
From Flocq Require Import Core.Core IEEE754.BinarySingleNaN Relative.
From Coq Require Import ZArith Reals List Bool Lia Lra String Permutation Sorted Factorial.
From Verif Require Import Base Num RSum Spec SpecFacts Ecdf2 ExactEnv Binary64 Binary64Facts Binary64Cases ErrBound B64Round AccPmf AccCases.
From Verif Require Import Cells Events XEcdf2Main SafeEcdf2 FastNum FastMath FastInst FastFft FastFftInst FastEcdf2.
Import List. Import ListNotations.
Local Open Scope R_scope.

Lemma ecdf2_fast_gen (C : compiler) (L : libm) (eps dl : R) (E : env (Fnum C L)) (b B : list f64) (uf : bool) :
  fast_libm_accurate (cp_flush C) L eps -> bpow radix2 (-51) <= eps ->
  accepted64 b -> accepted64 B ->
  Forall (fun x : f64 => B2R x = 0 \/ bpow radix2 (-900) <= B2R x) b ->
  Forall (fun x : f64 => B2R x = 0 \/ bpow radix2 (-900) <= B2R x) B ->
  List.length b = List.length B -> (1 <= List.length b)%nat -> sort_ok E ->
  65536 * (INR (List.length b) * INR (List.length b)) * eps <= 1 ->
  0 <= dl -> 32 * (INR (List.length b) * INR (List.length b)) * dl <= 1 ->
  (uf = true -> (List.length b <= 126)%nat \/
     exists e, @fft_accurate_in (Fnum C L) (ffin C) (fval C) E e /\ 2 * bpow radix2 (-51) <= e /\ e <= / 4096 /\ 400 * e <= dl) ->
  (asserts E = true -> forall i, (S i < List.length b)%nat -> nth i (map B2R b) 0 <= nth (S i) (map B2R B) 0) ->
  exists p r, is_noncrossing_probability (map B2R b) (map B2R B) p /\
    @ecdf2 (Fnum C L) E (map lit b) (map lit B) uf = Ok r /\ is_finite (cp_sum C r) = true /\
    Rabs (B2R (cp_sum C r) - p) <= 40000 * (INR (List.length b) * INR (List.length b) * eps) * p + 21 * (INR (List.length b) * INR (List.length b) * dl) + bpow radix2 (-900).
Proof.
  intros HL He Hb HB Pb PB Hlen Hn1 Hs Hn Hdl Hdl32 Huf Hg.
  assert (HN : 1 <= INR (List.length b)) by (apply (le_INR 1); exact Hn1).
  assert (He0 : 0 < eps) by (pose proof (bpow_gt_0 radix2 (-51)); lra).
  assert (He1 : eps <= 1).
  { assert (1 <= INR (List.length b) * INR (List.length b)) by nra. nra. }
  assert (Hv : forall v : list f64, Forall (fun x : f64 => B2R x = 0 \/ bpow radix2 (-900) <= B2R x) v ->
     map (fval C) (map lit v) = map B2R v).
  { intros v Hv. rewrite map_map. apply map_ext_in. intros x Hx. rewrite Forall_forall in Hv. specialize (Hv x Hx).
    rewrite fval_lit. apply sv_normal. destruct Hv as [Hv|Hv]; [right; exact Hv|left].
    pose proof (bpow_gt_0 radix2 (-900)). rewrite Rabs_pos_eq by lra. eapply Rle_trans; [|exact Hv]. apply bpow_le. lia. }
  assert (Ha : forall v : list f64, accepted64 v -> Forall (fun x : f64 => B2R x = 0 \/ bpow radix2 (-900) <= B2R x) v ->
     @accepted_in (Fnum C L) (ffin C) (fval C) (map lit v) /\
     Forall (fun x => fraw x /\ plain (fval C x)) (map lit v)).
  { intros v [HF HV] HP. split; [split|].
    - apply Forall_map. rewrite Forall_forall in *. intros x Hx. apply ffin_lit, HF, Hx.
    - change (valid_boundary (map (fval C) (map lit v))). rewrite Hv by exact HP. exact HV.
    - assert (HP2 : Forall plain (map (fval C) (map lit v))).
      { rewrite Hv by exact HP. apply Forall_map. exact HP. }
      apply Forall_map. rewrite !Forall_map in HP2. rewrite Forall_forall in *. intros x Hx. split; [exists x; reflexivity|].
      apply HP2, Hx. }
  destruct (Ha b Hb Pb) as [Ab Rb]. destruct (Ha B HB PB) as [AB RB].
  destruct (facc (Fnum C L) E (ffin C) (fone C) fraw (fval C) fu eps feta (fast_arith C L eps HL He1)) with (b := map lit b) (B := map lit B) (dl := dl) (uf := uf)
    as (p & r & Hp & Hr & Fr & Er); auto.
  - unfold fu. apply bpow_le. lia.
  - unfold feta. apply bpow_gt_0.
  - unfold feta. apply bpow_le. lia.
  - rewrite !map_length. exact Hlen.
  - rewrite map_length. exact Hn1.
  - rewrite map_length. exact Hn.
  - rewrite map_length. exact Hdl32.
  - rewrite map_length. intros Hu. destruct (Huf Hu) as [H|(e & H1 & H2)]; [left; exact H|right].
    exists e. split; [apply fast_arith_fft|]. split; [exact H1|exact H2].
  - change (map (A := car (Fnum C L)) (fval C)) with (map (fval C)). rewrite !Hv by assumption.
    intros HE (i & Hi & Hlt). rewrite map_length in Hi. specialize (Hg HE i Hi). lra.
  - exists p, r. change (map (A := car (Fnum C L)) (fval C)) with (map (fval C)) in Hp. rewrite !Hv in Hp by assumption.
    split; [exact Hp|]. split; [exact Hr|]. split; [apply Fr|].
    rewrite map_length in Er. pose proof (sv_near (cp_flush C) (cp_sum C r)) as HS. fold (fval C r) in HS.
    assert (HB2 : bpow radix2 (-910) + bpow radix2 (-1022) <= bpow radix2 (-900)).
    { pose proof (bpow_le radix2 (-1022) (-910) ltac:(lia)). pose proof (bpow_gt_0 radix2 (-910)).
      assert (bpow radix2 (-900) = 1024 * bpow radix2 (-910)).
      { change (-900)%Z with (10 + -910)%Z. rewrite bpow_plus. reflexivity. }
      lra. }
    replace (B2R (cp_sum C r) - p) with (- (fval C r - B2R (cp_sum C r)) + (fval C r - p)) by ring.
    eapply Rle_trans; [apply Rabs_triang|]. rewrite Rabs_Ropp. change (list term) with (car (Fnum C L)) in *. lra.
Qed.

(** direct convolutions *)
Lemma ecdf2_fast (C : compiler) (L : libm) (eps : R) (E : env (Fnum C L)) (b B : list f64) (uf : bool) :
  fast_libm_accurate (cp_flush C) L eps -> bpow radix2 (-51) <= eps ->
  accepted64 b -> accepted64 B ->
  Forall (fun x : f64 => B2R x = 0 \/ bpow radix2 (-900) <= B2R x) b ->
  Forall (fun x : f64 => B2R x = 0 \/ bpow radix2 (-900) <= B2R x) B ->
  List.length b = List.length B -> (1 <= List.length b)%nat -> sort_ok E ->
  65536 * (INR (List.length b) * INR (List.length b)) * eps <= 1 ->
  (uf = true -> (List.length b <= 126)%nat) ->
  (asserts E = true -> forall i, (S i < List.length b)%nat -> nth i (map B2R b) 0 <= nth (S i) (map B2R B) 0) ->
  exists p r, is_noncrossing_probability (map B2R b) (map B2R B) p /\
    @ecdf2 (Fnum C L) E (map lit b) (map lit B) uf = Ok r /\ is_finite (cp_sum C r) = true /\
    Rabs (B2R (cp_sum C r) - p) <= 40000 * (INR (List.length b) * INR (List.length b) * eps) * p + bpow radix2 (-900).
Proof.
  intros HL He Hb HB Pb PB Hlen Hn1 Hs Hn Huf Hg.
  destruct (ecdf2_fast_gen C L eps 0 E b B uf HL) as (p & r & Hp & Hr & Fr & Er); auto; try lra.
  exists p, r. split; [exact Hp|]. split; [exact Hr|]. split; [exact Fr|].
  rewrite Rmult_0_r, Rmult_0_r, Rplus_0_r in Er. exact Er.
Qed.

(** Any convolutions, with an FFT whose errors are at most epsf. *)
Lemma ecdf2_fast_fft (C : compiler) (L : libm) (eps epsf : R) (E : env (Fnum C L)) (b B : list f64) (uf : bool) :
  fast_libm_accurate (cp_flush C) L eps -> bpow radix2 (-51) <= eps ->
  @fft_accurate_in (Fnum C L) (ffin C) (fval C) E epsf -> bpow radix2 (-50) <= epsf ->
  accepted64 b -> accepted64 B ->
  Forall (fun x : f64 => B2R x = 0 \/ bpow radix2 (-900) <= B2R x) b ->
  Forall (fun x : f64 => B2R x = 0 \/ bpow radix2 (-900) <= B2R x) B ->
  List.length b = List.length B -> (1 <= List.length b)%nat -> sort_ok E ->
  65536 * (INR (List.length b) * INR (List.length b)) * eps <= 1 ->
  16384 * (INR (List.length b) * INR (List.length b)) * epsf <= 1 ->
  (asserts E = true -> forall i, (S i < List.length b)%nat -> nth i (map B2R b) 0 <= nth (S i) (map B2R B) 0) ->
  exists p r, is_noncrossing_probability (map B2R b) (map B2R B) p /\
    @ecdf2 (Fnum C L) E (map lit b) (map lit B) uf = Ok r /\ is_finite (cp_sum C r) = true /\
    Rabs (B2R (cp_sum C r) - p) <= 40000 * (INR (List.length b) * INR (List.length b) * eps) * p
      + 8400 * (INR (List.length b) * INR (List.length b) * epsf) + bpow radix2 (-900).
Proof.
  intros HL He HF Hef Hb HB Pb PB Hlen Hn1 Hs Hn Hnf Hg.
  assert (HN : 1 <= INR (List.length b)) by (apply (le_INR 1); exact Hn1).
  assert (HNN : 1 <= INR (List.length b) * INR (List.length b)) by nra.
  pose proof (bpow_gt_0 radix2 (-50)) as H50.
  assert (He4 : epsf <= / 4096).
  { assert (epsf <= INR (List.length b) * INR (List.length b) * epsf) by nra. lra. }
  destruct (ecdf2_fast_gen C L eps (400 * epsf) E b B uf HL) as (p & r & Hp & Hr & Fr & Er); auto; try lra.
  - right. exists epsf. split; [exact HF|]. split; [|lra].
    replace (2 * bpow radix2 (-51)) with (bpow radix2 (-50)); [exact Hef|].
    change (-50)%Z with (1 + -51)%Z. rewrite bpow_plus. reflexivity.
  - exists p, r. split; [exact Hp|]. split; [exact Hr|]. split; [exact Fr|]. lra.
Qed.

(** up to 1000 points, library functions with relative error 2^-50 (4 units in the last place) *)
Lemma ecdf2_fast_1000 (C : compiler) (L : libm) (E : env (Fnum C L)) (b B : list f64) :
  fast_libm_accurate (cp_flush C) L (bpow radix2 (-50)) ->
  accepted64 b -> accepted64 B ->
  Forall (fun x : f64 => B2R x = 0 \/ bpow radix2 (-900) <= B2R x) b ->
  Forall (fun x : f64 => B2R x = 0 \/ bpow radix2 (-900) <= B2R x) B ->
  List.length b = List.length B -> (1 <= List.length b <= 1000)%nat -> sort_ok E ->
  (asserts E = true -> forall i, (S i < List.length b)%nat -> nth i (map B2R b) 0 <= nth (S i) (map B2R B) 0) ->
  exists p r, is_noncrossing_probability (map B2R b) (map B2R B) p /\
    @ecdf2 (Fnum C L) E (map lit b) (map lit B) false = Ok r /\ is_finite (cp_sum C r) = true /\
    Rabs (B2R (cp_sum C r) - p) <= 4 * p / 100000 + bpow radix2 (-900).
Proof.
  intros HL Hb HB Pb PB Hl [Hn1 H1000] Hs Hg.
  assert (HN : 0 <= INR (List.length b) <= 1000).
  { split; [apply pos_INR|]. apply le_INR in H1000. replace (INR 1000) with 1000 in H1000; [exact H1000|].
    rewrite INR_IZR_INZ. reflexivity. }
  assert (HNN : 0 <= INR (List.length b) * INR (List.length b) <= 1000000) by nra.
  assert (H50 : bpow radix2 (-50) = / 1125899906842624) by reflexivity.
  destruct (ecdf2_fast C L (bpow radix2 (-50)) E b B false HL) as (p & r & Hp & Hr & Fr & Er); auto.
  - apply bpow_le. lia.
  - rewrite H50. lra.
  - discriminate.
  - exists p, r. split; [exact Hp|]. split; [exact Hr|]. split; [exact Fr|].
    eapply Rle_trans; [exact Er|]. apply Rplus_le_compat_r. rewrite H50.
    assert (Hp0 : 0 <= p) by exact (proj1 (is_prob_range _ _ _ (proj2 Hp))).
    replace (4 * p / 100000) with (4 / 100000 * p) by field. apply Rmult_le_compat_r; [exact Hp0|]. lra.
Qed.

(** ** A library that is accurate in the usual sense is accurate when subnormal numbers count as zero *)
Lemma libm_fast (flush : bool) (L : libm) (eps : R) : libm_accurate L eps -> 0 <= eps <= / 2 -> fast_libm_accurate flush L eps.
Proof.
  intros HL He. pose proof (bpow_gt_0 radix2 (-1022)) as Hp.
  assert (HG : forall (v : f64) (g : R), Rabs (B2R v - g) <= eps * Rabs g -> g = 0 \/ bpow radix2 (-54) <= Rabs g -> sv flush v = B2R v).
  { intros v g Hv Hg. apply sv_normal. destruct Hg as [->|Hg].
    - right. rewrite Rabs_R0, Rmult_0_r, Rminus_0_r in Hv. pose proof (Rabs_pos (B2R v)).
      destruct (Req_dec (B2R v) 0) as [H0|H0]; [exact H0|]. apply Rabs_pos_lt in H0. lra.
    - left. pose proof (Rabs_triang (B2R v) (g - B2R v)) as HT. replace (B2R v + (g - B2R v)) with g in HT by ring.
      rewrite (Rabs_minus_sym g) in HT.
      assert (eps * Rabs g <= / 2 * Rabs g) by (apply Rmult_le_compat_r; [apply Rabs_pos|lra]).
      apply Rle_trans with (/ 2 * bpow radix2 (-54)); [|lra]. change (/ 2) with (bpow radix2 (-1)). rewrite <- bpow_plus. apply bpow_le. lia. }
  constructor.
  - intros x Fx Hx. pose proof (bpow_gt_0 radix2 (-1000)) as H1000. destruct (acc_log _ _ HL x Fx ltac:(lra)) as [F V]. split; [exact F|].
    rewrite (HG _ _ V); [exact V|]. apply ln_gap. lra.
  - intros k Hk. destruct (acc_lgamma _ _ HL k Hk) as [F V]. split; [exact F|].
    set (m := Z.to_nat (k - 1)) in *.
    assert (H0 : 0 <= ln (INR (fact m))).
    { rewrite <- ln_1. apply ln_le; [lra|]. apply (le_INR 1), lt_O_fact. }
    rewrite (HG (lm_lgamma L k) (ln (INR (fact m)))); [exact V|rewrite (Rabs_pos_eq (ln (INR (fact m)))) by exact H0; exact V|].
    destruct (Nat.leb_spec m 1) as [Hs|Hs].
    + left. replace (fact m) with 1%nat; [simpl; apply ln_1|]. destruct m as [|[|]]; [reflexivity|reflexivity|lia].
    + right. rewrite Rabs_pos_eq by exact H0.
      apply Rle_trans with (bpow radix2 (-1)); [apply bpow_le; lia|].
      apply Rle_trans with (ln 2); [pose proof ln_lt_2; simpl; lra|]. apply ln_le; [lra|].
      change 2 with (INR 2). apply le_INR. change 2%nat with (fact 2). apply fact_le. lia.
  - intros x Fx Hx.
    assert (H1022 : bpow radix2 (-1022) <= / 1024) by (change (/ 1024) with (bpow radix2 (-10)); apply bpow_le; lia).
    assert (Hx1 : B2R x <= 1).
    { destruct (sv_cases flush x) as [Ex|[H1 _]]; [lra|]. apply Rabs_lt_inv in H1. lra. }
    destruct (acc_exp _ _ HL x Fx Hx1) as [F V]. split; [exact F|].
    pose proof (sv_near flush (lm_exp L x)) as HS. set (w := lm_exp L x) in *.
    assert (H20 : bpow radix2 (-1020) = 4 * bpow radix2 (-1022)).
    { change (-1020)%Z with (2 + -1022)%Z. rewrite bpow_plus. reflexivity. }
    assert (H74 : eta64 <= / 1024 * bpow radix2 (-1022)).
    { change (/ 1024) with (bpow radix2 (-10)). rewrite <- bpow_plus. unfold eta64. apply bpow_le. lia. }
    assert (HD : Rabs (exp (B2R x) - exp (sv flush x)) <= 513 / 512 * bpow radix2 (-1022)).
    { destruct (sv_cases flush x) as [Ex|[H1 Ex]]; rewrite Ex.
      - rewrite Rminus_diag_eq, Rabs_R0 by reflexivity. lra.
      - rewrite exp_0. apply Rabs_lt_inv in H1. pose proof (exp_ineq1_le (B2R x)) as HE1.
        pose proof (exp_ineq1_le (- B2R x)) as HE2. rewrite exp_Ropp in HE2.
        assert (HX : 0 < exp (B2R x)) by apply exp_pos.
        apply (Rmult_le_compat_r (exp (B2R x))) in HE2; [|lra]. rewrite Rinv_l in HE2 by lra.
        assert (HEX : exp (B2R x) <= 513 / 512).
        { apply Rmult_le_reg_l with (1 - / 1024); [lra|]. nra. }
        apply Rabs_le. split; [lra|].
        assert (B2R x * exp (B2R x) <= 513 / 512 * bpow radix2 (-1022)).
        { apply Rle_trans with (bpow radix2 (-1022) * exp (B2R x)); [apply Rmult_le_compat_r; lra|].
          rewrite Rmult_comm. apply Rmult_le_compat_r; lra. }
        lra. }
    replace (sv flush w - exp (sv flush x)) with ((sv flush w - B2R w) + (B2R w - exp (B2R x)) + (exp (B2R x) - exp (sv flush x))) by ring.
    eapply Rle_trans; [apply Rabs_triang|]. eapply Rle_trans; [apply Rplus_le_compat_r, Rabs_triang|].
    assert (HE : eps * exp (B2R x) <= eps * exp (sv flush x) + / 2 * (513 / 512 * bpow radix2 (-1022))).
    { apply Rle_trans with (eps * (exp (sv flush x) + 513 / 512 * bpow radix2 (-1022))).
      - apply Rmult_le_compat_l; [lra|]. apply Rabs_le_inv in HD. lra.
      - rewrite Rmult_plus_distr_l. apply Rplus_le_compat_l. apply Rmult_le_compat_r; lra. }
    lra.
Qed.

(** ** A compiler that uses two vector lanes, contracts products, divides by reciprocals and may flush subnormals *)
Section Simd.
Variable flush : bool.
Notation seen := (seen flush).
Notation sv := (sv flush).
Definition v_add (x y : f64) : f64 := seen (Bplus mode_NE (seen x) (seen y)).
Definition v_mul (s : bool) (x y : f64) : f64 := seen (Bmult mode_NE (seen (if s then Bopp x else x)) (seen y)).
Definition v_fma (s : bool) (x y a : f64) : f64 := seen (Bfma mode_NE (seen (if s then Bopp x else x)) (seen y) (seen a)).
Definition v_recip (y : f64) : f64 := seen (Bdiv mode_NE (b64_of_Z 1) (seen y)).

Lemma flushed (r : R) (w : f64) : Rabs (rnd64 r) < bpow radix2 1024 -> is_finite w = true /\ B2R w = rnd64 r ->
  is_finite (seen w) = true /\ (B2R (seen w) = rnd64 r \/ flush = true /\ Rabs r < bpow radix2 (-1022) /\ B2R (seen w) = 0).
Proof.
  intros _ [F V]. split; [apply seen_fin, F|]. rewrite <- V.
  unfold FastMath.seen. destruct flush eqn:Ef; cbn [andb]; [|left; reflexivity]. rewrite F. cbn [andb].
  destruct (Rlt_bool_spec (Rabs (B2R w)) (bpow radix2 (-1022))) as [H|H]; [|left; reflexivity].
  right. split; [reflexivity|]. split; [|reflexivity].
  destruct (Rlt_or_le (Rabs r) (bpow radix2 (-1022))) as [Hr|Hr]; [exact Hr|exfalso].
  rewrite V in H. unfold rnd64 in H. rewrite <- round_NE_abs in H by auto with typeclass_instances.
  assert (HM : rnd (bpow radix2 (-1022)) <= rnd (Rabs r)) by (apply round_le; auto with typeclass_instances).
  rewrite (bpow_format (-1022)) in HM by lia. lra.
Qed.

Lemma v_sign (s : bool) (x : f64) : is_finite x = true -> is_finite (seen (if s then Bopp x else x)) = true /\ sv (if s then Bopp x else x) = sg s (sv x).
Proof.
  intros F. split; [apply seen_fin; destruct s; [rewrite is_finite_Bopp|]; exact F|].
  destruct s; [apply sv_opp|reflexivity].
Qed.
Lemma sg_mult s a c : sg s a * c = sg s (a * c).
Proof. destruct s; simpl; ring. Qed.

Lemma v_add_ok (x y : f64) : is_finite x = true -> is_finite y = true -> op_result flush (sv x + sv y) (v_add x y).
Proof.
  intros Fx Fy HO. apply flushed; [exact HO|].
  pose proof (Bplus_correct 53 1024 prec_ok emax_ok mode_NE (seen x) (seen y) (seen_fin flush x Fx) (seen_fin flush y Fy)) as H.
  cbn [round_mode] in H. fold (sv x) (sv y) in H. unfold rnd64 in *. rewrite Rlt_bool_true in H by exact HO. tauto.
Qed.
Lemma v_mul_ok (s : bool) (x y : f64) : is_finite x = true -> is_finite y = true -> op_result flush (sg s (sv x * sv y)) (v_mul s x y).
Proof.
  intros Fx Fy HO. apply flushed; [exact HO|]. destruct (v_sign s x Fx) as [Fs Vs].
  pose proof (Bmult_correct 53 1024 prec_ok emax_ok mode_NE (seen (if s then Bopp x else x)) (seen y)) as H.
  cbn [round_mode] in H. fold (sv (if s then Bopp x else x)) (sv y) in H. rewrite Vs, sg_mult in H.
  unfold rnd64 in *. rewrite Rlt_bool_true in H by exact HO. destruct H as (H1 & H2 & _).
  rewrite H1, H2, Fs, (seen_fin flush y Fy). auto.
Qed.
Lemma v_fma_ok (s : bool) (x y a : f64) : is_finite x = true -> is_finite y = true -> is_finite a = true ->
  op_result flush (sg s (sv x * sv y) + sv a) (v_fma s x y a).
Proof.
  intros Fx Fy Fa HO. apply flushed; [exact HO|]. destruct (v_sign s x Fx) as [Fs Vs].
  pose proof (Bfma_correct 53 1024 prec_ok emax_ok mode_NE (seen (if s then Bopp x else x)) (seen y) (seen a) Fs (seen_fin flush y Fy) (seen_fin flush a Fa)) as H.
  cbv zeta in H. cbn [round_mode] in H. fold (sv (if s then Bopp x else x)) (sv y) (sv a) in H. rewrite Vs, sg_mult in H.
  unfold rnd64 in *. rewrite Rlt_bool_true in H by exact HO. tauto.
Qed.
Lemma v_recip_ok (y : f64) : is_finite y = true -> sv y <> 0 -> op_result flush (/ sv y) (v_recip y).
Proof.
  intros Fy Hy HO. apply flushed; [exact HO|].
  pose proof (Bdiv_correct 53 1024 prec_ok emax_ok mode_NE (b64_of_Z 1) (seen y) Hy) as H.
  cbn [round_mode] in H. fold (sv y) in H. destruct one_ok as [F1 V1]. rewrite V1 in H.
  unfold Rdiv in H. rewrite Rmult_1_l in H. unfold rnd64 in *. rewrite Rlt_bool_true in H by exact HO.
  destruct H as (H1 & H2 & _). rewrite H1, H2, F1. auto.
Qed.

(** one lane *)
Fixpoint v_run (l : list term) : f64 :=
  match l with
  | [] => B754_zero false
  | t :: l' =>
    match l' with
    | [] => match t with TVal s x => if s then Bopp x else x | TProd s x y => v_mul s x y end
    | _ => match t with
           | TVal s x => v_add (if s then Bopp x else x) (v_run l')
           | TProd s x y => v_fma s x y (v_run l')
           end
    end
  end.
Lemma v_run_ok l : l <> [] -> evaluates flush l (v_run l).
Proof.
  induction l as [|t l IH]; intros Hne; [congruence|]. destruct l as [|t' l].
  - destruct t as [s x|s x y]; [apply ev_val|]. apply ev_prod. apply v_mul_ok.
  - specialize (IH ltac:(discriminate)). set (l' := t' :: l) in *.
    change (v_run (t :: l')) with (match t with TVal s x => v_add (if s then Bopp x else x) (v_run l') | TProd s x y => v_fma s x y (v_run l') end).
    destruct t as [s x|s x y].
    + apply ev_add with (l1 := [TVal s x]) (l2 := l') (a := if s then Bopp x else x) (c := v_run l'); [reflexivity|apply ev_val|exact IH|].
      apply v_add_ok.
    + apply ev_fma with (l1 := l') (s := s) (x := x) (y := y) (a := v_run l'); [reflexivity|exact IH|]. apply v_fma_ok.
Qed.

(** every second term *)
Fixpoint v_lanes (l : list term) : list term * list term :=
  match l with [] => ([], []) | t :: l' => (t :: snd (v_lanes l'), fst (v_lanes l')) end.
Lemma v_lanes_perm l : Permutation l (fst (v_lanes l) ++ snd (v_lanes l)).
Proof. induction l as [|t l IH]; simpl; [constructor|]. constructor. rewrite IH at 1. apply Permutation_app_comm. Qed.

Definition v_sum (l : list term) : f64 :=
  match snd (v_lanes l) with
  | [] => v_run (fst (v_lanes l))
  | _ => v_add (v_run (fst (v_lanes l))) (v_run (snd (v_lanes l)))
  end.
Lemma v_sum_ok l : l <> [] -> evaluates flush l (v_sum l).
Proof.
  intros Hne. destruct l as [|t [|t' l]]; [congruence|apply v_run_ok; discriminate|].
  change (v_sum (t :: t' :: l)) with (v_add (v_run (fst (v_lanes (t :: t' :: l)))) (v_run (snd (v_lanes (t :: t' :: l))))).
  eapply ev_add; [apply v_lanes_perm|apply v_run_ok; discriminate|apply v_run_ok; discriminate|]. apply v_add_ok.
Qed.
Definition v_div (x y : f64) : f64 := v_mul false x (v_recip y).
Lemma v_div_ok x y : divides flush x y (v_div x y).
Proof.
  intros Fx Fy Hy. right. exists (v_recip y). split; [apply v_recip_ok; assumption|]. intros Fc. apply (v_mul_ok false); assumption.
Qed.
Definition simd_compiler : compiler := mkCompiler flush v_sum v_div v_sum_ok v_div_ok.
End Simd.

(** with flushing, assertions on, and the library of AccCases.v *)
Definition fast_env (C : compiler) (L : libm) (a : bool) : env (Fnum C L) :=
  mkEnv (Fnum C L) a (fun _ _ => lit B754_nan) isort (fun _ => []) (fun _ _ => []) (fun _ => EmptyString)
    (@mkLD (Fnum C L) (Fnum C L) (fun x => x) (fun x => x)).
Lemma fast_sort C L a : sort_ok (fast_env C L a).
Proof. apply isort_ok. reflexivity. Qed.

Lemma case200_plain :
  Forall (fun x : f64 => B2R x = 0 \/ bpow radix2 (-900) <= B2R x) case200_b /\
  Forall (fun x : f64 => B2R x = 0 \/ bpow radix2 (-900) <= B2R x) case200_B.
Proof.
  assert (H900 : bpow radix2 (-900) <= / 1024) by (change (/ 1024) with (bpow radix2 (-10)); apply bpow_le; lia).
  assert (HR : forall (v : f64) k, / 1024 <= B2R v -> Forall (fun x : f64 => B2R x = 0 \/ bpow radix2 (-900) <= B2R x) (repeat v k)).
  { intros v k Hv. apply Forall_forall. intros x Hx. apply repeat_spec in Hx. subst. right. lra. }
  pose proof v_tenth as Ht. pose proof v_one as Ho. split; apply HR; lra.
Qed.

Lemma fast_weaken flush L eps eps' : fast_libm_accurate flush L eps -> eps <= eps' -> fast_libm_accurate flush L eps'.
Proof.
  intros H Hle. constructor.
  - intros x Fx Hx. destruct (fl_log _ _ _ H x Fx Hx) as [F V]. split; [exact F|]. eapply Rle_trans; [exact V|].
    apply Rmult_le_compat_r; [apply Rabs_pos|exact Hle].
  - intros k Hk. destruct (fl_lgamma _ _ _ H k Hk) as [F V]. split; [exact F|]. eapply Rle_trans; [exact V|].
    apply Rmult_le_compat_r; [|exact Hle]. rewrite <- ln_1. apply ln_le; [lra|]. apply (le_INR 1), lt_O_fact.
  - intros x Fx Hx. destruct (fl_exp _ _ _ H x Fx Hx) as [F V]. split; [exact F|]. eapply Rle_trans; [exact V|].
    apply Rplus_le_compat_r, Rmult_le_compat_r; [apply Rlt_le, exp_pos|exact Hle].
Qed.
Lemma cr_fast flush : fast_libm_accurate flush cr_libm (bpow radix2 (-50)).
Proof.
  apply fast_weaken with u64; [apply libm_fast; [apply cr_accurate|]; pose proof u64_pos; pose proof u64_small; lra|].
  unfold u64. apply bpow_le. lia.
Qed.

Lemma simd_case (flush : bool) :
  let C := simd_compiler flush in let E := fast_env C cr_libm true in
  exists p r, is_noncrossing_probability (map B2R case200_b) (map B2R case200_B) p /\
    @ecdf2 (Fnum C cr_libm) E (map lit case200_b) (map lit case200_B) false = Ok r /\ is_finite (cp_sum C r) = true /\
    Rabs (B2R (cp_sum C r) - p) <= 4 * p / 100000 + bpow radix2 (-900).
Proof.
  intros C E. destruct case200_ok as (A1 & A2 & L1 & L2 & G). destruct case200_plain as [P1 P2].
  apply ecdf2_fast_1000; auto.
  - apply cr_fast.
  - rewrite L1. lia.
  - apply fast_sort.
Qed.

(** two builds *)
Lemma ecdf2_fast_agree (C C' : compiler) (L L' : libm) (E : env (Fnum C L)) (E' : env (Fnum C' L')) (b B : list f64) r r' :
  fast_libm_accurate (cp_flush C) L (bpow radix2 (-50)) -> fast_libm_accurate (cp_flush C') L' (bpow radix2 (-50)) ->
  accepted64 b -> accepted64 B ->
  Forall (fun x : f64 => B2R x = 0 \/ bpow radix2 (-900) <= B2R x) b ->
  Forall (fun x : f64 => B2R x = 0 \/ bpow radix2 (-900) <= B2R x) B ->
  List.length b = List.length B -> (1 <= List.length b <= 1000)%nat -> sort_ok E -> sort_ok E' ->
  (forall i, (S i < List.length b)%nat -> nth i (map B2R b) 0 <= nth (S i) (map B2R B) 0) ->
  @ecdf2 (Fnum C L) E (map lit b) (map lit B) false = Ok r ->
  @ecdf2 (Fnum C' L') E' (map lit b) (map lit B) false = Ok r' ->
  Rabs (B2R (cp_sum C r) - B2R (cp_sum C' r')) <= / 10000.
Proof.
  intros HL HL' Hb HB Pb PB Hl Hn Hs Hs' Hg Hr Hr'.
  destruct (ecdf2_fast_1000 C L E b B) as (p & q & Hp & Hq & _ & Eq); auto.
  destruct (ecdf2_fast_1000 C' L' E' b B) as (p' & q' & Hp' & Hq' & _ & Eq'); auto.
  rewrite Hr in Hq. rewrite Hr' in Hq'. injection Hq as <-. injection Hq' as <-.
  assert (p' = p) by (eapply is_prob_unique; [exact (proj2 Hp')|exact (proj2 Hp)]). subst p'.
  pose proof (is_prob_range _ _ _ (proj2 Hp)) as Hp01.
  assert (H900 : bpow radix2 (-900) <= / 1048576) by (change (/ 1048576) with (bpow radix2 (-20)); apply bpow_le; lia).
  apply Rabs_le_inv in Eq. apply Rabs_le_inv in Eq'. apply Rabs_le. lra.
Qed.
