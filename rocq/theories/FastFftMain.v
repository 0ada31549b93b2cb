(** * FastFftMain: ecdf2 with FFT convolutions under -ffast-math, up to 1000 points, and an example. *)
From Coquelicot Require Import Coquelicot.
From Flocq Require Import Core.Core IEEE754.BinarySingleNaN.
From Coq Require Import ZArith Reals List Bool Lia Lra String.
From Verif Require Import Base Num RSum Dft Spec SpecFacts Ecdf2 ExactEnv Binary64 Binary64Facts Binary64Cases ErrBound B64Round FftMath AccPmf AccCases.
From Verif Require Import Cells Events XEcdf2Main SafeEcdf2 FastNum FastMath FastInst FastFft FastMain XFft.
Import List. Import ListNotations.
Local Open Scope R_scope.

(** The accuracy of FFTW: inputs and outputs are arrays of numbers, read as the compiled code reads them. *)
Definition fast_fft_accurate (C : compiler) (L : libm) (E : env (Fnum C L)) (e : R) : Prop :=
  @fft_accurate_in (Fnum C L) (ffin C) (fval C) E e.

(** up to 1000 points *)
Lemma ecdf2_fast_fft_1000 (C : compiler) (L : libm) (E : env (Fnum C L)) (b B : list f64) (uf : bool) :
  fast_libm_accurate (cp_flush C) L (bpow radix2 (-50)) -> fast_fft_accurate C L E (bpow radix2 (-47)) ->
  accepted64 b -> accepted64 B ->
  Forall (fun x : f64 => B2R x = 0 \/ bpow radix2 (-900) <= B2R x) b ->
  Forall (fun x : f64 => B2R x = 0 \/ bpow radix2 (-900) <= B2R x) B ->
  List.length b = List.length B -> (1 <= List.length b <= 1000)%nat -> sort_ok E ->
  (asserts E = true -> forall i, (S i < List.length b)%nat -> nth i (map B2R b) 0 <= nth (S i) (map B2R B) 0) ->
  exists p r, is_noncrossing_probability (map B2R b) (map B2R B) p /\
    @ecdf2 (Fnum C L) E (map lit b) (map lit B) uf = Ok r /\ is_finite (cp_sum C r) = true /\
    Rabs (B2R (cp_sum C r) - p) <= / 10000.
Proof.
  intros HL HF Hb HB Pb PB Hl [Hn1 H1000] Hs Hg.
  assert (HN : 0 <= INR (List.length b) <= 1000).
  { split; [apply pos_INR|]. apply le_INR in H1000. replace (INR 1000) with 1000 in H1000; [exact H1000|].
    rewrite INR_IZR_INZ. reflexivity. }
  assert (HNN : 0 <= INR (List.length b) * INR (List.length b) <= 1000000) by nra.
  assert (H50 : bpow radix2 (-50) = / 1125899906842624) by reflexivity.
  assert (H47 : bpow radix2 (-47) = / 140737488355328) by reflexivity.
  destruct (ecdf2_fast_fft C L (bpow radix2 (-50)) (bpow radix2 (-47)) E b B uf HL) as (p & r & Hp & Hr & Fr & Er); auto.
  - apply bpow_le. lia.
  - apply bpow_le. lia.
  - rewrite H50. lra.
  - rewrite H47. lra.
  - exists p, r. split; [exact Hp|]. split; [exact Hr|]. split; [exact Fr|].
    eapply Rle_trans; [exact Er|]. rewrite H50, H47.
    pose proof (is_prob_range _ _ _ (proj2 Hp)) as Hp01.
    assert (H900 : bpow radix2 (-900) <= / 1048576) by (change (/ 1048576) with (bpow radix2 (-20)); apply bpow_le; lia).
    assert (40000 * (INR (List.length b) * INR (List.length b) * / 1125899906842624) * p <= 356 / 10000000 * 1).
    { apply Rmult_le_compat; lra. }
    lra.
Qed.

(** with and without FFTs, or in two builds *)
Lemma ecdf2_fast_fft_agree (C C' : compiler) (L L' : libm) (E : env (Fnum C L)) (E' : env (Fnum C' L')) (b B : list f64) (uf uf' : bool) r r' :
  fast_libm_accurate (cp_flush C) L (bpow radix2 (-50)) -> fast_fft_accurate C L E (bpow radix2 (-47)) ->
  fast_libm_accurate (cp_flush C') L' (bpow radix2 (-50)) -> fast_fft_accurate C' L' E' (bpow radix2 (-47)) ->
  accepted64 b -> accepted64 B ->
  Forall (fun x : f64 => B2R x = 0 \/ bpow radix2 (-900) <= B2R x) b ->
  Forall (fun x : f64 => B2R x = 0 \/ bpow radix2 (-900) <= B2R x) B ->
  List.length b = List.length B -> (1 <= List.length b <= 1000)%nat -> sort_ok E -> sort_ok E' ->
  (forall i, (S i < List.length b)%nat -> nth i (map B2R b) 0 <= nth (S i) (map B2R B) 0) ->
  @ecdf2 (Fnum C L) E (map lit b) (map lit B) uf = Ok r ->
  @ecdf2 (Fnum C' L') E' (map lit b) (map lit B) uf' = Ok r' ->
  Rabs (B2R (cp_sum C r) - B2R (cp_sum C' r')) <= / 5000.
Proof.
  intros HL HF HL' HF' Hb HB Pb PB Hl Hn Hs Hs' Hg Hr Hr'.
  destruct (ecdf2_fast_fft_1000 C L E b B uf) as (p & q & Hp & Hq & _ & Eq); auto.
  destruct (ecdf2_fast_fft_1000 C' L' E' b B uf') as (p' & q' & Hp' & Hq' & _ & Eq'); auto.
  rewrite Hr in Hq. rewrite Hr' in Hq'. injection Hq as <-. injection Hq' as <-.
  assert (p' = p) by (eapply is_prob_unique; [exact (proj2 Hp')|exact (proj2 Hp)]). subst p'.
  apply Rabs_le_inv in Eq. apply Rabs_le_inv in Eq'. apply Rabs_le. lra.
Qed.

(** ** Transforms that round the exact result *)
Section Case.
Context (C : compiler) (L : libm).
Notation FN := (Fnum C L).
Definition fr_r2c (x : list (car FN)) : list (car FN * car FN) :=
  map (fun k => (lit (of_R (dft_re (List.length x) (@vl FN (fval C) x) k)), lit (of_R (dft_im (List.length x) (@vl FN (fval C) x) k))))
      (seq 0 (List.length x / 2 + 1)).
Definition fr_c2r (n : nat) (z : list (car FN * car FN)) : list (car FN) :=
  map (fun j => lit (of_R (idft n (@vre FN (fval C) z) (@vim FN (fval C) z) j))) (seq 0 n).
Definition fast_fft_env (a : bool) : env FN :=
  mkEnv FN a (fun _ _ => lit B754_nan) isort fr_r2c fr_c2r (fun _ => EmptyString)
    (@mkLD FN FN (fun x => x) (fun x => x)).
Lemma fast_fft_sort a : sort_ok (fast_fft_env a).
Proof. apply isort_ok. reflexivity. Qed.

Lemma of_R_within x M : Rabs x <= M -> M <= 2048 ->
  @within FN (ffin C) (fval C) (lit (of_R x)) x (u64 * M + bpow radix2 (-1000)).
Proof.
  intros Hx HM. destruct (of_R_ok x) as [Fr V].
  { apply Rle_trans with (bpow radix2 11); [change (bpow radix2 11) with 2048; lra|apply bpow_le; lia]. }
  split; [apply ffin_lit, Fr|]. rewrite fval_lit. pose proof (sv_near (cp_flush C) (of_R x)) as HS.
  pose proof (rnd_err x) as HR. rewrite <- V in HR. pose proof u64_pos as Hu.
  replace (sv (cp_flush C) (of_R x) - x) with ((sv (cp_flush C) (of_R x) - B2R (of_R x)) + (B2R (of_R x) - x)) by ring.
  eapply Rle_trans; [apply Rabs_triang|].
  assert (u64 * Rabs x <= u64 * M) by (apply Rmult_le_compat_l; lra).
  assert (Ht : eta64 + bpow radix2 (-1022) <= bpow radix2 (-1000)).
  { assert (eta64 <= bpow radix2 (-1022)) by (unfold eta64; apply bpow_le; lia).
    apply Rle_trans with (bpow radix2 1 * bpow radix2 (-1022)); [change (bpow radix2 1) with 2; lra|].
    rewrite <- bpow_plus. apply bpow_le. lia. }
  lra.
Qed.

Lemma fast_fft_ok a : fast_fft_accurate C L (fast_fft_env a) (bpow radix2 (-47)).
Proof.
  assert (Hu : u64 <= bpow radix2 (-47)) by (unfold u64; apply bpow_le; lia).
  split.
  - intros h x Hh Hl _ HS z.
    assert (Hd : (List.length x / 2 + 1 = S h)%nat).
    { rewrite Hl, Nat.mul_comm, Nat.div_mul by lia. lia. }
    split; [unfold z; cbn [fft_r2c fast_fft_env]; unfold fr_r2c; rewrite map_length, seq_length; exact Hd|].
    intros k Hk. unfold z. cbn [fft_r2c fast_fft_env]. unfold fr_r2c. rewrite Hd.
    rewrite nth_map_seq by lia. cbn [fst snd]. rewrite Hl.
    set (S0 := rsum (2 * h) (fun j => Rabs (@vl FN (fval C) x j))) in *.
    assert (HS0 : 0 <= S0) by (apply rsum_nonneg; intros; apply Rabs_pos).
    assert (u64 * S0 <= bpow radix2 (-47) * S0) by (apply Rmult_le_compat_r; lra).
    split; (eapply within_weaken; [|apply (of_R_within _ S0); [|lra]]); try lra; [apply dft_re_abs|apply dft_im_abs].
  - intros h z Hh Hl _ HS y. split; [unfold y; cbn [fft_c2r fast_fft_env]; unfold fr_c2r; rewrite map_length, seq_length; reflexivity|].
    intros j Hj. unfold y. cbn [fft_c2r fast_fft_env]. unfold fr_c2r. rewrite nth_map_seq by exact Hj.
    pose proof (idft_abs h (@vre FN (fval C) z) (@vim FN (fval C) z) j Hh) as HI.
    set (S0 := 2 * l1c h (@vre FN (fval C) z) (@vim FN (fval C) z)) in *.
    assert (HS0 : 0 <= S0) by (eapply Rle_trans; [apply Rabs_pos|exact HI]).
    assert (u64 * S0 <= bpow radix2 (-47) * S0) by (apply Rmult_le_compat_r; lra).
    eapply within_weaken; [|apply (of_R_within _ S0 HI); unfold S0; lra]. lra.
Qed.
End Case.

Lemma simd_fft_case (flush : bool) :
  let C := simd_compiler flush in let E := fast_fft_env C cr_libm true in
  exists p r, is_noncrossing_probability (map B2R case200_b) (map B2R case200_B) p /\
    @ecdf2 (Fnum C cr_libm) E (map lit case200_b) (map lit case200_B) true = Ok r /\ is_finite (cp_sum C r) = true /\
    Rabs (B2R (cp_sum C r) - p) <= / 10000.
Proof.
  intros C E. destruct case200_ok as (A1 & A2 & L1 & L2 & G). destruct case200_plain as [P1 P2].
  apply ecdf2_fast_fft_1000; auto.
  - apply cr_fast.
  - apply fast_fft_ok.
  - rewrite L1. lia.
  - apply fast_fft_sort.
Qed.
