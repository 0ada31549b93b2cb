(** * FastNewFinal: ecdf1_new_B under -ffast-math, its agreement with ecdf2, and an example. *)
From Coquelicot Require Import Coquelicot.
From Flocq Require Import Core.Core IEEE754.BinarySingleNaN.
From Coq Require Import ZArith Reals List Bool Lia Lra String.
From Verif Require Import Base Num RSum Spec SpecFacts ProbFacts ExactFacts FFTConv Ecdf2 Ecdf1New ExactEnv Binary64 Binary64Facts Binary64Cases ErrBound B64Round AccPmf AccCases AccNewFinal ExactClose.
From Verif Require Import Cells Events XEcdf2Main SafeEcdf2 FastNum FastMath FastInst FastFft FastFftInst FastMain FastFftMain FastNewNum FastNewInst FastNewMain AgreeB64 XFft.
Import List. Import ListNotations.
Local Open Scope R_scope.

(** FFTW writes its output to memory: it consists of numbers, not of expressions that could still be merged with others. *)
Definition fft_stores (C : compiler) (L : libm) (E : env (Fnum C L)) : Prop :=
  forall k z, Forall (fun x : list term => exists v : f64, x = lit v) (fft_c2r E k z).

Notation nn v := (INR (List.length v) * INR (List.length v)).
Notation sq v := (sqrt (INR (List.length v))).

Lemma new_B_fast_gen (C : compiler) (L : libm) (eps dl : R) (E : env (Fnum C L)) (B : list f64) :
  fast_libm_accurate (cp_flush C) L eps -> bpow radix2 (-51) <= eps ->
  accepted64 B -> Forall (fun x : f64 => B2R x = 0 \/ bpow radix2 (-900) <= B2R x) B ->
  (1 <= List.length B)%nat -> (asserts E = true -> (2 <= List.length B)%nat) ->
  65536 * (nn B * sq B) * eps <= 1 -> 0 <= dl -> 32 * (nn B * sq B) * dl <= 1 ->
  ((127 <= List.length B)%nat -> exists e, fast_fft_accurate C L E e /\ fft_stores C L E /\
     2 * bpow radix2 (-51) <= e /\ e <= / 4096 /\ 400 * e <= dl) ->
  exists p r, is_prob (List.length B) (noncrossing_B (map B2R B)) p /\
    @ecdf1_new_B (Fnum C L) E (map lit B) = Ok r /\ is_finite (cp_sum C r) = true /\
    Rabs (B2R (cp_sum C r) - p) <= 60000 * (nn B * eps) + 22 * (nn B * dl) + bpow radix2 (-1022).
Proof.
  intros HL He [HF HV] HP Hn1 Ha Hn Hdl Hdl32 Hfft.
  destruct (len_ge1 B Hn1) as [HN HS].
  assert (He0 : 0 < eps) by (pose proof (bpow_gt_0 radix2 (-51)); lra).
  assert (HNS : 1 <= nn B * sq B) by (rewrite <- (Rmult_1_r 1) at 1; apply Rmult_le_compat; lra).
  assert (He1 : eps <= 1).
  { assert (65536 * 1 * eps <= 65536 * (nn B * sq B) * eps) by (apply Rmult_le_compat_r; lra). lra. }
  assert (Hv : map (fval C) (map lit B) = map B2R B).
  { rewrite map_map. apply map_ext_in. intros x Hx. rewrite Forall_forall in HP. specialize (HP x Hx).
    rewrite fval_lit. apply sv_normal. destruct HP as [Hv|Hv]; [right; exact Hv|left].
    pose proof (bpow_gt_0 radix2 (-900)). rewrite Rabs_pos_eq by lra. eapply Rle_trans; [|exact Hv]. apply bpow_le. lia. }
  assert (AB : @accepted_in (Fnum C L) (ffin C) (fval C) (map lit B)).
  { split.
    - apply Forall_map. rewrite Forall_forall in *. intros x Hx. apply ffin_lit, HF, Hx.
    - change (valid_boundary (map (fval C) (map lit B))). rewrite Hv. exact HV. }
  assert (RB : Forall (fun x => fraw x /\ plain (fval C x)) (map lit B)).
  { assert (HP2 : Forall plain (map (fval C) (map lit B))).
    { rewrite Hv. apply Forall_map. exact HP. }
    apply Forall_map. rewrite !Forall_map in HP2. rewrite Forall_forall in *. intros x Hx. split; [exists x; reflexivity|].
    apply HP2, Hx. }
  destruct (facc_new (Fnum C L) E (ffin C) (fone C) fraw (fval C) fu eps feta (facc C)
    (fast_arith C L eps HL He1) (fast_arith_fft C L) (fast_arith_new C L)) with (Bl := map lit B) (dl := dl)
    as (p & r & Hp & Hr & Fr & Er); auto; try (rewrite map_length; assumption).
  - unfold fu. apply bpow_le. lia.
  - unfold feta. apply bpow_gt_0.
  - unfold feta. apply bpow_le. lia.
  - rewrite map_length. unfold MINIMUM_SIZE_FOR_FFTW_CONVOLUTION. intros H.
    destruct Hfft as (e & H1 & H2 & H3); [lia|]. exists e. split; [exact H1|]. split; [exact H2|exact H3].
  - exists p, r. change (map (A := car (Fnum C L)) (fval C)) with (map (fval C)) in Hp. rewrite Hv, map_length in Hp.
    split; [exact Hp|]. split; [exact Hr|]. split; [apply Fr|].
    rewrite map_length in Er. pose proof (sv_near (cp_flush C) (cp_sum C r)) as HSv. fold (fval C r) in HSv.
    replace (B2R (cp_sum C r) - p) with (- (fval C r - B2R (cp_sum C r)) + (fval C r - p)) by ring.
    eapply Rle_trans; [apply Rabs_triang|]. rewrite Rabs_Ropp. change (list term) with (car (Fnum C L)) in *. lra.
Qed.

Lemma new_B_fast (C : compiler) (L : libm) (eps epsf : R) (E : env (Fnum C L)) (B : list f64) :
  fast_libm_accurate (cp_flush C) L eps -> bpow radix2 (-51) <= eps ->
  fast_fft_accurate C L E epsf -> bpow radix2 (-50) <= epsf -> fft_stores C L E ->
  accepted64 B -> Forall (fun x : f64 => B2R x = 0 \/ bpow radix2 (-900) <= B2R x) B ->
  (1 <= List.length B)%nat -> (asserts E = true -> (2 <= List.length B)%nat) ->
  65536 * (nn B * sq B) * eps <= 1 -> 16384 * (nn B * sq B) * epsf <= 1 ->
  exists p r, is_prob (List.length B) (noncrossing_B (map B2R B)) p /\
    @ecdf1_new_B (Fnum C L) E (map lit B) = Ok r /\ is_finite (cp_sum C r) = true /\
    Rabs (B2R (cp_sum C r) - p) <= 60000 * (nn B * eps) + 9000 * (nn B * epsf) + bpow radix2 (-1022).
Proof.
  intros HL He HF Hf HW HB HP H1 Ha H2 H3. destruct (len_ge1 B H1) as [HN HS].
  assert (Hu : 0 < bpow radix2 (-51)) by apply bpow_gt_0.
  assert (H50 : bpow radix2 (-50) = 2 * bpow radix2 (-51)) by (change (-50)%Z with (1 + -51)%Z; rewrite bpow_plus; reflexivity).
  assert (HNS : 1 <= nn B * sq B) by (rewrite <- (Rmult_1_r 1) at 1; apply Rmult_le_compat; lra).
  destruct (new_B_fast_gen C L eps (400 * epsf) E B HL He HB HP H1 Ha H2) as (p & r & Hp & Hr & Fr & Er).
  - lra.
  - lra.
  - intros _. exists epsf. split; [exact HF|]. split; [exact HW|]. split; [lra|]. split; [|lra].
    assert (16384 * epsf <= 16384 * (nn B * sq B) * epsf) by (apply Rmult_le_compat_r; lra). lra.
  - exists p, r. split; [exact Hp|]. split; [exact Hr|]. split; [exact Fr|].
    eapply Rle_trans; [exact Er|]. assert (0 <= nn B * epsf) by (apply Rmult_le_pos; lra).
    replace (22 * (nn B * (400 * epsf))) with (8800 * (nn B * epsf)) by ring. lra.
Qed.

(** with fewer than 127 points no FFT is used *)
Lemma new_B_fast_short (C : compiler) (L : libm) (eps : R) (E : env (Fnum C L)) (B : list f64) :
  fast_libm_accurate (cp_flush C) L eps -> bpow radix2 (-51) <= eps ->
  accepted64 B -> Forall (fun x : f64 => B2R x = 0 \/ bpow radix2 (-900) <= B2R x) B ->
  (1 <= List.length B < 127)%nat -> (asserts E = true -> (2 <= List.length B)%nat) ->
  65536 * (nn B * sq B) * eps <= 1 ->
  exists p r, is_prob (List.length B) (noncrossing_B (map B2R B)) p /\
    @ecdf1_new_B (Fnum C L) E (map lit B) = Ok r /\ is_finite (cp_sum C r) = true /\
    Rabs (B2R (cp_sum C r) - p) <= 60000 * (nn B * eps) + bpow radix2 (-1022).
Proof.
  intros HL He HB HP [H1 H127] Ha H2.
  destruct (new_B_fast_gen C L eps 0 E B HL He HB HP H1 Ha H2) as (p & r & Hp & Hr & Fr & Er).
  - lra.
  - lra.
  - intros H. exfalso. lia.
  - exists p, r. split; [exact Hp|]. split; [exact Hr|]. split; [exact Fr|]. eapply Rle_trans; [exact Er|]. lra.
Qed.

Lemma new_B_fast_1000 (C : compiler) (L : libm) (E : env (Fnum C L)) (B : list f64) :
  fast_libm_accurate (cp_flush C) L (bpow radix2 (-50)) -> fast_fft_accurate C L E (bpow radix2 (-47)) -> fft_stores C L E ->
  accepted64 B -> Forall (fun x : f64 => B2R x = 0 \/ bpow radix2 (-900) <= B2R x) B ->
  (1 <= List.length B <= 1000)%nat -> (asserts E = true -> (2 <= List.length B)%nat) ->
  exists p r, is_prob (List.length B) (noncrossing_B (map B2R B)) p /\
    @ecdf1_new_B (Fnum C L) E (map lit B) = Ok r /\ is_finite (cp_sum C r) = true /\
    Rabs (B2R (cp_sum C r) - p) <= 12 / 100000.
Proof.
  intros HL HF HW HB HP Hn Ha. destruct (sizes_1000 B Hn) as [K1 K2].
  assert (H50 : bpow radix2 (-50) = / 1125899906842624) by reflexivity.
  assert (H47 : bpow radix2 (-47) = / 140737488355328) by reflexivity.
  destruct (new_B_fast C L (bpow radix2 (-50)) (bpow radix2 (-47)) E B HL) as (p & r & Hp & Hr & Fr & Er); auto;
    try lia; try (apply bpow_le; lia); try (rewrite ?H50, ?H47; lra).
  exists p, r. split; [exact Hp|]. split; [exact Hr|]. split; [exact Fr|].
  eapply Rle_trans; [exact Er|]. rewrite H50, H47.
  assert (bpow radix2 (-1022) <= / 1048576) by (change (/ 1048576) with (bpow radix2 (-20)); apply bpow_le; lia).
  lra.
Qed.

(** agreement with ecdf2 for a lower boundary of zeros, in this build or another one *)
Lemma new_B_fast_agree (C C' : compiler) (L L' : libm) (E : env (Fnum C L)) (E' : env (Fnum C' L')) (B : list f64) (uf : bool) r r' :
  fast_libm_accurate (cp_flush C) L (bpow radix2 (-50)) -> fast_fft_accurate C L E (bpow radix2 (-47)) -> fft_stores C L E ->
  fast_libm_accurate (cp_flush C') L' (bpow radix2 (-50)) -> fast_fft_accurate C' L' E' (bpow radix2 (-47)) -> sort_ok E' ->
  accepted64 B -> Forall (fun x : f64 => B2R x = 0 \/ bpow radix2 (-900) <= B2R x) B ->
  (2 <= List.length B <= 1000)%nat ->
  @ecdf1_new_B (Fnum C L) E (map lit B) = Ok r ->
  @ecdf2 (Fnum C' L') E' (map lit (repeat zero64 (List.length B))) (map lit B) uf = Ok r' ->
  Rabs (B2R (cp_sum C r) - B2R (cp_sum C' r')) <= 22 / 100000.
Proof.
  intros HL HF HW HL' HF' Hs HB HP Hn Hr Hr'. destruct zero_ok as (F0 & V0).
  set (n := List.length B) in *.
  assert (H0 : accepted64 (repeat zero64 n)) by (apply repeat_accepted; [exact F0|rewrite V0; lra]).
  destruct (new_B_fast_1000 C L E B) as (p & q & Hp & Hq & _ & Eq); auto; [fold n; lia|fold n; lia|].
  destruct (ecdf2_fast_fft_1000 C' L' E' (repeat zero64 n) B uf) as (p' & q' & Hp' & Hq' & _ & Eq'); auto.
  - apply Forall_forall. intros x Hx. apply repeat_spec in Hx. subst. left. exact V0.
  - apply repeat_length.
  - rewrite repeat_length. lia.
  - intros _ i Hi. rewrite repeat_length in Hi. rewrite map_rep, V0.
    rewrite nth_repeat.
    destruct HB as (_ & _ & Hb). rewrite Forall_forall in Hb. apply Hb, nth_In. rewrite map_length. exact Hi.
  - rewrite Hr in Hq. rewrite Hr' in Hq'. injection Hq as <-. injection Hq' as <-.
    rewrite map_rep, V0 in Hp'.
    assert (Hp2 : is_noncrossing_probability (repeat 0 n) (map B2R B) p).
    { replace n with (List.length (map B2R B)) by apply map_length. apply prob_zeros. rewrite map_length. exact Hp. }
    assert (p' = p) by (eapply is_prob_unique; [exact (proj2 Hp')|exact (proj2 Hp2)]). subst p'.
    apply Rabs_le_inv in Eq. apply Rabs_le_inv in Eq'. apply Rabs_le. lra.
Qed.

(** ** The example of FastFftMain.v *)
Lemma fast_fft_stores C L a : fft_stores C L (fast_fft_env C L a).
Proof.
  intros k z. cbn [fft_c2r fast_fft_env]. unfold fr_c2r. apply Forall_map, Forall_forall. intros j _. eexists. reflexivity.
Qed.

Lemma case200_up_plain : Forall (fun x : f64 => B2R x = 0 \/ bpow radix2 (-900) <= B2R x) case200_up.
Proof.
  destruct case200_plain as [P1 P2]. unfold case200_up.
  change case200_b with (f_tenth :: repeat f_tenth 199) in P1. change case200_B with (f_one :: repeat f_one 199) in P2.
  constructor; [inversion P1; assumption|inversion P2; assumption].
Qed.

Lemma simd_new_case (flush : bool) :
  let C := simd_compiler flush in let E := fast_fft_env C cr_libm true in
  exists p r, is_prob 200 (noncrossing_B (map B2R case200_up)) p /\
    @ecdf1_new_B (Fnum C cr_libm) E (map lit case200_up) = Ok r /\ is_finite (cp_sum C r) = true /\
    Rabs (B2R (cp_sum C r) - p) <= 12 / 100000.
Proof.
  intros C E. destruct case200_up_ok as (A1 & L1). rewrite <- L1.
  apply new_B_fast_1000; auto.
  - apply cr_fast.
  - apply fast_fft_ok.
  - apply fast_fft_stores.
  - apply case200_up_plain.
  - rewrite L1. lia.
  - intros _. rewrite L1. lia.
Qed.
