(** * BjPipeline: the thresholds of a level and the measurements at them, in binary64. *)
From Coquelicot Require Import Coquelicot.
From Flocq Require Import Core.Core IEEE754.BinarySingleNaN.
From Coq Require Import ZArith Reals List Bool Lia Lra String Classical_Prop.
From Verif Require Import Base Num Common Ecdf2 Ecdf1New Cli SpecFacts AccNewFinal GofSpec Binary64 LongDouble LdRound Spec SafeFft XEcdf2Main Binary64Facts Binary64Cases B64Round.
From Verif Require Import AccPmf AccFft AccCases AccMnsEval AccMns AccMnsCase AgreeB64 ExactBj BjSearch BjMain BjCase BjBench BjBenchFacts BjBench64.
Import List. Import ListNotations.
Local Open Scope R_scope.

(** A returned threshold is in (0,1]. *)
Lemma inverse_range (L : libm) (E : env (Bnum L)) betaincinv n (alpha r : f64) report :
  bounds_accepted L betaincinv n -> (1 <= Z.of_nat n <= INT_MAX)%Z -> fft_lengths E -> (n = 1%nat -> asserts E = false) ->
  @inverse_Mn_plus (Bnum L) E betaincinv n alpha = Value (r, report) -> is_finite r = true /\ 0 < B2R r <= 1.
Proof.
  intros HB Hn HF Ha HI.
  destruct (classic (exists j (x : f64), (1 <= j <= 55)%Z /\ is_finite x = true /\ B2R x = bpow radix2 (- j) /\ test_succeeds L E betaincinv n alpha x)) as [(j & x & Hj & Fx & Vx & Sx)|HN].
  - destruct (inverse_converges L E betaincinv n alpha j x HB Hn HF Ha Hj Fx Vx Sx) as (r' & report' & lo & hi & HE & Hr & F1 & F2 & H1 & H2 & _).
    rewrite HE in HI. injection HI as -> _. destruct Hr as [-> | ->]; split; try assumption; lra.
  - rewrite (inverse_fails L E betaincinv n alpha HB Hn HF Ha) in HI; [discriminate|].
    intros j x Hj Fx Vx Sx. apply HN. exists j, x. auto.
Qed.

(** The saved list: one entry for each sample size, in order. *)
Lemma thresholds_saved {N : num} (E : env N) betaincinv (alpha : car N) : forall n_range l, alpha_level_thresholds E betaincinv alpha n_range = Value l ->
  map fst l = n_range /\ Forall (fun e => exists report, inverse_Mn_plus E betaincinv (fst e) alpha = Value (snd e, report)) l.
Proof.
  induction n_range as [|n n_range IH]; intros l; cbn [alpha_level_thresholds].
  - intros H. injection H as <-. split; constructor.
  - destruct (inverse_Mn_plus E betaincinv n alpha) as [[t report]| | |] eqn:EI; cbn [sbind]; try discriminate.
    destruct (alpha_level_thresholds E betaincinv alpha n_range) as [l'| | |]; cbn [sbind]; try discriminate.
    intros H. injection H as <-. destruct (IH l' eq_refl) as (H1 & H2). cbn [map fst snd]. split; [f_equal; exact H1|].
    constructor; [exists report; exact EI|exact H2].
Qed.

Theorem pipeline_64 (L : libm) (M : libml) (E : env (Bnum L)) (betaincinv : Z -> Z -> f64 -> f64) :
  libm_accurate L (bpow radix2 (-52)) -> fft_accurate E (bpow radix2 (-47)) -> fft_lengths E -> sort_ok E ->
  libml_accurate M (bpow radix2 (-63)) -> libml_special M -> long_dbl E = x87 L M ->
  forall (elapsed : nat -> algorithm -> nat -> Z) (max_ks max_mns : Z) (num_reps : nat) (alpha : f64) (n_range : list nat) (l : list (nat * f64)),
  n_range <> [] -> (1 <= num_reps)%nat -> Forall (fun n => (2 <= n <= 1000)%nat /\ bounds_accepted L betaincinv n) n_range ->
  @alpha_level_thresholds (Bnum L) E betaincinv alpha n_range = Value l ->
  exists c, @timings_Mn_plus (Bnum L) E betaincinv elapsed max_ks max_mns num_reps (List.length n_range) l = Value (Some c) /\
  forall j n, nth_error n_range j = Some n -> exists (t : f64) report p, @inverse_Mn_plus (Bnum L) E betaincinv n alpha = Value (t, report) /\
   is_prob n (noncrossing_b (map B2R (@Mn_plus_bounds (Bnum L) betaincinv n t))) p /\
   forall a,
    (measured max_ks max_mns a n -> exists s, nth_error (results (column_of a c)) j = Some (Some s) /\ reported a p s) /\
    (~ measured max_ks max_mns a n -> nth_error (results (column_of a c)) j = Some None).
Proof.
  intros HL HF HFL HS HM HMS HLD elapsed max_ks max_mns num_reps alpha n_range l Hne Hr HA HT.
  destruct (thresholds_saved E betaincinv alpha n_range l HT) as (Hfst & HI).
  assert (HE : Forall (fun e : nat * f64 => (2 <= fst e <= 1000)%nat /\ bounds_accepted L betaincinv (fst e) /\ is_finite (snd e) = true /\ 0 < B2R (snd e) <= 1) l).
  { rewrite Forall_forall in HI, HA |- *. intros [n t] Hin. destruct (HI (n, t) Hin) as (report & Hrep). cbn [fst snd] in *.
    destruct (HA n) as (Hn & HB); [rewrite <- Hfst; exact (in_map fst l (n, t) Hin)|]. split; [exact Hn|]. split; [exact HB|].
    apply (inverse_range L E betaincinv n alpha t report HB); auto; [unfold INT_MAX; lia|lia]. }
  assert (Hl : l <> []) by (intros ->; apply Hne; symmetry; exact Hfst).
  assert (HLl : List.length n_range = List.length l) by (rewrite <- Hfst; apply map_length).
  destruct (bench_64 L M E betaincinv HL HF HS HM HMS HLD elapsed max_ks max_mns num_reps (List.length l) l Hl (Nat.le_refl _) Hr HE) as (c & Hc & _ & HR).
  exists c. split; [rewrite HLl; exact Hc|]. intros j n Hj. rewrite <- Hfst, nth_error_map in Hj. change (option_map (@fst nat f64) (@nth_error (nat * f64) l j) = Some n) in Hj.
  destruct (nth_error l j) as [[n' t]|] eqn:Ej; cbn [option_map fst] in Hj; [|discriminate]. injection Hj as <-.
  rewrite Forall_forall in HI. destruct (HI (n', t) (nth_error_In _ _ Ej)) as (report & Hrep). cbn [fst snd] in Hrep.
  destruct (HR j n' t Ej) as (p & Hp & HQ). exists t, report, p. split; [exact Hrep|]. split; [exact Hp|].
  intros a. destruct (HQ a) as (Q1 & Q2). split; [intros Hm; exact (proj1 (Q1 Hm))|intros Hm; exact (proj1 (Q2 Hm))].
Qed.

(** ** All reported numbers are close to the level *)
Lemma level_of_bounds (L : libm) (E : env (Bnum L)) (betaincinv : Z -> Z -> f64 -> f64) (n : nat) (alpha t : f64) report delta p :
  libm_accurate L (bpow radix2 (-52)) -> fft_accurate E (bpow radix2 (-47)) -> fft_lengths E ->
  (2 <= n <= 1000)%nat -> bounds_accepted L betaincinv n -> betaincinv_accurate betaincinv n delta -> 0 <= delta <= 1 / 10 ^ 11 ->
  is_finite alpha = true -> 2 / 10000 <= B2R alpha <= 1 ->
  @inverse_Mn_plus (Bnum L) E betaincinv n alpha = Value (t, report) ->
  is_prob n (noncrossing_b (map B2R (@Mn_plus_bounds (Bnum L) betaincinv n t))) p -> Rabs (1 - p - B2R alpha) <= 4 / 10000.
Proof.
  intros HL HF HFL Hn HB HD Hd Fa Va HI Hp.
  destruct (inverse_level_1000 L E betaincinv n alpha delta HB ltac:(lia) ltac:(lia) HD Hd HL HF HFL Fa Va) as (r & report' & q & HI' & Fr & Vr & Hq & Aq).
  rewrite HI in HI'. injection HI' as <- _.
  pose proof (bounds_length (N := Bnum L) betaincinv n t) as HLn.
  assert (HA : forall x : f64, is_finite x = true -> 0 < B2R x <= 1 -> exists p r, is_prob n (noncrossing_b (map B2R (@Mn_plus_bounds (Bnum L) betaincinv n x))) p /\
    @ecdf1_new_b (Bnum L) E (@Mn_plus_bounds (Bnum L) betaincinv n x) = Ok r /\ is_finite (r : f64) = true /\ Rabs (B2R (r : f64) - p) <= 1 / 10000).
  { intros x Fx Hx. pose proof (bounds_length (N := Bnum L) betaincinv n x) as HLx.
    destruct (new_b_accurate_1000 L E (@Mn_plus_bounds (Bnum L) betaincinv n x) HL HF (HB x Fx Hx)) as (p' & r' & P' & R').
    - split; [exact (eq_ind_r (fun m => (1 <= m)%nat) (Nat.le_trans 1 2 n ltac:(lia) (proj1 Hn)) HLx)|exact (eq_ind_r (fun m => (m <= 1000)%nat) (proj2 Hn) HLx)].
    - intros _. exact (eq_ind_r (fun m => (2 <= m)%nat) (proj1 Hn) HLx).
    - exists p', r'. split; [exact (eq_ind _ (fun m => is_prob m _ p') P' _ HLx)|exact R']. }
  destruct (distribution_level L E betaincinv n (1 / 10000) delta t ltac:(lia) HB HD ltac:(lra) HA ltac:(lra) Fr Vr) as (q' & d & Hq' & Ed & Fd & Ad).
  rewrite (is_prob_unique _ _ _ _ Hq' Hq) in Ad.
  destruct (HA t Fr Vr) as (p' & r' & P' & R' & F' & A'). rewrite (is_prob_unique _ _ _ _ P' Hp) in A'.
  unfold Mn_plus_distribution in Ed. rewrite R' in Ed. cbn [call py_call sbind] in Ed. injection Ed as <-.
  destruct (complement r' p (1 / 10000) F' (is_prob_range _ _ _ Hp) ltac:(lra) A') as (_ & C2).
  change (Rabs (B2R (Bminus mode_NE (b64_of_Z 1) r') - q) <= 1 / 10000 + INR n * (INR n * delta) + bpow radix2 (-51)) in Ad.
  pose proof small51 as S51.
  assert (HNN : INR n * (INR n * delta) <= 1000 * (1000 * (1 / 10 ^ 11))).
  { assert (H2 : 0 <= INR n <= 1000) by (split; [apply pos_INR|]; destruct Hn as (_ & Hn); apply le_INR in Hn; replace (INR 1000) with 1000 in Hn; [exact Hn|rewrite INR_IZR_INZ; reflexivity]).
    repeat (apply Rmult_le_compat; try lra). apply Rmult_le_pos; lra. }
  apply Rabs_le_inv in Ad, C2, Aq. apply Rabs_le. lra.
Qed.

Theorem pipeline_level (L : libm) (M : libml) (E : env (Bnum L)) (betaincinv : Z -> Z -> f64 -> f64) :
  libm_accurate L (bpow radix2 (-52)) -> fft_accurate E (bpow radix2 (-47)) -> fft_lengths E -> sort_ok E ->
  libml_accurate M (bpow radix2 (-63)) -> libml_special M -> long_dbl E = x87 L M ->
  forall (elapsed : nat -> algorithm -> nat -> Z) (max_ks max_mns : Z) (num_reps : nat) (alpha : f64) (n_range : list nat) (delta : R),
  n_range <> [] -> (1 <= num_reps)%nat -> 0 <= delta <= 1 / 10 ^ 11 -> is_finite alpha = true -> 2 / 10000 <= B2R alpha <= 1 ->
  Forall (fun n => (2 <= n <= 1000)%nat /\ bounds_accepted L betaincinv n /\ betaincinv_accurate betaincinv n delta) n_range ->
  exists l c, @alpha_level_thresholds (Bnum L) E betaincinv alpha n_range = Value l /\
  @timings_Mn_plus (Bnum L) E betaincinv elapsed max_ks max_mns num_reps (List.length n_range) l = Value (Some c) /\
  forall a j n, nth_error n_range j = Some n ->
    (measured max_ks max_mns a n -> exists s : f64, nth_error (results (column_of a c)) j = Some (Some s) /\
      (is_finite s = true /\ Rabs (B2R s - B2R alpha) <= 1 / 1000 \/ a = MNS2016 /\ s = B754_nan /\ 1 - 1 / 1000 <= B2R alpha)) /\
    (~ measured max_ks max_mns a n -> nth_error (results (column_of a c)) j = Some None).
Proof.
  intros HL HF HFL HS HM HMS HLD elapsed max_ks max_mns num_reps alpha n_range delta Hne Hr Hd Fa Va HA.
  assert (HT : exists l, @alpha_level_thresholds (Bnum L) E betaincinv alpha n_range = Value l).
  { clear Hne. induction n_range as [|n n_range IH]; [exists []; reflexivity|]. inversion HA as [|? ? (H1 & H2 & H3) HA' E1]; subst.
    destruct (IH HA') as (l & Hl).
    destruct (inverse_level_1000 L E betaincinv n alpha delta H2 ltac:(lia) ltac:(lia) H3 Hd HL HF HFL Fa Va) as (t & report & q & HI & _).
    exists ((n, t) :: l). cbn [alpha_level_thresholds]. rewrite HI. cbn [sbind]. rewrite Hl. reflexivity. }
  destruct HT as (l & Hl).
  assert (HA' : Forall (fun n => (2 <= n <= 1000)%nat /\ bounds_accepted L betaincinv n) n_range) by (eapply Forall_impl; [|exact HA]; intros n (H1 & H2 & _); auto).
  destruct (pipeline_64 L M E betaincinv HL HF HFL HS HM HMS HLD elapsed max_ks max_mns num_reps alpha n_range l Hne Hr HA' Hl) as (c & Hc & HR).
  exists l, c. split; [exact Hl|]. split; [exact Hc|]. intros a j n Hj. destruct (HR j n Hj) as (t & report & p & HI & Hp & HQ).
  rewrite Forall_forall in HA. destruct (HA n (nth_error_In _ _ Hj)) as (H1 & H2 & H3).
  pose proof (level_of_bounds L E betaincinv n alpha t report delta p HL HF HFL H1 H2 H3 Hd Fa Va HI Hp) as HP. apply Rabs_le_inv in HP.
  destruct (HQ a) as (Q1 & Q2). split; [|exact Q2]. intros Hm. destruct (Q1 Hm) as (s & Hs & Rs). exists s. split; [exact Hs|].
  destruct a; cbn [reported] in Rs; [left|destruct Rs as [(-> & Rs)|Rs]; [right; split; [reflexivity|]; split; [reflexivity|lra]|left]|left|left];
    destruct Rs as (Fs & Rs); (split; [exact Fs|]); apply Rabs_le_inv in Rs; apply Rabs_le; lra.
Qed.

(** ** A case: the threshold of level 1/2 for 50 points *)
Lemma case_pipeline : fft_lengths (cr80_env true) /\ is_finite f_half = true /\ 2 / 10000 <= B2R f_half <= 1 /\ 0 <= bpow radix2 (-52) <= 1 / 10 ^ 11 /\
  Forall (fun n => (2 <= n <= 1000)%nat /\ bounds_accepted cr_libm betaincinv_cr n /\ betaincinv_accurate betaincinv_cr n (bpow radix2 (-52))) [50%nat; 1000%nat].
Proof.
  split; [exact (cr_lengths true)|]. split; [reflexivity|]. split; [rewrite v_half; lra|].
  split; [pose proof (bpow_gt_0 radix2 (-52)); change (bpow radix2 (-52)) with (/ IZR (2 ^ 52)) in *; simpl in *; lra|].
  apply Forall_cons; [|apply Forall_cons; [|apply Forall_nil]]; (split; [lia|]); (split; [apply bounds_cr_accepted|apply betaincinv_cr_accurate]).
Qed.
