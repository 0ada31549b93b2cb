(** * AgreeB64: the algorithms agree, and react to their input as they should, up to rounding errors. *)
From Coquelicot Require Import Coquelicot.
From Flocq Require Import Core.Core IEEE754.BinarySingleNaN.
From Coq Require Import ZArith Reals List Bool Lia Lra String Permutation Sorted.
From Verif Require Import Base Num Ecdf2 Ecdf1New Ecdf1Mns Binary64 LongDouble Spec SpecFacts ProbFacts ProbLipschitz ExactFacts Reflect.
From Verif Require Import XEcdf2 XEcdf2Main Binary64Facts Binary64Main Binary64Cases B64Round AccPmf AccFft AccMain AccCases AccNewMain AccNewFinal AccMns AccMnsMain.
From Verif Require Import Base Num Binary64 Binary64Facts Binary64Cases B64Round AccCases LongDouble LdRound Ecdf1Mns AccMnsEval AccMns AccMnsCase MnsNan Spec.
From Verif Require Import AccMnsMain BjCase.
Import List. Import ListNotations.
Local Open Scope R_scope.

Definition one64 : f64 := b64_of_Z 1.
Definition zero64 : f64 := b64_of_Z 0.

Section Agree.
Context (L : libm) (E : env (Bnum L)).
Hypothesis HL : libm_accurate L (bpow radix2 (-52)).
Hypothesis HF : fft_accurate E (bpow radix2 (-47)).
Hypothesis HS : sort_ok E.

Lemma ecdf2_1000 b B use_fft : accepted64 b -> accepted64 B -> List.length b = List.length B -> (List.length b <= 1000)%nat ->
  (asserts E = true -> forall i, (S i < List.length b)%nat -> nth i (map B2R b) 0 <= nth (S i) (map B2R B) 0) ->
  exists p r, is_noncrossing_probability (map B2R b) (map B2R B) p /\ @ecdf2 (Bnum L) E b B use_fft = Ok r /\
    is_finite (r : f64) = true /\ Rabs (B2R (r : f64) - p) <= 1 / 10000.
Proof using HL HF HS.
  intros Hb HB Lb Hn HA. destruct use_fft.
  - apply ecdf2_fft_accurate_1000; auto; lia.
  - destruct (ecdf2_accurate_1000 L E b B) as (q & r & Hq & Hr & Fr & Er); auto; try lia.
    exists q, r. split; auto. split; auto. split; auto. eapply Rle_trans; [exact Er|].
    pose proof (is_prob_range _ _ _ (proj2 Hq)) as Rq.
    assert (bpow radix2 (-1000) <= bpow radix2 (-20)) by (apply bpow_le; lia).
    assert (bpow radix2 (-20) <= 1 / 1000000) by (change (bpow radix2 (-20)) with (/ 1048576); lra). lra.
Qed.

End Agree.

Lemma map_rep {A C} (f : A -> C) x n : map f (repeat x n) = repeat (f x) n.
Proof. induction n; simpl; congruence. Qed.
Lemma one_ok : is_finite one64 = true /\ B2R one64 = 1. Proof. apply (of_Z_ok 1). lia. Qed.
Lemma zero_ok : is_finite zero64 = true /\ B2R zero64 = 0. Proof. apply (of_Z_ok 0). lia. Qed.

Definition close_or_nan (d : R) (r s : f64) : Prop :=
  is_finite r = true /\ (s = B754_nan /\ B2R r <= d \/ is_finite s = true /\ Rabs (B2R r - B2R s) <= d).

Section Agree2.
Context (L : libm) (M : libml) (E : env (Bnum L)).
Hypothesis HL : libm_accurate L (bpow radix2 (-52)).
Hypothesis HF : fft_accurate E (bpow radix2 (-47)).
Hypothesis HS : sort_ok E.
Hypothesis HM : libml_accurate M (bpow radix2 (-63)).
Hypothesis HMS : libml_special M.
Hypothesis HLD : long_dbl E = x87 L M.

Theorem agree_b64 (b : list f64) : accepted64 b -> (2 <= List.length b <= 1000)%nat ->
  exists r1 r2 r3 r4 : f64, @ecdf2 (Bnum L) E b (repeat one64 (List.length b)) false = Ok r1 /\
    @ecdf2 (Bnum L) E b (repeat one64 (List.length b)) true = Ok r2 /\
    @ecdf1_new_b (Bnum L) E b = Ok r3 /\ @ecdf1_mns2016_b (Bnum L) E b = Ok r4 /\
    close_or_nan (2 / 10000) r1 r2 /\ close_or_nan (2 / 10000) r1 r3 /\ close_or_nan (2 / 10000) r2 r3 /\
    is_finite r2 = true /\ is_finite r3 = true /\
    close_or_nan (2 / 10000) r1 r4 /\ close_or_nan (2 / 10000) r2 r4 /\ close_or_nan (2 / 10000) r3 r4.
Proof using HL HF HS HM HMS HLD.
  intros Hb Hn. set (n := List.length b) in *. destruct one_ok as (F1 & V1).
  assert (HB : accepted64 (repeat one64 n)) by (apply repeat_accepted; [exact F1|rewrite V1; lra]).
  assert (LB : List.length b = List.length (repeat one64 n)) by (rewrite repeat_length; reflexivity).
  assert (HA : asserts E = true -> forall i, (S i < List.length b)%nat -> nth i (map B2R b) 0 <= nth (S i) (map B2R (repeat one64 n)) 0).
  { intros _ i Hi. rewrite map_rep, V1. rewrite (nth_indep (repeat 1 n) 0 1) by (rewrite repeat_length; exact Hi). rewrite nth_repeat.
    destruct Hb as (_ & _ & Hb). rewrite Forall_forall in Hb. apply Hb, nth_In. rewrite map_length. first [exact (Nat.lt_trans _ _ _ (Nat.lt_succ_diag_r i) Hi)|exact Hi]. }
  destruct (ecdf2_1000 L E HL HF HS b (repeat one64 n) false Hb HB LB ltac:(lia) HA) as (p1 & r1 & P1 & R1 & G1 & D1).
  destruct (ecdf2_1000 L E HL HF HS b (repeat one64 n) true Hb HB LB ltac:(lia) HA) as (p2 & r2 & P2 & R2 & G2 & D2).
  destruct (new_b_accurate_1000 L E b HL HF Hb ltac:(lia) ltac:(lia)) as (p3 & r3 & P3 & R3 & G3 & D3).
  destruct (mns_b_1000 L M E HM HMS HLD b Hb ltac:(lia)) as (p4 & r4 & P4 & R4 & D4).
  rewrite map_rep, V1 in P1, P2.
  assert (P3' : is_noncrossing_probability (map B2R b) (repeat 1 n) p3).
  { replace n with (List.length (map B2R b)) by apply map_length. apply prob_ones. rewrite map_length. exact P3. }
  rewrite (is_prob_unique _ _ _ _ (proj2 P1) (proj2 P3')) in D1. rewrite (is_prob_unique _ _ _ _ (proj2 P2) (proj2 P3')) in D2.
  rewrite (is_prob_unique _ _ _ _ P4 P3) in D4.
  exists r1, r2, r3, r4. repeat (split; [assumption|]).
  apply Rabs_le_inv in D1, D2, D3.
  assert (CL : forall r s : f64, is_finite r = true -> -(1 / 10000) <= B2R r - p3 <= 1 / 10000 -> is_finite s = true -> -(1 / 10000) <= B2R s - p3 <= 1 / 10000 -> close_or_nan (2 / 10000) r s).
  { intros r s H1 H2 H3 H4. split; auto. right. split; auto. apply Rabs_le. lra. }
  assert (CN : forall r : f64, is_finite r = true -> -(1 / 10000) <= B2R r - p3 <= 1 / 10000 -> close_or_nan (2 / 10000) r r4).
  { intros r H1 H2. split; auto. destruct D4 as [[-> H]|[H3 H4]]; [left|right]; split; auto; [lra|]. apply Rabs_le_inv in H4. apply Rabs_le. lra. }
  do 3 (split; [apply CL; assumption|]). do 2 (split; [assumption|]). do 2 (split; [apply CN; assumption|]). apply CN; assumption.
Qed.

Theorem agree_B64 (B : list f64) : accepted64 B -> (2 <= List.length B <= 1000)%nat ->
  exists r1 r2 r3 r4 : f64, @ecdf2 (Bnum L) E (repeat zero64 (List.length B)) B false = Ok r1 /\
    @ecdf2 (Bnum L) E (repeat zero64 (List.length B)) B true = Ok r2 /\
    @ecdf1_new_B (Bnum L) E B = Ok r3 /\ @ecdf1_mns2016_B (Bnum L) E B = Ok r4 /\
    close_or_nan (2 / 10000) r1 r2 /\ close_or_nan (2 / 10000) r1 r3 /\ close_or_nan (2 / 10000) r2 r3 /\
    is_finite r2 = true /\ is_finite r3 = true /\
    close_or_nan (2 / 10000) r1 r4 /\ close_or_nan (2 / 10000) r2 r4 /\ close_or_nan (2 / 10000) r3 r4.
Proof using HL HF HS HM HMS HLD.
  intros Hb Hn. set (n := List.length B) in *. destruct zero_ok as (F1 & V1).
  assert (HB : accepted64 (repeat zero64 n)) by (apply repeat_accepted; [exact F1|rewrite V1; lra]).
  assert (LB : List.length (repeat zero64 n) = List.length B) by (rewrite repeat_length; reflexivity).
  assert (HA : asserts E = true -> forall i, (S i < List.length (repeat zero64 n))%nat -> nth i (map B2R (repeat zero64 n)) 0 <= nth (S i) (map B2R B) 0).
  { intros _ i Hi. rewrite map_rep, V1. rewrite nth_repeat. rewrite LB in Hi.
    destruct Hb as (_ & _ & Hb). rewrite Forall_forall in Hb. apply Hb, nth_In. rewrite map_length. first [exact (Nat.lt_trans _ _ _ (Nat.lt_succ_diag_r i) Hi)|exact Hi]. }
  destruct (ecdf2_1000 L E HL HF HS (repeat zero64 n) B false HB Hb LB ltac:(lia) HA) as (p1 & r1 & P1 & R1 & G1 & D1).
  destruct (ecdf2_1000 L E HL HF HS (repeat zero64 n) B true HB Hb LB ltac:(lia) HA) as (p2 & r2 & P2 & R2 & G2 & D2).
  destruct (new_B_accurate_1000 L E B HL HF Hb ltac:(lia) ltac:(lia)) as (p3 & r3 & P3 & R3 & G3 & D3).
  destruct (mns_B_1000 L M E HM HMS HLD B Hb ltac:(lia)) as (p4 & r4 & P4 & R4 & D4).
  rewrite map_rep, V1 in P1, P2.
  assert (P3' : is_noncrossing_probability (repeat 0 n) (map B2R B) p3).
  { replace n with (List.length (map B2R B)) by apply map_length. apply prob_zeros. rewrite map_length. exact P3. }
  rewrite (is_prob_unique _ _ _ _ (proj2 P1) (proj2 P3')) in D1. rewrite (is_prob_unique _ _ _ _ (proj2 P2) (proj2 P3')) in D2.
  rewrite (is_prob_unique _ _ _ _ P4 P3) in D4.
  exists r1, r2, r3, r4. repeat (split; [assumption|]).
  apply Rabs_le_inv in D1, D2, D3.
  assert (CL : forall r s : f64, is_finite r = true -> -(1 / 10000) <= B2R r - p3 <= 1 / 10000 -> is_finite s = true -> -(1 / 10000) <= B2R s - p3 <= 1 / 10000 -> close_or_nan (2 / 10000) r s).
  { intros r s H1 H2 H3 H4. split; auto. right. split; auto. apply Rabs_le. lra. }
  assert (CN : forall r : f64, is_finite r = true -> -(1 / 10000) <= B2R r - p3 <= 1 / 10000 -> close_or_nan (2 / 10000) r r4).
  { intros r H1 H2. split; auto. destruct D4 as [[-> H]|[H3 H4]]; [left|right]; split; auto; [lra|]. apply Rabs_le_inv in H4. apply Rabs_le. lra. }
  do 3 (split; [apply CL; assumption|]). do 2 (split; [assumption|]). do 2 (split; [apply CN; assumption|]). apply CN; assumption.
Qed.
End Agree2.

Lemma F2_length (v w : list R) : Forall2 Rle v w -> List.length v = List.length w.
Proof. induction 1; simpl; congruence. Qed.

Section React.
Context (L L' : libm) (E : env (Bnum L)) (E' : env (Bnum L')).
Hypothesis HL : libm_accurate L (bpow radix2 (-52)).
Hypothesis HF : fft_accurate E (bpow radix2 (-47)).
Hypothesis HS : sort_ok E.
Hypothesis HL' : libm_accurate L' (bpow radix2 (-52)).
Hypothesis HF' : fft_accurate E' (bpow radix2 (-47)).
Hypothesis HS' : sort_ok E'.
Notation no_abort E b B := (asserts E = true -> forall i, (S i < List.length b)%nat -> nth i (map B2R b) 0 <= nth (S i) (map B2R B) 0).

Theorem widen64 (b B b' B' : list f64) use_fft use_fft' (r r' : f64) :
  accepted64 b -> accepted64 B -> accepted64 b' -> accepted64 B' ->
  List.length b = List.length B -> List.length b' = List.length B' -> (List.length b <= 1000)%nat ->
  no_abort E b B -> no_abort E' b' B' ->
  Forall2 Rle (map B2R b') (map B2R b) -> Forall2 Rle (map B2R B) (map B2R B') ->
  @ecdf2 (Bnum L) E b B use_fft = Ok r -> @ecdf2 (Bnum L') E' b' B' use_fft' = Ok r' -> B2R r <= B2R r' + 2 / 10000.
Proof using HL HF HS HL' HF' HS'.
  intros Hb HB Hb' HB' Lb Lb' Hn HA HA' W1 W2 R1 R2. pose proof (F2_length _ _ W1) as FL. rewrite !map_length in FL. assert (Hn' : (List.length b' <= 1000)%nat) by (exact (Nat.le_trans _ _ _ (Nat.eq_le_incl _ _ FL) Hn)).
  destruct (ecdf2_1000 L E HL HF HS b B use_fft Hb HB Lb Hn HA) as (p & s & P & Rs & G & D).
  destruct (ecdf2_1000 L' E' HL' HF' HS' b' B' use_fft' Hb' HB' Lb' Hn' HA') as (p' & s' & P' & Rs' & G' & D').
  rewrite R1 in Rs. injection Rs as <-. rewrite R2 in Rs'. injection Rs' as <-.
  pose proof (prob_widen _ _ _ _ _ _ W1 W2 P P'). apply Rabs_le_inv in D, D'. lra.
Qed.

Theorem stable64 (b B b' B' : list f64) use_fft use_fft' (r r' : f64) :
  accepted64 b -> accepted64 B -> accepted64 b' -> accepted64 B' ->
  List.length b = List.length B -> List.length b' = List.length b -> List.length B' = List.length B -> (List.length b <= 1000)%nat ->
  no_abort E b B -> no_abort E' b' B' ->
  @ecdf2 (Bnum L) E b B use_fft = Ok r -> @ecdf2 (Bnum L') E' b' B' use_fft' = Ok r' ->
  Rabs (B2R r - B2R r') <= 2 / 10000 + INR (List.length b) * (distance (map B2R b) (map B2R b') + distance (map B2R B) (map B2R B')).
Proof using HL HF HS HL' HF' HS'.
  intros Hb HB Hb' HB' Lb Lb' LB' Hn HA HA' R1 R2.
  destruct (ecdf2_1000 L E HL HF HS b B use_fft Hb HB Lb Hn HA) as (p & s & P & Rs & G & D).
  destruct (ecdf2_1000 L' E' HL' HF' HS' b' B' use_fft' Hb' HB' (eq_trans Lb' (eq_trans Lb (eq_sym LB'))) (Nat.le_trans _ _ _ (Nat.eq_le_incl _ _ Lb') Hn) HA') as (p' & s' & P' & Rs' & G' & D').
  rewrite R1 in Rs. injection Rs as <-. rewrite R2 in Rs'. injection Rs' as <-.
  assert (C : Rabs (p - p') <= INR (List.length (map B2R b)) * (distance (map B2R b) (map B2R b') + distance (map B2R B) (map B2R B'))).
  { apply prob_close; auto; try apply Hb; try apply HB; try apply Hb'; try apply HB'; rewrite !map_length; auto. }
  assert (LI : INR (List.length (map B2R b)) = INR (List.length b)) by (f_equal; apply map_length). rewrite LI in C. replace (B2R r - B2R r') with ((B2R r - p) - (B2R r' - p') + (p - p')) by ring.
  apply Rabs_le_inv in D, D'. apply Rabs_le_inv in C. apply Rabs_le. lra.
Qed.

Theorem range64 (b B : list f64) use_fft (r : f64) : accepted64 b -> accepted64 B -> List.length b = List.length B -> (List.length b <= 1000)%nat ->
  no_abort E b B -> @ecdf2 (Bnum L) E b B use_fft = Ok r ->
  - (1 / 10000) <= B2R r <= 1 + 1 / 10000 /\
  ((exists i, (i < List.length b)%nat /\ nth i (map B2R B) 0 <= nth i (map B2R b) 0) -> B2R r <= 1 / 10000).
Proof using HL HF HS.
  intros Hb HB Lb Hn HA R1. destruct (ecdf2_1000 L E HL HF HS b B use_fft Hb HB Lb Hn HA) as (p & s & P & Rs & G & D).
  rewrite R1 in Rs. injection Rs as <-. pose proof (is_prob_range _ _ _ (proj2 P)). apply Rabs_le_inv in D. split; [lra|].
  intros (i & Hi & H1). rewrite (prob_touching _ _ _ i ltac:(rewrite map_length; exact Hi) H1 P) in D. lra.
Qed.
End React.

Lemma libml_weaken M e e' : e <= e' -> libml_accurate M e -> libml_accurate M e'.
Proof.
  intros He [H0 H1 H2 H3]. constructor.
  - intros x i Fx Hx Hi. destruct (H0 x i Fx Hx Hi) as (F & H). split; auto. eapply Rle_trans; [exact H|].
    apply Rplus_le_compat_r, Rmult_le_compat_r; [apply pow_le; lra|exact He].
  - intros x Fx Hx. destruct (H1 x Fx Hx) as (F & H). split; auto. eapply Rle_trans; [exact H|]. apply Rmult_le_compat_r; [apply Rabs_pos|exact He].
  - intros m Hm. destruct (H2 m Hm) as (F & H). split; auto. eapply Rle_trans; [exact H|]. apply Rmult_le_compat_r; [|exact He].
    rewrite <- ln_1. pose proof (le_INR 1 _ (Factorial.lt_O_fact (Z.to_nat (m - 1)))) as HF. simpl (INR 1) in HF.
    destruct (Rle_lt_or_eq_dec _ _ HF) as [G|G]; [left; apply ln_increasing; lra|rewrite <- G; apply Rle_refl].
  - intros x Fx Hx. destruct (H3 x Fx Hx) as (F & H). split; auto. eapply Rle_trans; [exact H|].
    apply Rplus_le_compat_r, Rmult_le_compat_r; [left; apply exp_pos|exact He].
Qed.
Lemma agree_case : libm_accurate cr_libm (bpow radix2 (-52)) /\ fft_accurate (cr80_env true) (bpow radix2 (-47)) /\ sort_ok (cr80_env true) /\
  libml_accurate cr_libml (bpow radix2 (-63)) /\ libml_special cr_libml /\ long_dbl (cr80_env true) = x87 cr_libm cr_libml /\
  accepted64 case64_b /\ List.length case64_b = 3%nat /\ accepted64 case200_b /\ List.length case200_b = 200%nat.
Proof.
  split; [eapply libm_accurate_weaken; [|apply cr_accurate]; unfold u64; apply bpow_le; lia|].
  split; [exact (fft_accurate_weaken _ (cr_env true) u64 _ (bpow_le radix2 (-53) (-47) ltac:(lia)) (cr_fft_accurate true))|].
  split; [exact (cr_sort true)|].
  split; [eapply libml_weaken; [|apply cr80_accurate]; apply bpow_le; lia|].
  split; [exact cr80_special|]. split; [reflexivity|].
  split; [exact (proj1 case64_accepted)|]. split; [reflexivity|]. split; apply case200_ok.
Qed.
