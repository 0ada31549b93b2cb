(** * AccMnsMain: the statements of PropsAccuracyMns with their bounds written out. *)
From Coquelicot Require Import Coquelicot.
From Flocq Require Import Core.Core IEEE754.BinarySingleNaN.
From Coq Require Import ZArith Reals List Bool Lia Lra String.
From Verif Require Import Base Num Binary64 Binary64Facts Binary64Cases B64Round AccCases LongDouble LdRound Ecdf1Mns AccMnsEval AccMns AccMnsCase MnsNan Spec.
Import List. Import ListNotations.
Local Open Scope R_scope.

Section Up.
Context (L : libm) (M : libml) (E : env (Bnum L)).
Hypothesis HM : libml_accurate M (bpow radix2 (-63)).
Hypothesis HS : libml_special M.
Hypothesis HLD : long_dbl E = x87 L M.

Lemma N_bound (v : list f64) : (List.length v <= 1000)%nat ->
  0 <= INR (List.length v) * INR (List.length v) <= 1000000 /\
  0 <= INR (S (List.length v)) * INR (S (List.length v)) <= 1002001 /\ 0 <= INR (S (List.length v)) <= 1001.
Proof.
  intros H. assert (H0 : 0 <= INR (List.length v) <= 1000).
  { split; [apply pos_INR|]. replace 1000 with (INR 1000) by (rewrite INR_IZR_INZ; reflexivity). apply le_INR. lia. }
  assert (H1 : 0 <= INR (S (List.length v)) <= 1001) by (rewrite S_INR; lra).
  split; [|split; [|exact H1]]; split; try (apply Rmult_le_pos; lra).
  - replace 1000000 with (1000 * 1000) by ring. apply Rmult_le_compat; lra.
  - replace 1002001 with (1001 * 1001) by ring. apply Rmult_le_compat; lra.
Qed.
Lemma e63 : u80 <= bpow radix2 (-63) /\ bpow radix2 (-63) <= bpow radix2 (-40).
Proof. split; [change u80 with (bpow radix2 (-64))|]; apply bpow_le; lia. Qed.

Lemma bounds_1000 (v : list f64) : (List.length v <= 1000)%nat ->
  err_bound (bpow radix2 (-63)) v <= 1 / 100000000000 /\ mns_bound (bpow radix2 (-63)) v <= 1 / 100000000000 /\
  INR (List.length v) * INR (List.length v) * u64 <= 2 / 10000000000.
Proof.
  intros H. destruct (N_bound v H) as (H0 & H1 & H2). unfold err_bound, mns_bound.
  change (bpow radix2 (-63)) with (/ 9223372036854775808). change (bpow radix2 (-52)) with (/ 4503599627370496).
  change u64 with (/ 9007199254740992). lra.
Qed.

Lemma mns_b_1000 (b : list f64) : accepted64 b -> (List.length b <= 1000)%nat ->
  exists p r, is_prob (List.length b) (noncrossing_b (map B2R b)) p /\ @ecdf1_mns2016_b (Bnum L) E b = Ok r /\
  ((r : f64) = B754_nan /\ p <= 1 / 100000000000 \/
   is_finite (r : f64) = true /\ Rabs (B2R (r : f64) - p) <= 1 / 100000000000).
Proof.
  intros Hb Hn. destruct e63 as [E1 E2]. destruct (bounds_1000 b Hn) as (B1 & B2 & B3).
  destruct (mns_b_nan_or_accurate L M _ E HM E1 E2 HLD b Hb ltac:(lia) HS) as (p & r & Hp & Hr & H).
  exists p, r. split; [exact Hp|]. split; [exact Hr|]. destruct H as [[-> H]|[F H]]; [left|right]; split; auto; lra.
Qed.
Lemma mns_B_1000 (B : list f64) : accepted64 B -> (List.length B <= 1000)%nat ->
  exists p r, is_prob (List.length B) (noncrossing_B (map B2R B)) p /\ @ecdf1_mns2016_B (Bnum L) E B = Ok r /\
  ((r : f64) = B754_nan /\ p <= 1 / 1000000000 \/
   is_finite (r : f64) = true /\ Rabs (B2R (r : f64) - p) <= 1 / 1000000000).
Proof.
  intros Hb Hn. destruct e63 as [E1 E2]. destruct (bounds_1000 B Hn) as (B1 & B2 & B3).
  destruct (mns_B_nan_or_accurate L M _ E HM E1 E2 HLD B HS Hb ltac:(lia)) as (p & r & Hp & Hr & H).
  exists p, r. split; [exact Hp|]. split; [exact Hr|]. destruct H as [[-> H]|[F H]]; [left|right]; split; auto; lra.
Qed.
End Up.

Lemma mns_number_refuted : exists (L : libm) (M : libml) (E : env (Bnum L)) (b : list f64) (p : R),
  libml_accurate M (bpow radix2 (-64)) /\ libml_special M /\ powl_correct M /\ long_dbl E = x87 L M /\ accepted64 b /\
  is_prob (List.length b) (noncrossing_b (map B2R b)) p /\ 0 < p /\
  @ecdf1_mns2016_b (Bnum L) E b = Ok (B754_nan : f64).
Proof.
  destruct (mns_nan_positive cr_libm (cr80_env true) cr_libml cr80_pow cr80_special eq_refl) as (b & p & H).
  exists cr_libm, cr_libml, (cr80_env true), b, p.
  split; [exact cr80_accurate|]. split; [exact cr80_special|]. split; [exact cr80_pow|]. split; [reflexivity|exact H].
Qed.
