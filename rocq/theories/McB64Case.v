(** * McB64Case: numbers for up to 1000 points, and a concrete run. *)
From Coquelicot Require Import Coquelicot.
From Flocq Require Import Core.Core IEEE754.BinarySingleNaN.
From Coq Require Import ZArith Reals List Bool Lia Lra Sorted.
From Verif Require Import Base Num Binary64 Binary64Facts XReal Hoare TinyMT MonteCarlo Spec McSpec McProbSpec McFacts McLoop McMore McEstimate McProbCases.
From Verif Require Import AccPmf AccCases TinyMTFacts TinyMTBinary64 ExactEnv Cases McB64Spec McB64 McB64Est BjCase Binary64Cases.
From Verif Require Import B64Round.
Import List. Import ListNotations.
Local Open Scope R_scope.

Lemma sample_error_1000 n : (n <= 1000)%nat ->
  INR (S n) <= 2 ^ 40 /\ bpow radix2 (-52) + 2 * INR (S n) * u64 <= / 8 /\
  0 <= sample_error (bpow radix2 (-52)) n <= 7 / 10 ^ 13 /\ 2 * INR n ^ 2 * sample_error (bpow radix2 (-52)) n <= 14 / 10 ^ 7.
Proof.
  intros Hn. pose proof (le_INR _ _ Hn) as H. change (INR 1000) with (INR (10 * 100)) in H. rewrite mult_INR in H.
  rewrite S_INR. assert (H' : INR n <= 1000).
  { replace 1000 with (INR 10 * INR 100); [exact H|]. rewrite !INR_IZR_INZ. simpl Z.of_nat. lra. }
  pose proof (pos_INR n) as P. unfold sample_error, u64. rewrite S_INR.
  change (bpow radix2 (-52)) with (/ IZR 4503599627370496). change (bpow radix2 (-53)) with (/ IZR 9007199254740992).
  assert (A : INR n * / 9007199254740992 <= 1000 * / 9007199254740992) by (apply Rmult_le_compat_r; lra).
  assert (A0 : 0 <= INR n * / 9007199254740992) by (apply Rmult_le_pos; lra).
  assert (S : INR n ^ 2 <= 1000000).
  { replace 1000000 with (1000 ^ 2) by ring. apply pow_incr. lra. }
  assert (S0 : 0 <= INR n ^ 2) by (apply pow_le; exact P).
  split; [lra|]. split; [lra|]. set (s := 3 * _) in *.
  assert (Hs : 0 <= s <= 7 / 10 ^ 13) by (unfold s; lra). split; [exact Hs|].
  apply Rle_trans with (2 * 1000000 * (7 / 10 ^ 13)); [|lra]. apply Rmult_le_compat; lra.
Qed.

Lemma case_run64 : exists (us : list R) (cs : list bool) (q : f64) r1, length us = (2 * 3)%nat /\ Forall (fun u => 0 < u < 1) us /\
  draws (N := Xnum some_frexp) (rng_make case_uninit (0 + Z.of_nat 2 * 2 ^ 20)) (map Fin us) r1 /\ length cs = 2%nat /\
  sandwiched 3 (ecdf_inside (raised (sample_error (bpow radix2 (-52)) 2) [1/2; 1/2]) []) (ecdf_inside (lowered (sample_error (bpow radix2 (-52)) 2) [1/2; 1/2]) []) cs us /\
  ecdf_crossing_probability_montecarlo (N := Bnum cr_libm) 2 case_uninit 0 2 [f_half; f_half] [] 2 = Ok q /\
  Rabs (B2R q - IZR (crossings cs) / 2) <= bpow radix2 (-52).
Proof.
  destruct case_program as (us & r1 & Lu & Fu & Du).
  pose proof v_half as VH.
  assert (Fh : is_finite f_half = true) by reflexivity.
  destruct (sample_error_1000 2 ltac:(lia)) as (S1 & S2 & S3 & _).
  assert (Ue : u64 <= bpow radix2 (-52)) by (apply bpow_le; lia).
  assert (W1 : word 32 (mat1 case_uninit)) by (vm_compute; split; congruence).
  assert (W2 : word 32 (mat2 case_uninit)) by (vm_compute; split; congruence).
  assert (W3 : word 64 (tmat case_uninit)) by (vm_compute; split; congruence).
  assert (FF : Forall (fun x : f64 => is_finite x = true) [f_half; f_half]) by (repeat constructor).
  assert (HI : (Z.of_nat 2 <= INT_MAX)%Z) by (unfold INT_MAX; lia).
  destruct (estimate_program64 cr_libm (bpow radix2 (-52)) (libm_accurate_weaken _ _ _ Ue cr_accurate)
    ltac:(split; [apply bpow_ge_0|pose proof (bpow_ge_0 radix2 (-52)); pose proof u64_pos; pose proof (pos_INR 3); assert (0 <= INR 3 * u64) by (apply Rmult_le_pos; lra); lra])
    (frexp := some_frexp) [f_half; f_half] [] us 2 2 case_uninit 0 r1) as (cs & Lc & HS & q & Fq & Eq & Hq); auto.
  exists us, cs, q, r1. repeat (split; [assumption|]). split; [|split].
    + unfold inner, outer in HS. cbn [map] in HS. rewrite VH in HS. exact HS.
    + apply Hq. lia.
    + change (INR 2) with 2 in Eq. exact Eq.
Qed.
