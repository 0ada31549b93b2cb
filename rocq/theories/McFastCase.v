(** * McFastCase: numbers for up to 1000 points, and concrete runs under -ffast-math. *)
From Coquelicot Require Import Coquelicot.
From Flocq Require Import Core.Core IEEE754.BinarySingleNaN.
From Coq Require Import ZArith Reals List Bool Lia Lra Sorted.
From Verif Require Import Base Num Binary64 Binary64Facts XReal Hoare TinyMT MonteCarlo Spec McSpec McProbSpec McFacts McLoop McMore McEstimate McProbCases.
From Verif Require Import AccPmf AccCases TinyMTFacts TinyMTBinary64 ExactEnv Cases McB64Spec McB64 McB64Est BjCase Binary64Cases McB64PCase.
From Verif Require Import FastMath FastInst FastMain McFast McFastEst McFastPois.
From Verif Require Import B64Round.
Import List. Import ListNotations.
Local Open Scope R_scope.

Lemma errors_fast_1000 n : (n <= 1000)%nat ->
  INR (n + 2) <= 2 ^ 40 /\ bpow radix2 (-50) + 3 * INR (n + 2) * u64 <= / 8 /\
  0 <= sample_error_fast (bpow radix2 (-50)) n <= 11 / 10 ^ 13 /\ 2 * INR n ^ 2 * sample_error_fast (bpow radix2 (-50)) n <= 22 / 10 ^ 7 /\
  walk_error_fast (bpow radix2 (-50)) n <= / 8 /\ 0 <= 2 * walk_error_fast (bpow radix2 (-50)) n <= 7 / 10 ^ 13.
Proof.
  intros Hn. pose proof (le_INR _ _ Hn) as H. change (INR 1000) with (INR (10 * 100)) in H. rewrite mult_INR in H.
  assert (H' : INR n <= 1000).
  { replace 1000 with (INR 10 * INR 100); [exact H|]. rewrite !INR_IZR_INZ. simpl Z.of_nat. lra. }
  pose proof (pos_INR n) as P. unfold sample_error_fast, walk_error_fast, jump_error, u64.
  assert (E2 : INR (n + 2) = INR n + 2) by (rewrite plus_INR; simpl; ring). rewrite E2.
  change (bpow radix2 (-50)) with (/ IZR 1125899906842624). change (bpow radix2 (-53)) with (/ IZR 9007199254740992).
  assert (A : INR n * / 9007199254740992 <= 1000 * / 9007199254740992) by (apply Rmult_le_compat_r; lra).
  assert (A0 : 0 <= INR n * / 9007199254740992) by (apply Rmult_le_pos; lra).
  assert (S : INR n ^ 2 <= 1000000).
  { replace 1000000 with (1000 ^ 2) by ring. apply pow_incr. lra. }
  assert (S0 : 0 <= INR n ^ 2) by (apply pow_le; exact P).
  split; [lra|]. split; [lra|]. set (s := 3 * (/ IZR 1125899906842624 + _)) in *.
  assert (Hs : 0 <= s <= 11 / 10 ^ 13) by (unfold s; lra). split; [exact Hs|]. split.
  - apply Rle_trans with (2 * 1000000 * (11 / 10 ^ 13)); [|lra]. apply Rmult_le_compat; lra.
  - split; lra.
Qed.

Lemma half_usual : usual f_half.
Proof.
  split; [reflexivity|]. right. rewrite v_half, Rabs_pos_eq by lra. replace (1 / 2) with (bpow radix2 (-1)) by (simpl; lra). apply bpow_le. lia.
Qed.
Lemma eps50 : 0 <= bpow radix2 (-50) <= / 16.
Proof. change (bpow radix2 (-50)) with (/ IZR 1125899906842624). lra. Qed.

Lemma case_run_fast flush : let C := simd_compiler flush in
  exists (us : list R) (cs : list bool) (q : f64) r1, length us = (2 * 3)%nat /\ Forall (fun u => 0 < u < 1) us /\
  draws (N := Xnum some_frexp) (rng_make case_uninit (0 + Z.of_nat 2 * 2 ^ 20)) (map Fin us) r1 /\ length cs = 2%nat /\
  sandwiched 3 (ecdf_inside (raised (sample_error_fast (bpow radix2 (-50)) 2) [1/2; 1/2]) [])
    (ecdf_inside (lowered (sample_error_fast (bpow radix2 (-50)) 2) [1/2; 1/2]) []) cs us /\
  ecdf_crossing_probability_montecarlo (N := Fnum C cr_libm) 2 case_uninit 0 2 [lit f_half; lit f_half] [] 2 = Ok (lit q) /\
  Rabs (B2R q - IZR (crossings cs) / 2) <= bpow radix2 (-51).
Proof.
  intros C. destruct case_program as (us & r1 & Lu & Fu & Du). pose proof v_half as VH.
  destruct (errors_fast_1000 2 ltac:(lia)) as (S1 & S2 & _).
  assert (W1 : word 32 (mat1 case_uninit)) by (vm_compute; split; congruence).
  assert (W2 : word 32 (mat2 case_uninit)) by (vm_compute; split; congruence).
  assert (W3 : word 64 (tmat case_uninit)) by (vm_compute; split; congruence).
  assert (FF : Forall usual [f_half; f_half]) by (constructor; [apply half_usual|constructor; [apply half_usual|constructor]]).
  assert (HI : (Z.of_nat 2 <= INT_MAX)%Z) by (unfold INT_MAX; lia).
  assert (E8 : 0 <= bpow radix2 (-50) <= / 8) by (pose proof eps50; lra).
  destruct (estimate_program_fast C cr_libm (bpow radix2 (-50)) (cr_fast flush) E8
    (frexp := some_frexp) [f_half; f_half] [] us 2 2 case_uninit 0 r1) as (cs & Lc & HS & q & Fq & Eq & Hq); auto.
  exists us, cs, q, r1. repeat (split; [assumption|]). split; [|split].
    + unfold inner, outer in HS. cbn [map] in HS. rewrite VH in HS. exact HS.
    + apply (Hq 2%nat). lia.
    + change (INR 2) with 2 in Eq. exact Eq.
Qed.

Lemma walk_clear_fast : clear_simulations (/ 2) (2 * walk_error_fast (bpow radix2 (-50)) 2) [1/2; 1/2] [] 1 walk_us.
Proof.
  destruct (errors_fast_1000 2 ltac:(lia)) as (_ & _ & _ & _ & _ & W). destruct walk_jumps as (a & b & c & Ha & Hb & Hc & E).
  split; [|intros; exact I]. cbn [length firstn]. rewrite E. set (d := 2 * _) in *. assert (Hd : d < / 1000) by lra.
  intros i Hi. cbn [length] in Hi. destruct i as [|[|[|i]]]; [| | |lia]; cbn [nth]; (split; [|split]).
  1: rewrite Rabs_left; lra.
  1: intros; rewrite Rabs_left; lra.
  1: cbn [length]; intros; lia.
  all: try (intros; exfalso; lra); rewrite Rabs_pos_eq; lra.
Qed.

Lemma walk_run_fast flush : let C := simd_compiler flush in
  exists (q : f64) r1,
  draws (N := Xnum some_frexp) (rng_make case_uninit (587 + 2 * 1000000)) (map Fin walk_us) r1 /\
  poisson_outcomes (/ 2) [1/2; 1/2] [] [true] walk_us /\
  poisson_process_crossing_probability_montecarlo (N := Fnum C cr_libm) 1 case_uninit 587 (lit (b64_of_Z 2)) [lit f_half; lit f_half] [] 1 = Ok (lit q) /\
  Rabs (B2R q - 1) <= bpow radix2 (-51).
Proof.
  intros C. destruct (walk_draws (frexp := some_frexp)) as (r1 & D). rewrite <- walk_seeded in D.
  pose proof v_half as VH.
  destruct (errors_fast_1000 2 ltac:(lia)) as (S1 & _ & _ & _ & S2 & _).
  assert (W1 : word 32 (mat1 case_uninit)) by (vm_compute; split; congruence).
  assert (W2 : word 32 (mat2 case_uninit)) by (vm_compute; split; congruence).
  assert (W3 : word 64 (tmat case_uninit)) by (vm_compute; split; congruence).
  assert (FF : Forall usual [f_half; f_half]) by (constructor; [apply half_usual|constructor; [apply half_usual|constructor]]).
  assert (HI : (Z.of_nat 1 <= INT_MAX)%Z) by (unfold INT_MAX; lia).
  pose proof walk_us_in as UI.
  assert (C1 : clear_simulations (/ IZR 2) (2 * walk_error_fast (bpow radix2 (-50)) (length [f_half; f_half])) (map B2R [f_half; f_half]) (map B2R (@nil f64)) 1 walk_us).
  { cbn [map length]. rewrite VH. exact walk_clear_fast. }
  destruct (poisson_estimate_fast C cr_libm (bpow radix2 (-50)) (cr_fast flush) eps50
    (frexp := some_frexp) [f_half; f_half] [] walk_us 2 1 case_uninit 587 r1) as (cs & Lc & O & q & Fq & Eq & Hq);
    auto; try lia; try discriminate; try (simpl; lia).
  cbn [map] in O. rewrite VH in O. replace (cs) with [true] in *.
  - exists q, r1. split; [exact D|]. split; [exact O|]. split; [apply (Hq 1%nat); lia|].
    unfold crossings in Eq. simpl in Eq. replace (1 / 1) with 1 in Eq by field. exact Eq.
  - destruct cs as [|c [|]]; try discriminate. destruct c; [reflexivity|]. exfalso. destruct O as ((O & _) & _).
    destruct (O eq_refl) as (k & Hk & Hle & Hgt & St). destruct walk_jumps as (x & y & z & Hx & Hy & Hz & E). rewrite E in *.
    destruct k as [|[|k]].
    + cbn [nth] in Hgt. lra.
    + destruct St as (_ & _ & [St|(_ & St)]); [discriminate|]. specialize (St 0%nat ltac:(simpl; lia)). cbn in St. lra.
    + cbn [firstn] in Hle. inversion Hle as [|? ? _ H2]; subst. inversion H2; subst. lra.
Qed.
