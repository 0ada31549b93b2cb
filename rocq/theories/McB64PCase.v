(** * McB64PCase: numbers for up to 1000 boundary points, and a concrete Poisson simulation. *)
From Coquelicot Require Import Coquelicot.
From Flocq Require Import Core.Core IEEE754.BinarySingleNaN.
From Coq Require Import ZArith Reals List Bool Lia Lra Sorted.
From Verif Require Import Base Num Binary64 Binary64Facts XReal Hoare TinyMT MonteCarlo Spec McSpec McProbSpec McFacts McLoop McMore McEstimate McProbCases.
From Verif Require Import AccPmf AccCases TinyMTFacts TinyMTBinary64 ExactEnv Cases McB64Spec McB64 McB64Est McB64Pois BjCase Binary64Cases.
From Verif Require Import B64Round.
Import List. Import ListNotations.
Local Open Scope R_scope.

Lemma walk_error_1000 n : (n <= 1000)%nat ->
  INR (S n) <= 2 ^ 40 /\ walk_error (bpow radix2 (-52)) n <= / 8 /\ 0 <= 2 * walk_error (bpow radix2 (-52)) n <= 5 / 10 ^ 13.
Proof.
  intros Hn. pose proof (le_INR _ _ Hn) as H. change (INR 1000) with (INR (10 * 100)) in H. rewrite mult_INR in H.
  assert (H' : INR n <= 1000).
  { replace 1000 with (INR 10 * INR 100); [exact H|]. rewrite !INR_IZR_INZ. simpl Z.of_nat. lra. }
  pose proof (pos_INR n) as P. unfold walk_error, u64. rewrite S_INR.
  change (bpow radix2 (-52)) with (/ IZR 4503599627370496). change (bpow radix2 (-53)) with (/ IZR 9007199254740992).
  assert (A : INR n * / 9007199254740992 <= 1000 * / 9007199254740992) by (apply Rmult_le_compat_r; lra).
  assert (A0 : 0 <= INR n * / 9007199254740992) by (apply Rmult_le_pos; lra). lra.
Qed.

Definition walk_state : tinymt := mkTinymt 2779006999975128200 9386412867330021195 4194639680 4291887092 6399667842752446396.
Lemma walk_seeded : rng_make case_uninit (587 + 2 * 1000000) = walk_state.
Proof. vm_compute. reflexivity. Qed.
Definition walk_us : list R := [2360603634201801 / IZR (2 ^ 52); 51422689137170 / IZR (2 ^ 52); 4422432572436952 / IZR (2 ^ 52)].
Lemma walk_draws {frexp} : exists r1, draws (N := Xnum frexp) walk_state (map Fin walk_us) r1.
Proof.
  assert (H0 : state_ok walk_state) by (repeat split; vm_compute; congruence).
  assert (V : forall r k, state_ok r -> first_draw r = k ->
    tinymt64_generate_double01 (N := Xnum frexp) r = (Fin (IZR k / IZR (2 ^ 52)), tinymt64_next_state r)).
  { intros r k Hr <-. apply draw_value. exact Hr. }
  eexists. unfold walk_us. cbn [map].
  econstructor; [apply (V _ 2360603634201801%Z H0); vm_compute; reflexivity|].
  econstructor; [apply (V _ 51422689137170%Z (next_ok _ H0)); vm_compute; reflexivity|].
  econstructor; [apply (V _ 4422432572436952%Z (next_ok _ (next_ok _ H0))); vm_compute; reflexivity|]. constructor.
Qed.
Lemma walk_us_in : Forall (fun u => 0 < u < 1) walk_us.
Proof. unfold walk_us. change (2 ^ 52)%Z with 4503599627370496%Z. repeat constructor; lra. Qed.

(** The first jump of that path is between 0.23 and 0.46, the other two come after 1.7. *)
Lemma walk_jumps : exists a b c, 23 / 100 <= a <= 46 / 100 /\ 17 / 10 <= b /\ b <= c /\
  jump_times (map (fun u => / 2 * - ln u) walk_us) = [a; b; c].
Proof.
  pose proof walk_us_in as F. unfold walk_us in *. change (2 ^ 52)%Z with 4503599627370496%Z in *.
  set (u1 := _ / _) in *. set (u2 := 51422689137170 / _) in *. set (u3 := 4422432572436952 / _) in *.
  inversion F as [|? ? F1 F']; subst. inversion F' as [|? ? F2 F'']; subst. inversion F'' as [|? ? F3 _]; subst.
  assert (LE : forall z, 0 < z -> ln z <= z - 1).
  { intros z Hz. pose proof (exp_ineq1_le (ln z)) as H. rewrite exp_ln in H by exact Hz. lra. }
  assert (A1 : 47 / 100 <= - ln u1) by (pose proof (LE u1 ltac:(lra)); unfold u1 in *; lra).
  assert (A2 : - ln u1 <= 91 / 100).
  { rewrite <- ln_Rinv by lra. pose proof (LE (/ u1) ltac:(apply Rinv_0_lt_compat; lra)) as H.
    assert (/ u1 <= 191 / 100); [|lra]. replace (191 / 100) with (/ (100 / 191)) by field. apply Rinv_le; unfold u1; lra. }
  assert (A3 : 3 <= - ln u2).
  { assert (L2 : / 2 <= ln 2). { pose proof (LE (/ 2) ltac:(lra)) as H. rewrite ln_Rinv in H by lra. lra. }
    rewrite <- ln_Rinv by lra. apply Rle_trans with (ln (2 ^ 6)).
    - rewrite ln_pow by lra. rewrite INR_IZR_INZ. simpl Z.of_nat. lra.
    - apply ln_le; [lra|]. replace (2 ^ 6) with (/ / 64) by field. apply Rinv_le; unfold u2; lra. }
  assert (A4 : 0 <= - ln u3) by (pose proof (LE u3 ltac:(lra)); lra).
  exists (/ 2 * - ln u1), (/ 2 * - ln u1 + / 2 * - ln u2), (/ 2 * - ln u1 + / 2 * - ln u2 + / 2 * - ln u3).
  split; [lra|]. split; [lra|]. split; [lra|].
  unfold jump_times, total. cbn [map length seq firstn fold_right]. repeat (f_equal; try ring).
Qed.

Lemma walk_clear : clear_simulations (/ 2) (2 * walk_error (bpow radix2 (-52)) 2) [1/2; 1/2] [] 1 walk_us.
Proof.
  destruct (walk_error_1000 2 ltac:(lia)) as (_ & _ & W). destruct walk_jumps as (a & b & c & Ha & Hb & Hc & E).
  split; [|intros; exact I]. cbn [length firstn]. rewrite E. set (d := 2 * _) in *. assert (Hd : d < / 1000) by lra.
  intros i Hi. cbn [length] in Hi. destruct i as [|[|[|i]]]; [| | |lia]; cbn [nth]; (split; [|split]).
  1: rewrite Rabs_left; lra.
  1: intros; rewrite Rabs_left; lra.
  1: cbn [length]; intros; lia.
  all: try (intros; exfalso; lra); rewrite Rabs_pos_eq; lra.
Qed.

Lemma walk_run64 : exists (q : f64) r1,
  draws (N := Xnum some_frexp) (rng_make case_uninit (587 + 2 * 1000000)) (map Fin walk_us) r1 /\
  poisson_outcomes (/ 2) [1/2; 1/2] [] [true] walk_us /\
  poisson_process_crossing_probability_montecarlo (N := Bnum cr_libm) 1 case_uninit 587 (b64_of_Z 2) [f_half; f_half] [] 1 = Ok q /\
  Rabs (B2R q - 1) <= bpow radix2 (-52).
Proof.
  destruct (walk_draws (frexp := some_frexp)) as (r1 & D). rewrite <- walk_seeded in D.
  pose proof v_half as VH. assert (Fh : is_finite f_half = true) by reflexivity.
  destruct (walk_error_1000 2 ltac:(lia)) as (S1 & S2 & S3).
  assert (Ue : u64 <= bpow radix2 (-52)) by (apply bpow_le; lia).
  assert (W1 : word 32 (mat1 case_uninit)) by (vm_compute; split; congruence).
  assert (W2 : word 32 (mat2 case_uninit)) by (vm_compute; split; congruence).
  assert (W3 : word 64 (tmat case_uninit)) by (vm_compute; split; congruence).
  assert (FF : Forall (fun x : f64 => is_finite x = true) [f_half; f_half]) by (repeat constructor).
  assert (HI : (Z.of_nat 1 <= INT_MAX)%Z) by (unfold INT_MAX; lia).
  assert (E52 : 0 <= bpow radix2 (-52) <= / 16) by (change (bpow radix2 (-52)) with (/ IZR 4503599627370496); lra).
  pose proof walk_us_in as UI.
  assert (C1 : clear_simulations (/ IZR 2) (2 * walk_error (bpow radix2 (-52)) (length [f_half; f_half])) (map B2R [f_half; f_half]) (map B2R (@nil f64)) 1 walk_us).
  { cbn [map length]. rewrite VH. exact walk_clear. }
  destruct (poisson_estimate64 cr_libm (bpow radix2 (-52)) (libm_accurate_weaken _ _ _ Ue cr_accurate) E52
    (frexp := some_frexp) [f_half; f_half] [] walk_us 2 1 case_uninit 587 r1) as (cs & Lc & O & q & Fq & Eq & Hq);
    auto; try lia; try discriminate; try (simpl; lia).
  cbn [map] in O. rewrite VH in O. replace (cs) with [true] in *.
  - exists q, r1. split; [exact D|]. split; [exact O|]. split; [apply Hq; lia|].
    unfold crossings in Eq. simpl in Eq. replace (1 / 1) with 1 in Eq by field. exact Eq.
  - destruct cs as [|c [|]]; try discriminate. destruct c; [reflexivity|]. exfalso. destruct O as ((O & _) & _).
    destruct (O eq_refl) as (k & Hk & Hle & Hgt & St). destruct walk_jumps as (x & y & z & Hx & Hy & Hz & E). rewrite E in *.
    destruct k as [|[|k]].
    + cbn [nth] in Hgt. lra.
    + destruct St as (_ & _ & [St|(_ & St)]); [discriminate|]. specialize (St 0%nat ltac:(simpl; lia)). cbn in St. lra.
    + cbn [firstn] in Hle. inversion Hle as [|? ? _ H2]; subst. inversion H2; subst. lra.
Qed.
