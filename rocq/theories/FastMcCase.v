(** * FastMcCase: crossprob_mc as compiled with -ffast-math on the file "0.1, 0.3". *)
From Coquelicot Require Import Coquelicot.
From Flocq Require Import Core.Core IEEE754.BinarySingleNaN.
From Coq Require Import ZArith Reals List Bool Lia Lra String Permutation Sorted.
From Verif Require Import Base Num XReal TinyMT StringUtils MonteCarlo Cli Hoare Spec SpecFacts StringSpec StringFacts CliSpec CliFacts McSpec McProbSpec McLoop McMore McEstimate McProbCases LineFacts.
From Verif Require Import StrtodSpec Binary64 Binary64Facts B64Round AccPmf AccCli AccCliCase TinyMTFacts ShowSpec ShowFacts ShowMore ShowCli Cases McB64PCase McB64Case.
From Verif Require Import McB64Spec McB64 McB64Est FastMath FastInst FastMain FastFft FastFftMain FastNewLower FastCli McFast McFastEst McFastPois McFastCase FastSuite FastMcCli.
Import List. Import ListNotations.
Local Open Scope R_scope.
Local Open Scope string_scope.

Lemma text_num : nul_free "2" /\ integer_text "2" 2%Z /\ nul_free "1" /\ integer_text "1" 1%Z.
Proof.
  assert (N2 : nul_free "2") by (unfold nul_free, without; repeat constructor; discriminate).
  assert (N1 : nul_free "1") by (unfold nul_free, without; repeat constructor; discriminate).
  split; [exact N2|]. split; [apply (string_to_long_exact "2" 2 N2); reflexivity|]. split; [exact N1|]. apply (string_to_long_exact "1" 1 N1). reflexivity.
Qed.
Lemma case_words : word 32 (mat1 case_uninit) /\ word 32 (mat2 case_uninit) /\ word 64 (tmat case_uninit).
Proof. repeat split; vm_compute; congruence. Qed.

Lemma mc_text_fast (flush : bool) : let E := fast_text_env (simd_compiler flush) show_f64 true in
  let d := sample_error_fast (bpow radix2 (-50)) 2 + bpow radix2 (-53) in
  exists (us : list R) (cs : list bool) w, List.length us = (2 * 3)%nat /\ Forall (fun u => 0 < u < 1) us /\ List.length cs = 2%nat /\
  sandwiched 3 (ecdf_inside (raised d text_b) []) (ecdf_inside (lowered d text_b) []) cs us /\
  prints (mc_main E 2 case_uninit 0 text_fs ["crossprob_mc"; "ecdf"; "b.txt"; "2"]) w /\
  Rabs (w - (1 - IZR (crossings cs) / 2)) <= 5 / 10000000 + bpow radix2 (-50).
Proof.
  intros E d. destruct case_program as (us & r1 & Lu & Fu & Du). destruct (errors_fast_1000 2 ltac:(lia)) as (S1 & S2 & _).
  destruct text_num as (N2 & I2 & _). destruct case_words as (W1 & W2 & W3). pose proof eps50 as E16.
  destruct (mc_ecdf_fast (simd_compiler flush) text_libm E show_f64 (fun _ => eq_refl) show_f64_ok (bpow radix2 (-50)) some_frexp text_fs "crossprob_mc" "b.txt" one_text "2"
    2 case_uninit 0 text_strtod (text_fast flush) eq_refl N2 I2 ltac:(lia) ltac:(unfold INT_MAX; lia) W1 W2 W3 text_b [] us r1) as (cs & Lc & SW & R); auto.
  - lra.
  - exact one_holds.
  - apply text_valid.
  - split; constructor.
  - apply text_plain.
  - simpl. lia.
  - right. simpl. lia.
  - destruct (R 2%nat (le_n 2)) as (w & Hw & Bw & _). exists us, cs, w. repeat (split; [assumption|]). exact Bw.
Qed.

Lemma mc_text_poisson (flush : bool) : let E := fast_text_env (simd_compiler flush) show_f64 true in
  exists w, prints (mc_main E 1 case_uninit 587 text_fs ["crossprob_mc"; "poisson"; "b.txt"; "1"]) w /\ Rabs (w - 1) <= 5 / 10000000 + bpow radix2 (-50).
Proof.
  intros E. destruct (walk_draws (frexp := some_frexp)) as (r1 & D). rewrite <- walk_seeded in D.
  destruct (errors_fast_1000 2 ltac:(lia)) as (S1 & _ & _ & _ & S2 & Wd).
  destruct text_num as (_ & _ & N1 & I1). destruct case_words as (W1 & W2 & W3).
  destruct (file64 text_libm some_frexp text_strtod one_text text_b [] (proj1 text_valid) ltac:(split; constructor) (plain_normal _ (proj1 text_plain)) ltac:(constructor) one_holds)
    as (b6 & B6 & Hh6 & A1 & A2 & E1 & E2).
  assert (HB6 : B6 = []) by (destruct B6; [reflexivity|discriminate]). subst B6.
  assert (L1 : List.length b6 = 2%nat) by (pose proof (f_equal (@List.length R) E1) as HH; rewrite !map_length in HH; exact HH).
  assert (V : exists x y, map B2R b6 = [x; y] /\ 9 / 100 <= x <= 11 / 100 /\ 29 / 100 <= y <= 31 / 100).
  { exists (rnd (1 / 10)), (rnd (3 / 10)). split; [exact E1|].
    pose proof (rnd_near (1 / 10) ltac:(lra) (Forall_inv (plain_normal [1 / 10] (Forall_cons _ (big_plain (1 / 10) ltac:(lra)) (Forall_nil _))))) as H1. pose proof (rnd_near (3 / 10) ltac:(lra) (Forall_inv (plain_normal [3 / 10] (Forall_cons _ (big_plain (3 / 10) ltac:(lra)) (Forall_nil _))))) as H3.
    apply Rabs_le_inv in H1. apply Rabs_le_inv in H3. pose proof u64_small. lra. }
  destruct V as (x & y & V & Hx & Hy).
  assert (HC : clear_simulations (/ IZR (Z.of_nat (List.length b6))) (2 * walk_error_fast (bpow radix2 (-50)) (List.length b6)) (map B2R b6) (map B2R (@nil f64)) 1 walk_us).
  { rewrite L1, V. destruct walk_jumps as (a & b & c & Ha & Hb & Hc & Ej). change (IZR (Z.of_nat 2)) with 2.
    split; [|intros; exact I]. cbn [List.length firstn]. rewrite Ej. set (d := 2 * _) in *. assert (Hd : d < / 1000) by lra.
    intros i Hi. cbn [List.length] in Hi. destruct i as [|[|[|i]]]; [| | |lia]; cbn [nth]; (split; [|split]).
    1: rewrite Rabs_left; lra.
    1: intros; rewrite Rabs_pos_eq; lra.
    1: cbn [map List.length]; intros; lia.
    all: try (intros; exfalso; lra); rewrite Rabs_pos_eq; lra. }
  destruct (mc_poisson_fast (simd_compiler flush) text_libm E show_f64 (fun _ => eq_refl) show_f64_ok (bpow radix2 (-50)) some_frexp text_fs "crossprob_mc" "b.txt" one_text "1"
    1 case_uninit 587 (text_fast flush) eq_refl N1 I1 ltac:(lia) ltac:(unfold INT_MAX; lia) W1 W2 W3 b6 [] walk_us r1) as (cs & Lc & HO & R); auto.
  - exact eps50.
  - destruct b6; discriminate.
  - rewrite L1. simpl. lia.
  - exact (accepted_usual 1 (le_n 1) text_b b6 A1 E1 (proj1 text_plain)).
  - rewrite L1. exact S2.
  - exact walk_us_in.
  - rewrite L1. reflexivity.
  - rewrite L1. exact D.
  - destruct (R 1%nat (le_n 1)) as (w & Hw & Bw). exists w. split; [exact Hw|]. replace (IZR (crossings cs) / INR 1) with 0 in Bw; [rewrite Rminus_0_r in Bw; exact Bw|].
    destruct cs as [|c [|]]; try discriminate. destruct c; [|unfold crossings; simpl; lra]. exfalso. rewrite L1, V in HO.
    destruct HO as ((_ & O) & _). assert (HI : poisson_inside (/ IZR (Z.of_nat 2)) [x; y] [] walk_us); [|discriminate (O HI)].
    destruct walk_jumps as (a & b & c & Ha & Hb & Hc & Ej). change (IZR (Z.of_nat 2)) with 2. unfold poisson_inside. rewrite Ej.
    exists 1%nat. cbn [List.length firstn nth map]. split; [unfold walk_us; simpl; lia|]. split; [apply Forall_cons; [lra|constructor]|]. split; [lra|].
    split; [simpl; lia|]. split; [intros i Hi; simpl in Hi; lia|]. right. split; [simpl; lia|]. intros i Hi. simpl in Hi.
    destruct i; [|lia]. simpl. lra.
Qed.
