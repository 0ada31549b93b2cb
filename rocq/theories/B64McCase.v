(** * B64McCase: crossprob_mc in binary64 on the file "0.1, 0.3". *)
From Coquelicot Require Import Coquelicot.
From Flocq Require Import Core.Core IEEE754.BinarySingleNaN.
From Coq Require Import ZArith Reals List Bool Lia Lra String Permutation Sorted.
From Verif Require Import Base Num XReal TinyMT StringUtils MonteCarlo Cli Hoare Spec SpecFacts StringSpec StringFacts CliSpec CliFacts McSpec McProbSpec McLoop McMore McEstimate McProbCases.
From Verif Require Import StrtodSpec Binary64 Binary64Facts B64Round AccPmf AccCli AccCliCase TinyMTFacts ShowSpec ShowFacts ShowMore ShowCli ShowCases TestSpec TestCase Cases.
From Verif Require Import McB64Spec McB64 McB64Est McB64Pois McB64PCase FastCli FastMcCli FastMcCase B64McCli.
Import List. Import ListNotations.
Local Open Scope R_scope.
Local Open Scope string_scope.

Lemma text_show a : show_ok real_of_f64 (show_text_env a).
Proof. apply show_text_ok. Qed.

Lemma mc_text64 : let E := show_text_env true in let d := sample_error u64 2 + bpow radix2 (-53) in
  exists (us : list R) (cs : list bool) w, List.length us = (2 * 3)%nat /\ Forall (fun u => 0 < u < 1) us /\ List.length cs = 2%nat /\
  sandwiched 3 (ecdf_inside (raised d text_b) []) (ecdf_inside (lowered d text_b) []) cs us /\
  prints (mc_main E 2 case_uninit 0 text_fs ["crossprob_mc"; "ecdf"; "b.txt"; "2"]) w /\
  Rabs (w - (1 - IZR (crossings cs) / 2)) <= 5 / 10000000 + bpow radix2 (-50).
Proof.
  intros E d. destruct case_program as (us & r1 & Lu & Fu & Du). pose proof u64_pos. pose proof u64_small.
  destruct text_num as (N2 & I2 & _). destruct case_words as (W1 & W2 & W3).
  destruct (mc_ecdf64 text_libm E (text_show true) u64 some_frexp text_fs "crossprob_mc" "b.txt" one_text "2"
    2 case_uninit 0 text_strtod text_accurate eq_refl N2 I2 ltac:(lia) ltac:(unfold INT_MAX; lia) W1 W2 W3 text_b [] us r1) as (cs & Lc & SW & R); auto.
  - lra.
  - exact one_holds.
  - apply text_valid.
  - split; constructor.
  - apply text_normal.
  - simpl. lia.
  - right. simpl. lia.
  - simpl. lra.
  - change (bpow radix2 (-53)) with u64. simpl. lra.
  - destruct (R 2%nat (le_n 2)) as (w & Hw & Bw & _). exists us, cs, w. repeat (split; [assumption|]). exact Bw.
Qed.

Lemma mc_text_poisson64 : exists w, prints (mc_main (show_text_env true) 1 case_uninit 587 text_fs ["crossprob_mc"; "poisson"; "b.txt"; "1"]) w /\
  Rabs (w - 1) <= 5 / 10000000 + bpow radix2 (-50).
Proof.
  destruct (walk_draws (frexp := some_frexp)) as (r1 & D). rewrite <- walk_seeded in D.
  pose proof u64_pos as Up.
  assert (Us : u64 <= / 1000000) by (unfold u64; apply Rle_trans with (bpow radix2 (-20)); [apply bpow_le; lia|simpl; lra]).
  destruct text_num as (_ & _ & N1 & I1). destruct case_words as (W1 & W2 & W3).
  destruct (file64 text_libm some_frexp text_strtod one_text text_b [] (proj1 text_valid) ltac:(split; constructor) (proj1 text_normal) ltac:(constructor) one_holds)
    as (b6 & B6 & Hh6 & A1 & A2 & E1 & E2).
  assert (HB6 : B6 = []) by (destruct B6; [reflexivity|discriminate]). subst B6.
  assert (L1 : List.length b6 = 2%nat) by (pose proof (f_equal (@List.length R) E1) as HH; rewrite !map_length in HH; exact HH).
  assert (V : exists x y, map B2R b6 = [x; y] /\ 9 / 100 <= x <= 11 / 100 /\ 29 / 100 <= y <= 31 / 100).
  { exists (rnd (1 / 10)), (rnd (3 / 10)). split; [exact E1|].
    pose proof (rnd_near (1 / 10) ltac:(lra) (big_normal (1 / 10) ltac:(lra))) as H1. pose proof (rnd_near (3 / 10) ltac:(lra) (big_normal (3 / 10) ltac:(lra))) as H3.
    apply Rabs_le_inv in H1. apply Rabs_le_inv in H3. lra. }
  destruct V as (x & y & V & Hx & Hy).
  assert (Wd : 0 <= 2 * walk_error u64 2 < / 1000) by (unfold walk_error; simpl; lra).
  assert (HC : clear_simulations (/ IZR (Z.of_nat (List.length b6))) (2 * walk_error u64 (List.length b6)) (map B2R b6) (map B2R (@nil f64)) 1 walk_us).
  { rewrite L1, V. destruct walk_jumps as (a & b & c & Ha & Hb & Hc & Ej). change (IZR (Z.of_nat 2)) with 2.
    split; [|intros; exact I]. cbn [List.length firstn]. rewrite Ej. set (d := 2 * _) in *.
    intros i Hi. cbn [List.length] in Hi. destruct i as [|[|[|i]]]; [| | |lia]; cbn [nth]; (split; [|split]).
    1: rewrite Rabs_left; lra.
    1: intros; rewrite Rabs_pos_eq; lra.
    1: cbn [map List.length]; intros; lia.
    all: try (intros; exfalso; lra); rewrite Rabs_pos_eq; lra. }
  assert (F1 : Forall (fun x : f64 => is_finite x = true) b6) by (eapply Forall_impl; [|apply A1]; intros t Ht; apply Ht).
  destruct (mc_poisson64 text_libm (show_text_env true) (text_show true) u64 some_frexp text_fs "crossprob_mc" "b.txt" one_text "1"
    1 case_uninit 587 text_accurate eq_refl N1 I1 ltac:(lia) ltac:(unfold INT_MAX; lia) W1 W2 W3 b6 [] walk_us r1) as (cs & Lc & HO & R); auto.
  - lra.
  - destruct b6; discriminate.
  - rewrite L1. simpl. lia.
  - rewrite L1. lra.
  - exact walk_us_in.
  - rewrite L1. reflexivity.
  - rewrite L1. exact D.
  - destruct (R 1%nat (le_n 1)) as (w & Hw & Bw). exists w. split; [exact Hw|]. replace (IZR (crossings cs) / INR 1) with 0 in Bw; [rewrite Rminus_0_r in Bw; exact Bw|].
    destruct cs as [|c [|]]; try discriminate. destruct c; [|unfold crossings; simpl; lra]. exfalso. rewrite L1, V in HO.
    destruct HO as ((_ & O) & _). assert (HI : poisson_inside (/ IZR (Z.of_nat 2)) [x; y] [] walk_us); [|discriminate (O HI)].
    destruct walk_jumps as (a & b & c & Ha & Hb & Hc & Ej). change (IZR (Z.of_nat 2)) with 2. unfold poisson_inside. rewrite Ej.
    exists 1%nat. cbn [List.length firstn nth map]. split; [unfold walk_us; simpl; lia|]. split; [apply Forall_cons; [lra|constructor]|]. split; [lra|].
    split; [simpl; lia|]. split; [intros i Hi; simpl in Hi; lia|]. right. split; [simpl; lia|]. intros i Hi. simpl in Hi.
    destruct i; [|lia]. simpl. lra.
Qed.
