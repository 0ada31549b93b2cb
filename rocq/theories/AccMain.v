(** * AccMain: the accuracy statement for every length, the empty boundary included. *)
From Coquelicot Require Import Coquelicot.
From Flocq Require Import Core.Core IEEE754.BinarySingleNaN.
From Coq Require Import ZArith Reals List Bool Lia Lra String Permutation Sorted Factorial.
From Verif Require Import Base Num Hoare Common PoissonPmf FFTConv Ecdf2 RSum Binary64 Binary64Facts.
From Verif Require Import Spec SpecFacts Cells Events XEcdf2 XEcdf2Main SafeFft SafeEcdf2 Binary64Main.
From Verif Require Import ErrBound B64Round AccPmf AccConv AccFft AccGrow AccStep AccEcdf2.
Import List. Import ListNotations.
Local Open Scope R_scope.

Definition one_by_one : f64 := Bdiv mode_NE (b64_of_Z 1) (b64_of_Z 1).
Lemma one_by_one_ok : is_finite one_by_one = true /\ B2R one_by_one = 1.
Proof.
  destruct one_ok as [F1 V1].
  pose proof (Bdiv_correct 53 1024 prec_ok emax_ok mode_NE (b64_of_Z 1) (b64_of_Z 1)) as H.
  rewrite V1 in H. specialize (H ltac:(lra)). cbn [round_mode] in H.
  replace (1 / 1) with 1 in H by field. rewrite rnd_1 in H. rewrite Rlt_bool_true in H.
  - destruct H as (H1 & H2 & _). unfold one_by_one. rewrite H1, H2. auto.
  - rewrite Rabs_R1. change 1 with (bpow radix2 0). apply bpow_lt. lia.
Qed.

Lemma ecdf2_nil64 (L : libm) (E : env (Bnum L)) (uf : bool) : sort_ok E ->
  @ecdf2 (Bnum L) E [] [] uf = Ok one_by_one.
Proof.
  intros Hs. enough (HT : total (@ecdf2 (Bnum L) E [] [] uf) (fun r => r = one_by_one)).
  { apply total_iff in HT. destruct HT as (r & -> & ->). reflexivity. }
  unfold total, ecdf2. change (@size (car (Bnum L)) []) with 0%Z.
  change (@check_boundary_vector (Bnum L) "b" 0 []) with (@Ok unit tt). cbn [bind].
  change (@check_boundary_vector (Bnum L) "B" 0 []) with (@Ok unit tt). cbn [bind].
  unfold poisson_process_noncrossing_probability, join_all_bounds, std_sort. cbn [map app].
  destruct (Hs [] eq_refl) as [HP _]. apply Permutation_nil in HP. rewrite HP.
  change (@strict_weak_order_on (Bnum L) []) with true. cbn [bind app].
  apply wp_bind. cbn [wr]. rewrite get_src_make. apply wp_bind, wp_wr; [reflexivity || (rewrite size_vec; lia)|].
  apply wp_bind, wp_pmfgen64; [lia|]. intros g _.
  apply wp_bind. cbn [for_each]. unfold e2_step. cbn [location tag e2_prev e2_b e2_B].
  change (@n_lt (Bnum L) n0 (@n_mul (Bnum L) (n_of_Z 0) (@n_sub (Bnum L) n1 n0))) with
    (Bltb (b64_of_Z 0) (Bmult mode_NE (b64_of_Z 0) (Bminus mode_NE (b64_of_Z 1) (b64_of_Z 0)))).
  assert (Hlt : Bltb (b64_of_Z 0) (Bmult mode_NE (b64_of_Z 0) (Bminus mode_NE (b64_of_Z 1) (b64_of_Z 0))) = false)
    by (vm_compute; reflexivity).
  rewrite Hlt. cbv iota zeta.
  change (@n_eq (Bnum L) (@n_mul (Bnum L) (n_of_Z 0) (@n_sub (Bnum L) n1 n0)) n0) with
    (Beqb (Bmult mode_NE (b64_of_Z 0) (Bminus mode_NE (b64_of_Z 1) (b64_of_Z 0))) (b64_of_Z 0)).
  assert (Heq : Beqb (Bmult mode_NE (b64_of_Z 0) (Bminus mode_NE (b64_of_Z 1) (b64_of_Z 0))) (b64_of_Z 0) = true)
    by (vm_compute; reflexivity).
  rewrite Heq. cbn [update_dest_buffer_and_step_counts bind e2_buffers]. apply wp_ok, wp_ok.
  cbn [e2_buffers]. rewrite !get_src_set_src.
  apply wp_bind, (wp_rd (b64_of_Z 0)).
  { rewrite size_upd, size_vec. lia. }
  rewrite get_upd by (rewrite ?size_vec; lia). cbn [Z.eqb].
  apply wp_bind. unfold poisson_pmf. apply wp_bind, wp_cassert_true; [reflexivity|].
  apply wp_bind, wp_cassert_true; [exact (eq_refl (Bleb (b64_of_Z 0) (b64_of_Z 0)))|].
  change (@n_eq (Bnum L) (n_of_Z 0) n0) with (Beqb (b64_of_Z 0) (b64_of_Z 0)).
  assert (Hz : Beqb (b64_of_Z 0) (b64_of_Z 0) = true) by (vm_compute; reflexivity). rewrite Hz.
  apply wp_ok, wp_ok. reflexivity.
Qed.

Lemma prob_nil : is_noncrossing_probability [] [] 1.
Proof.
  pose proof (prob_is_D [] [] []) as H. cbn [List.length app fact] in H.
  replace 1 with (INR 1 * D 0 0 0 0 [(1, END)] 0).
  - apply H; try (split; constructor); auto.
  - unfold D, rsum, mono. cbn [next_B next_b Nat.add Nat.sub Nat.leb andb Nat.eqb pow fact INR]. field.
Qed.

(** the statement of C49 *)
Lemma ecdf2_accurate (L : libm) (eps : R) (E : env (Bnum L)) (b B : list f64) :
  libm_accurate L eps -> bpow radix2 (-53) <= eps ->
  accepted64 b -> accepted64 B -> List.length b = List.length B -> sort_ok E ->
  65536 * (INR (List.length b) * INR (List.length b)) * eps <= 1 ->
  (asserts E = true -> forall i, (S i < List.length b)%nat -> nth i (map B2R b) 0 <= nth (S i) (map B2R B) 0) ->
  exists p r, is_noncrossing_probability (map B2R b) (map B2R B) p /\ @ecdf2 (Bnum L) E b B false = Ok r /\
    is_finite (r : f64) = true /\
    Rabs (B2R (r : f64) - p) <= 40000 * (INR (List.length b) * INR (List.length b) * eps) * p + bpow radix2 (-1000).
Proof.
  intros HL He Hb HB Hl Hs Hn Hg.
  assert (Hbad : asserts E = true -> ~ bad_pair (map B2R b) (map B2R B)).
  { intros HE (i & Hi & Hlt). rewrite map_length in Hi. specialize (Hg HE i Hi). lra. }
  destruct (Nat.eq_dec (List.length b) 0) as [H0|H0].
  - destruct b as [|? ?]; [|discriminate]. destruct B as [|? ?]; [|discriminate].
    exists 1, one_by_one. split; [exact prob_nil|]. split; [apply ecdf2_nil64, Hs|].
    destruct one_by_one_ok as [F V]. split; [exact F|].
    rewrite V, Rminus_diag_eq, Rabs_R0 by reflexivity. simpl INR. pose proof (bpow_ge_0 radix2 (-1000)).
    rewrite !Rmult_0_l, Rmult_0_r, Rmult_0_l. lra.
  - destruct (acc_pos L E eps HL He b B Hb HB Hl Hs Hn false 0) as (p & r & Hp & Hr & Fr & Er); auto; try lra; try discriminate; try lia.
    exists p, r. rewrite !Rmult_0_r, Rplus_0_r in Er. auto.
Qed.

(** the statement of C50 *)
Lemma ecdf2_fft_accurate (L : libm) (eps epsf : R) (E : env (Bnum L)) (b B : list f64) :
  libm_accurate L eps -> bpow radix2 (-53) <= eps -> fft_accurate E epsf -> bpow radix2 (-53) <= epsf ->
  accepted64 b -> accepted64 B -> List.length b = List.length B -> sort_ok E ->
  65536 * (INR (List.length b) * INR (List.length b)) * eps <= 1 ->
  16384 * (INR (List.length b) * INR (List.length b)) * epsf <= 1 ->
  (asserts E = true -> forall i, (S i < List.length b)%nat -> nth i (map B2R b) 0 <= nth (S i) (map B2R B) 0) ->
  exists p r, is_noncrossing_probability (map B2R b) (map B2R B) p /\ @ecdf2 (Bnum L) E b B true = Ok r /\
    is_finite (r : f64) = true /\
    Rabs (B2R (r : f64) - p) <= 40000 * (INR (List.length b) * INR (List.length b) * eps) * p
                               + 10000 * (INR (List.length b) * INR (List.length b) * epsf).
Proof.
  intros HL He HF Hef Hb HB Hl Hs Hn Hnf Hg.
  assert (Hbad : asserts E = true -> ~ bad_pair (map B2R b) (map B2R B)).
  { intros HE (i & Hi & Hlt). rewrite map_length in Hi. specialize (Hg HE i Hi). lra. }
  destruct (Nat.eq_dec (List.length b) 0) as [H0|H0].
  - destruct b as [|? ?]; [|discriminate]. destruct B as [|? ?]; [|discriminate].
    exists 1, one_by_one. split; [exact prob_nil|]. split; [apply ecdf2_nil64, Hs|].
    destruct one_by_one_ok as [F V]. split; [exact F|].
    rewrite V, Rminus_diag_eq, Rabs_R0 by reflexivity. simpl INR. lra.
  - assert (Hn1 : (1 <= List.length b)%nat) by lia.
    pose proof (N_ge1 (List.length b) Hn1) as HN. set (N := INR (List.length b)) in *.
    assert (HNN : 1 <= N * N) by nra. pose proof (bpow_gt_0 radix2 (-53)) as Hb53.
    assert (Hee : epsf <= N * N * epsf) by (rewrite <- (Rmult_1_l epsf) at 1; apply Rmult_le_compat_r; lra).
    rewrite Rmult_assoc in Hnf.
    destruct (acc_pos L E eps HL He b B Hb HB Hl Hs Hn true (400 * epsf)) as (p & r & Hp & Hr & Fr & Er); auto.
    + lra.
    + fold N. lra.
    + intros _. exists epsf. split; [exact HF|]. split; [exact Hef|]. lra.
    + exists p, r. split; [exact Hp|]. split; [exact Hr|]. split; [exact Fr|]. fold N in Er.
      assert (Ht : bpow radix2 (-1000) <= epsf) by (eapply Rle_trans; [|exact Hef]; apply bpow_le; lia). lra.
Qed.

(** up to 1000 points with a library of relative error 2^-52: five correct digits *)
Lemma ecdf2_accurate_1000 (L : libm) (E : env (Bnum L)) (b B : list f64) :
  libm_accurate L (bpow radix2 (-52)) ->
  accepted64 b -> accepted64 B -> List.length b = List.length B -> (List.length b <= 1000)%nat -> sort_ok E ->
  (asserts E = true -> forall i, (S i < List.length b)%nat -> nth i (map B2R b) 0 <= nth (S i) (map B2R B) 0) ->
  exists p r, is_noncrossing_probability (map B2R b) (map B2R B) p /\ @ecdf2 (Bnum L) E b B false = Ok r /\
    is_finite (r : f64) = true /\ Rabs (B2R (r : f64) - p) <= p / 100000 + bpow radix2 (-1000).
Proof.
  intros HL Hb HB Hl H1000 Hs Hg.
  assert (HN : 0 <= INR (List.length b) <= 1000).
  { split; [apply pos_INR|]. apply le_INR in H1000. replace (INR 1000) with 1000 in H1000; [exact H1000|].
    rewrite INR_IZR_INZ. reflexivity. }
  assert (HNN : 0 <= INR (List.length b) * INR (List.length b) <= 1000000) by nra.
  assert (H52 : bpow radix2 (-52) = / 4503599627370496) by reflexivity.
  destruct (ecdf2_accurate L (bpow radix2 (-52)) E b B HL) as (p & r & Hp & Hr & Fr & Er); auto.
  - apply bpow_le. lia.
  - rewrite H52. lra.
  - exists p, r. split; [exact Hp|]. split; [exact Hr|]. split; [exact Fr|].
    eapply Rle_trans; [exact Er|]. apply Rplus_le_compat_r. rewrite H52.
    assert (Hp0 : 0 <= p).
    { exact (proj1 (is_prob_range _ _ _ (proj2 Hp))). }
    unfold Rdiv. rewrite (Rmult_comm p). apply Rmult_le_compat_r; [exact Hp0|]. lra.
Qed.

(** up to 1000 points with FFTs of relative error 2^-47: four decimals *)
Lemma ecdf2_fft_accurate_1000 (L : libm) (E : env (Bnum L)) (b B : list f64) :
  libm_accurate L (bpow radix2 (-52)) -> fft_accurate E (bpow radix2 (-47)) ->
  accepted64 b -> accepted64 B -> List.length b = List.length B -> (List.length b <= 1000)%nat -> sort_ok E ->
  (asserts E = true -> forall i, (S i < List.length b)%nat -> nth i (map B2R b) 0 <= nth (S i) (map B2R B) 0) ->
  exists p r, is_noncrossing_probability (map B2R b) (map B2R B) p /\ @ecdf2 (Bnum L) E b B true = Ok r /\
    is_finite (r : f64) = true /\ Rabs (B2R (r : f64) - p) <= 1 / 10000.
Proof.
  intros HL HF Hb HB Hl H1000 Hs Hg.
  assert (HN : 0 <= INR (List.length b) <= 1000).
  { split; [apply pos_INR|]. apply le_INR in H1000. replace (INR 1000) with 1000 in H1000; [exact H1000|].
    rewrite INR_IZR_INZ. reflexivity. }
  assert (HNN : 0 <= INR (List.length b) * INR (List.length b) <= 1000000) by nra.
  assert (H52 : bpow radix2 (-52) = / 4503599627370496) by reflexivity.
  assert (H47 : bpow radix2 (-47) = / 140737488355328) by reflexivity.
  destruct (ecdf2_fft_accurate L (bpow radix2 (-52)) (bpow radix2 (-47)) E b B HL) as (p & r & Hp & Hr & Fr & Er); auto.
  - apply bpow_le. lia.
  - apply bpow_le. lia.
  - rewrite H52. lra.
  - rewrite H47. lra.
  - exists p, r. split; [exact Hp|]. split; [exact Hr|]. split; [exact Fr|].
    pose proof (is_prob_range _ _ _ (proj2 Hp)) as Hp01.
    eapply Rle_trans; [exact Er|]. rewrite H52, H47.
    set (K := INR (List.length b) * INR (List.length b)) in *.
    assert (40000 * (K * / 4503599627370496) * p <= 40000 * (1000000 * / 4503599627370496) * 1).
    { apply Rmult_le_compat; lra. }
    lra.
Qed.
