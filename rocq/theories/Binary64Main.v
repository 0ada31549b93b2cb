(** * Binary64Main: on allowed boundaries the library returns, in binary64. *)
From Coquelicot Require Import Coquelicot.
From Flocq Require Import Core.Core IEEE754.BinarySingleNaN.
From Coq Require Import ZArith Reals List Bool Lia Lra String Permutation Sorted.
From Verif Require Import Base Num Hoare Common PoissonPmf FFTConv Ecdf2 Ecdf1New Ecdf1Mns Binary64.
From Verif Require Import Spec SpecFacts Cells Events XEcdf2 XEcdf2Main SafeFft SafeEcdf2 SafeNew SafeMns Binary64Facts.
Import List. Import ListNotations.
Local Open Scope R_scope.

(** ** The block size sqrt(n)+1 of ecdf1_new *)
Lemma size64 n : (n <= INT_MAX)%Z -> (n + 1 < 2 ^ 53)%Z.
Proof. unfold INT_MAX. lia. Qed.

Lemma sqrt_ok n : (1 <= n <= INT_MAX)%Z ->
  is_finite (Bsqrt mode_NE (b64_of_Z n)) = true /\ B2R (Bsqrt mode_NE (b64_of_Z n)) = rnd (sqrt (IZR n)).
Proof.
  intros Hn. pose proof (size64 n (proj2 Hn)) as Hs.
  destruct (of_Z_ok n) as [Fn Vn]; [lia|].
  destruct (Bsqrt_correct 53 1024 prec_ok emax_ok mode_NE (b64_of_Z n)) as (H1 & H2 & _).
  cbn [round_mode] in H1. rewrite Vn in H1. split; [|exact H1]. rewrite H2.
  assert (Hp : 0 < B2R (b64_of_Z n)) by (rewrite Vn; apply IZR_lt; lia).
  destruct (b64_of_Z n) as [s|[|]| |[|] m e Hb]; try discriminate; auto.
  exfalso. simpl in Hp. apply Rlt_not_le in Hp. apply Hp. apply F2R_le_0. simpl. lia.
Qed.

Lemma rnd_half k : (0 <= k < 1000)%Z -> rnd (IZR k / 2) = IZR k / 2.
Proof.
  intros Hk. apply round_generic; auto with typeclass_instances.
  change (SpecFloat.fexp 53 1024) with (FLT_exp (-1074) 53).
  apply generic_format_FLT. exists (Float radix2 k (-1)); simpl; try lia.
  unfold F2R. cbn [Fnum Fexp]. change (bpow radix2 (-1)) with (/ 2). reflexivity.
Qed.

Lemma jump_bounds n : (1 <= n <= INT_MAX)%Z ->
  exists s : f64, is_finite s = true /\ 2 <= B2R s /\ (n = 1%Z -> B2R s = 2) /\ ((2 <= n)%Z -> B2R s < IZR (n + 1)) /\
    s = Bplus mode_NE (Bsqrt mode_NE (b64_of_Z n)) (b64_of_Z 1).
Proof.
  intros Hn. pose proof (size64 n (proj2 Hn)) as Hs.
  destruct (sqrt_ok n Hn) as [Fq Vq]. destruct one_ok as [F1 V1].
  destruct (of_Z_ok (n + 1)) as [Fm Vm]; [lia|].
  set (q := Bsqrt mode_NE (b64_of_Z n)) in *.
  assert (Hn1 : 1 <= IZR n) by (apply IZR_le; lia).
  assert (Hq1 : 1 <= B2R q).
  { rewrite Vq, <- rnd_1. apply rnd_le. rewrite <- sqrt_1. apply sqrt_le_1_alt. exact Hn1. }
  assert (Hqn : B2R q <= IZR n).
  { rewrite Vq. rewrite <- (rnd_int n) at 2 by lia. apply rnd_le.
    apply Rsqr_incr_0_var; [|lra]. rewrite Rsqr_sqrt by lra. unfold Rsqr. nra. }
  pose proof (Bplus_correct 53 1024 prec_ok emax_ok mode_NE q (b64_of_Z 1) Fq F1) as H.
  cbn [round_mode] in H. rewrite V1 in H.
  rewrite (no_overflow (b64_of_Z (n + 1))) in H by (rewrite Vm, plus_IZR; lra).
  destruct H as (H1 & H2 & _).
  exists (Bplus mode_NE q (b64_of_Z 1)). rewrite H1.
  split; [exact H2|]. split.
  { rewrite <- (rnd_int 2) by reflexivity. apply rnd_le. lra. }
  split.
  { intros ->. replace (B2R q) with 1 by lra. apply (rnd_int 2). reflexivity. }
  split; [|reflexivity].
  intros Hn2. rewrite plus_IZR. destruct (Z.eq_dec n 2) as [->|Hne].
  - assert (Hq : B2R q <= 3 / 2).
    { rewrite Vq. rewrite <- (rnd_half 3) by lia. apply rnd_le.
      apply Rsqr_incr_0_var; [|lra]. rewrite Rsqr_sqrt by lra. unfold Rsqr. lra. }
    assert (rnd (B2R q + 1) <= 5 / 2); [|lra].
    rewrite <- (rnd_half 5) by lia. apply rnd_le. lra.
  - assert (Hn3 : 3 <= IZR n) by (apply IZR_le; lia).
    assert (Hq : B2R q <= IZR (n - 1)).
    { rewrite Vq. rewrite <- (rnd_int (n - 1)) by lia. apply rnd_le. rewrite minus_IZR.
      apply Rsqr_incr_0_var; [|lra]. rewrite Rsqr_sqrt by lra. unfold Rsqr. nra. }
    rewrite minus_IZR in Hq.
    assert (rnd (B2R q + 1) <= IZR n); [|lra].
    rewrite <- (rnd_int n) by lia. apply rnd_le. lra.
Qed.

Section Main.
Context (L : libm) (E : env (Bnum L)).
Notation BN := (Bnum L).

Lemma jump_ok n : (1 <= n <= INT_MAX)%Z ->
  exists k, @jump_size_for BN n = Ok k /\ (2 <= k)%Z /\ (n = 1 -> k = 2)%Z /\ (2 <= n -> k <= n)%Z.
Proof.
  intros Hn. destruct (jump_bounds n Hn) as (s & Fs & H2 & H1 & Hlt & Hs).
  exists (Btrunc s).
  assert (HT : Btrunc s = Zfloor (B2R s)).
  { apply eq_IZR. rewrite (Btrunc_correct 53 1024 emax_ok), round_FIX_IZR, Ztrunc_floor by lra. reflexivity. }
  assert (Hk2 : (2 <= Btrunc s)%Z) by (rewrite HT; apply Zfloor_lub, H2).
  assert (Hk1 : (n = 1 -> Btrunc s = 2)%Z).
  { intros Hn1. rewrite HT, (H1 Hn1). apply (Zfloor_IZR 2). }
  assert (Hkn : (2 <= n -> Btrunc s <= n)%Z).
  { intros Hn2. rewrite HT. specialize (Hlt Hn2). enough (Zfloor (B2R s) < n + 1)%Z by lia.
    apply lt_IZR. eapply Rle_lt_trans; [apply Zfloor_lb|exact Hlt]. }
  split; [|auto].
  unfold jump_size_for.
  change (@n_trunc BN (@n_add BN (@n_sqrt BN (n_of_Z n)) n1)) with (b64_trunc (Bplus mode_NE (Bsqrt mode_NE (b64_of_Z n)) (b64_of_Z 1))).
  rewrite <- Hs. unfold b64_trunc. rewrite Fs.
  assert (INT_MIN <= Btrunc s <= INT_MAX)%Z as [G1 G2].
  { unfold INT_MIN, INT_MAX in *. destruct (Z.eq_dec n 1) as [e|]; [rewrite (Hk1 e); lia|]. specialize (Hkn ltac:(lia)). lia. }
  apply Z.leb_le in G1. apply Z.leb_le in G2. rewrite G1, G2. reflexivity.
Qed.

(** ** ecdf1_new *)
Section New.
Variable B : list f64.
Hypothesis HB : accepted64 B.
Notation n := (Z.of_nat (@List.length f64 B)).

Lemma loc_ok i : (-1 <= i <= n)%Z ->
  is_finite (@loc BN n B i : f64) = true /\ 0 <= B2R (@loc BN n B i : f64) <= 1.
Proof.
  intros Hi. unfold loc. destruct (Z.ltb_spec i 0).
  - destruct zero_ok as [F0 V0]. change (@n0 BN) with (b64_of_Z 0). rewrite V0. split; [exact F0|lra].
  - destruct (Z.ltb_spec i n).
    + destruct HB as [HF [_ HR]].
      assert (Hin : In (@get f64 (b64_of_Z 0) B i) B) by (apply nth_In; lia).
      rewrite Forall_forall in HF, HR. split; [apply HF, Hin|]. apply HR. apply in_map, Hin.
    + destruct one_ok as [F0 V0]. change (@n1 BN) with (b64_of_Z 1). rewrite V0. split; [exact F0|lra].
Qed.

Lemma nth_sorted (l : list R) : StronglySorted Rle l -> forall i j, (i <= j < List.length l)%nat -> nth i l 0 <= nth j l 0.
Proof.
  induction 1 as [|a l HS IH Ha]; intros i j Hij; cbn [List.length] in Hij; [lia|].
  destruct i as [|i], j as [|j]; cbn [nth]; try lra; try lia.
  - rewrite Forall_forall in Ha. apply Ha, nth_In. lia.
  - apply IH. lia.
Qed.

Lemma loc_mono i j : (-1 <= i < j)%Z -> (j <= n)%Z ->
  B2R (@loc BN n B i : f64) <= B2R (@loc BN n B j : f64).
Proof.
  intros Hij Hj. pose proof (loc_ok i ltac:(lia)) as [_ Hi']. pose proof (loc_ok j ltac:(lia)) as [_ Hj'].
  destruct zero_ok as [F0 V0]. destruct one_ok as [F1 V1].
  unfold loc in *. destruct (Z.ltb_spec i 0).
  - change (@n0 BN) with (b64_of_Z 0) at 1. rewrite V0. apply Hj'.
  - destruct (Z.ltb_spec j n) as [Hjn|Hjn].
    + destruct (Z.ltb_spec j 0); [lia|]. destruct (Z.ltb_spec i n); [|lia].
      destruct HB as [_ [HS _]]. apply Sorted_strong in HS.
      assert (HV : forall k, (0 <= k < n)%Z -> B2R (@get f64 (b64_of_Z 0) B k) = nth (Z.to_nat k) (map B2R B) 0).
      { intros k Hk. unfold get. rewrite <- V0. rewrite (map_nth B2R). reflexivity. }
      change (B2R (@get f64 (b64_of_Z 0) B i) <= B2R (@get f64 (b64_of_Z 0) B j)).
      rewrite !HV by lia. apply nth_sorted; [exact HS|]. rewrite map_length.
      change (@List.length (binary_float 53 1024) B) with (@List.length f64 B). lia.
    + destruct (Z.ltb_spec j 0); [lia|]. change (@n1 BN) with (b64_of_Z 1). rewrite V1. apply Hi'.
Qed.

Hypothesis Hn : (1 <= n <= INT_MAX)%Z.

Lemma rate64_ok i j : (-1 <= i < j)%Z -> (j <= n)%Z ->
  is_finite (@rate BN n (n_of_Z n) B i j : f64) = true /\ 0 <= B2R (@rate BN n (n_of_Z n) B i j : f64).
Proof.
  intros Hij Hj. pose proof (size64 n (proj2 Hn)). destruct (of_Z_ok n) as [Fn Vn]; [lia|].
  pose proof (loc_ok i ltac:(lia)) as [Fi Hi']. pose proof (loc_ok j ltac:(lia)) as [Fj Hj'].
  apply (rate_ok L); auto; try apply Hi'; try apply Hj'.
  - change (0 <= B2R (b64_of_Z n)). rewrite Vn. apply IZR_le. lia.
  - apply loc_mono; auto.
Qed.

Lemma new_B_ok : fft_lengths E -> (n = 1%Z -> asserts E = false) ->
  exists r, ecdf1_new_B E (B : list (car BN)) = Ok r.
Proof.
  intros HF H1. enough (HT : total (ecdf1_new_B E (B : list (car BN))) (fun _ => True)).
  { apply total_iff in HT. destruct HT as (r & -> & _). eauto. }
  destruct (jump_ok n Hn) as (k & Hk & Hk2 & Hk1 & Hkn).
  pose proof (size64 n (proj2 Hn)). destruct (of_Z_ok n) as [Fn Vn]; [lia|].
  unfold total. apply (sh_new_B E _ _ B k HF).
  - exact (proj1 Hn).
  - exact Hk.
  - lia.
  - intros s Hs. pose proof (eq_trans (eq_sym Hs) (check_accepted L "B" B HB)) as Hq. discriminate Hq.
  - intros i j Hij Hj Hlt. destruct (rate64_ok i j Hij Hj) as [Fr Hr].
    pose proof (eq_trans (eq_sym Hlt) (fin_neg L _ Fr Hr)) as Hq. discriminate Hq.
  - intros i j Hij Hj _ Hle. destruct (rate64_ok i j ltac:(lia) ltac:(change (j <= n)%Z; change (j < n)%Z in Hj; lia)) as [Fr Hr].
    pose proof (eq_trans (eq_sym Hle) (fin_le L _ Fr Hr)) as Hq. discriminate Hq.
  - intros HA Hlt. change (n < k)%Z in Hlt. destruct (Z.eq_dec n 1) as [e|Hne].
    + rewrite (H1 e) in HA. discriminate.
    + specialize (Hkn ltac:(lia)). lia.
  - intros _ Hle. assert (Hr : 0 <= B2R (b64_of_Z n)) by (rewrite Vn; apply IZR_le; lia).
    pose proof (eq_trans (eq_sym Hle) (fin_le L _ Fn Hr)) as Hq. discriminate Hq.
Qed.
End New.

Lemma new_b_ok (b : list f64) : accepted64 b -> (1 <= Z.of_nat (List.length b) <= INT_MAX)%Z ->
  fft_lengths E -> (List.length b = 1%nat -> asserts E = false) ->
  exists r, ecdf1_new_b E (b : list (car BN)) = Ok r.
Proof.
  intros Hb Hn HF H1.
  assert (Hs : Z.of_nat (@List.length f64 (@reflected BN b)) = Z.of_nat (@List.length f64 b)) by exact (@reflected_size BN b).
  destruct (new_B_ok (@reflected BN b)) as [r Hr]; auto.
  - apply accepted_reflected, Hb.
  - rewrite Hs. exact Hn.
  - rewrite Hs. intros e. apply H1. change (@List.length f64 b = 1%nat). lia.
  - exists r. rewrite new_b_eq. rewrite (check_accepted L "b" b Hb). exact Hr.
Qed.

(** one element and live assertions: the process is aborted *)
Lemma new_one_abort (x : f64) : accepted64 [x] -> asserts E = true ->
  exists s, ecdf1_new_B E ([x] : list (car BN)) = Abort s.
Proof.
  intros Hx HA. destruct (jump_ok 1) as (k & Hk & _ & Hk1 & _); [unfold INT_MAX; lia|]. rewrite (Hk1 eq_refl) in Hk.
  unfold ecdf1_new_B. rewrite (check_accepted L "B" [x] Hx). cbn [bind].
  change (@size (car BN) [x]) with 1%Z. rewrite Hk. cbn [bind].
  unfold poisson_B_noncrossing_probability_n2. rewrite HA. simpl. eauto.
Qed.

(** ** ecdf1_mns2016 *)
Lemma mns64_b_ok (b : list f64) : accepted64 b -> exists r, ecdf1_mns2016_b E (b : list (car BN)) = Ok r.
Proof. intros Hb. apply mns_b_ok. exact (check_accepted L "b" b Hb). Qed.
Lemma mns64_B_ok (B : list f64) : accepted64 B -> exists r, ecdf1_mns2016_B E (B : list (car BN)) = Ok r.
Proof.
  intros HB. rewrite mns_B_eq. rewrite (check_accepted L "B" B HB). cbn [bind].
  apply mns64_b_ok, accepted_reflected, HB.
Qed.

(** ** ecdf2 *)
Definition tor64 (bd : bound BN) : R * bound_tag := (B2R (location bd : f64), tag bd).

Section Two.
Variables b B : list f64.
Hypothesis Hb : accepted64 b.
Hypothesis HB : accepted64 B.
Hypothesis Hlen : List.length b = List.length B.
Hypothesis Hn : (Z.of_nat (List.length b) <= INT_MAX)%Z.
Hypothesis Hsort : sort_ok E.

Definition fin64 (bd : bound BN) : Prop := is_finite (location bd : f64) = true.

Lemma joined_fin : Forall fin64 (@joined BN b B).
Proof.
  unfold joined. apply Forall_app. split; apply Forall_map; unfold fin64; cbn [location]; [apply Hb|apply HB].
Qed.

Lemma blt64 (x y : bound BN) : fin64 x -> fin64 y -> bound_lt x y = Rlt_bool (fst (tor64 x)) (fst (tor64 y)).
Proof. intros Hx Hy. unfold bound_lt. apply lt_fin; auto. Qed.

Lemma swo64 (l : list (bound BN)) : Forall fin64 l -> strict_weak_order_on l = true.
Proof.
  intros HF. unfold strict_weak_order_on. rewrite Forall_forall in HF.
  apply forallb_forall. intros x Hx. apply andb_true_intro. split.
  - rewrite blt64 by auto. rewrite Rlt_bool_false by lra. reflexivity.
  - apply forallb_forall. intros y Hy. apply forallb_forall. intros z Hz.
    rewrite !blt64 by auto.
    generalize (fst (tor64 x)) (fst (tor64 y)) (fst (tor64 z)). intros a c d.
    destruct (Rlt_bool_spec a c), (Rlt_bool_spec c d), (Rlt_bool_spec a d),
      (Rlt_bool_spec c a), (Rlt_bool_spec d c), (Rlt_bool_spec d a); simpl; auto; lra.
Qed.

Notation vb := (map (@B2R 53 1024) b).
Notation vB := (map (@B2R 53 1024) B).
Notation bs := (map tor64 (sort_bounds E (@joined BN b B))).

Lemma swept_fin : Forall fin64 (sort_bounds E (@joined BN b B)).
Proof. eapply Permutation_Forall; [apply (Hsort _ (swo64 _ joined_fin))|exact joined_fin]. Qed.

Lemma swept_arranged : arranged vb vB bs.
Proof.
  destruct (Hsort _ (swo64 _ joined_fin)) as [HP HS]. pose proof swept_fin as HF. split.
  - apply (Permutation_map tor64) in HP. unfold joined at 1 in HP. rewrite map_app, !map_map in HP.
    rewrite !map_map. exact HP.
  - unfold loc_sorted. clear HP. induction HS as [|x l HS IH Hx]; [constructor|]. inversion HF; subst.
    cbn [map]. constructor; auto. apply Forall_map.
    rewrite Forall_forall in *. intros y Hy. specialize (Hx y Hy).
    rewrite blt64 in Hx by auto. destruct (Rlt_bool_spec (fst (tor64 y)) (fst (tor64 x))); [discriminate|lra].
Qed.

Lemma swept_tor : map tor64 (@swept BN E b B) = bs ++ [(1, END)].
Proof.
  unfold swept. rewrite map_app. cbn [map]. unfold tor64 at 2. cbn [location tag].
  destruct one_ok as [_ V1]. change (@n1 BN) with (b64_of_Z 1). rewrite V1. reflexivity.
Qed.

Lemma prevl_end (pre : list (bound BN)) : B2R (prevl pre : f64) = end_of 0 (map tor64 pre).
Proof.
  destruct pre as [|x pre _] using rev_ind.
  - apply zero_ok.
  - rewrite prevl_snoc, map_app. cbn [map]. rewrite end_of_snoc. reflexivity.
Qed.

Section Split.
Variables (pre : list (bound BN)) (x : bound BN) (post : list (bound BN)).
Hypothesis Hsp : @swept BN E b B = pre ++ x :: post.

Lemma split_range : Forall (fun bd => fin64 bd /\ 0 <= fst (tor64 bd) <= 1) (@swept BN E b B).
Proof.
  destruct one_ok as [F1 V1].
  pose proof (arranged_range _ _ _ swept_arranged (proj2 Hb) (proj2 HB)) as HR.
  unfold swept. apply Forall_app. split.
  - pose proof swept_fin as HF. rewrite Forall_map in HR.
    rewrite Forall_forall in *. intros bd Hin. split; auto.
  - constructor; [|constructor]. split; [exact F1|]. unfold tor64. cbn [location fst].
    change (@n1 BN) with (b64_of_Z 1). rewrite V1. lra.
Qed.

Lemma lam_ok : let r := @lam BN (n_of_Z (Z.of_nat (List.length b))) pre x in
  is_finite (r : f64) = true /\ 0 <= B2R (r : f64) /\
  (0 < B2R (r : f64) -> end_of 0 (map tor64 pre) < fst (tor64 x)).
Proof.
  pose proof (size64 _ Hn). destruct (of_Z_ok (Z.of_nat (List.length b))) as [Fn Vn]; [lia|].
  pose proof split_range as HR. rewrite Hsp in HR. apply Forall_app in HR. destruct HR as [HR1 HR2].
  inversion HR2 as [|? ? [Fx Hx] _]; subst.
  assert (Hp : is_finite (prevl pre : f64) = true /\ 0 <= B2R (prevl pre : f64)).
  { destruct pre as [|y p _] using rev_ind.
    - destruct zero_ok as [F0 V0]. split; [exact F0|]. change (0 <= B2R (b64_of_Z 0)). rewrite V0. lra.
    - rewrite prevl_snoc. apply Forall_app in HR1. destruct HR1 as [_ HR1]. inversion HR1 as [|? ? [Fy Hy] _]; subst.
      split; [exact Fy|apply Hy]. }
  assert (Hle : B2R (prevl pre : f64) <= fst (tor64 x)).
  { rewrite prevl_end. pose proof (arranged_sorted_end _ _ _ swept_arranged (proj2 Hb) (proj2 HB)) as HS.
    rewrite <- swept_tor, Hsp, map_app in HS. cbn [map] in HS.
    apply loc_sorted_app_inv in HS. apply end_of_le; [apply Hx|apply HS]. }
  destruct Hp as [Fp Hp]. cbv zeta.
  assert (Hn0 : 0 <= B2R (b64_of_Z (Z.of_nat (List.length b)))) by (rewrite Vn; apply IZR_le; lia).
  destruct (rate_ok L (b64_of_Z (Z.of_nat (List.length b))) (location x) (prevl pre) Fn Hn0 Fx Fp Hp Hle (proj2 Hx)) as [H1 H2].
  split; [exact H1|split; [exact H2|]].
  intros Hpos. rewrite <- prevl_end. destruct (Rle_lt_or_eq_dec _ _ Hle) as [Hlt|Heq]; [exact Hlt|exfalso].
  destruct (minus_ok (location x) (prevl pre) Fx Fp) as (M1 & M2 & _); [split; [exact Hp|rewrite Heq; apply Rle_refl]|].
  change (B2R (location x)) with (fst (tor64 x)) in M2.
  rewrite Heq, Rminus_diag_eq, rnd_0 in M2 by reflexivity.
  destruct (mult_ok (b64_of_Z (Z.of_nat (List.length b))) _ Fn M1 Hn0) as (_ & M3 & _); [rewrite M2; lra|].
  rewrite M2, Rmult_0_r, rnd_0 in M3. unfold lam in Hpos.
  pose proof (Rlt_not_eq _ _ Hpos) as Hq. apply Hq. symmetry. exact M3.
Qed.

Lemma pre_counts : nb pre = Z.of_nat (count_b (map tor64 pre)) /\ nB pre = Z.of_nat (count_B (map tor64 pre)).
Proof.
  unfold nb, nB, count_b, count_B. rewrite !filter_map_length. split; reflexivity.
Qed.
End Split.

(** returns, unless assertions are live and some B_{i+1} < b_i *)
Lemma ecdf2_64 use_fft : (use_fft = true -> fft_lengths E) ->
  wp (fun _ => False) (asserts E = true /\ bad_pair vb vB) (ecdf2 E (b : list (car BN)) B use_fft) (fun _ => True).
Proof.
  intros Hf. pose proof (size64 _ Hn). destruct (of_Z_ok (Z.of_nat (List.length b))) as [Fn Vn]; [lia|].
  apply (sh_ecdf2 E).
  - apply swo64, joined_fin.
  - exact Hsort.
  - exact Hf.
  - intros name v s Hs Hv.
    assert (Hok : @check_boundary_vector BN name (@size (car BN) b) v = Ok tt).
    { destruct Hv as [-> | ->]; [apply (check_accepted L), Hb|].
      replace (@size (car BN) b) with (@size (car BN) B); [apply (check_accepted L), HB|].
      unfold size. f_equal. symmetry. exact Hlen. }
    pose proof (eq_trans (eq_sym Hs) Hok) as Hq. discriminate Hq.
  - intros pre x post Hsp H1 H2. destruct (lam_ok pre x post Hsp) as (F & P & _).
    pose proof (eq_trans (eq_sym H2) (fin_cases L _ F P H1)) as Hq. discriminate Hq.
  - intros pre x post Hsp _ H2. destruct (lam_ok pre x post Hsp) as (F & P & _).
    pose proof (eq_trans (eq_sym H2) (fin_neg L _ F P)) as Hq. discriminate Hq.
  - intros pre x post Hsp H1 HA Hc. split; [exact HA|].
    destruct (lam_ok pre x post Hsp) as (F & P & G).
    pose proof (eq_trans (eq_sym (gt_zero L _ F)) H1) as Hlt.
    assert (Hpos : 0 < B2R (@lam BN (n_of_Z (Z.of_nat (List.length b))) pre x : f64)).
    { destruct (Rlt_bool_spec 0 (B2R (@lam BN (n_of_Z (Z.of_nat (List.length b))) pre x : f64))) as [Hp|Hp]; [exact Hp|].
      discriminate Hlt. }
    destruct (pre_counts pre) as [Cb CB]. rewrite Cb, CB in Hc.
    apply (gap_bad vb vB bs (proj2 Hb) (proj2 HB)) with (p1 := map tor64 pre) (x := tor64 x) (p2 := map tor64 post).
    + rewrite !map_length. exact Hlen.
    + exact swept_arranged.
    + rewrite <- swept_tor, Hsp, map_app. reflexivity.
    + exact (G Hpos).
    + lia.
  - intros _ Hle. assert (Hr : 0 <= B2R (b64_of_Z (Z.of_nat (List.length b)))) by (rewrite Vn; apply IZR_le; lia).
    pose proof (eq_trans (eq_sym Hle) (fin_le L _ Fn Hr)) as Hq. discriminate Hq.
Qed.
End Two.
End Main.

(** Statement-shaped versions for PropsBinary64.v. *)
Lemma ecdf2_64_returns (L : libm) (E : env (Bnum L)) (b B : list f64) use_fft :
  accepted64 b -> accepted64 B -> List.length b = List.length B ->
  (Z.of_nat (List.length b) <= INT_MAX)%Z -> sort_ok E -> (use_fft = true -> fft_lengths E) ->
  (exists r, @ecdf2 (Bnum L) E b B use_fft = Ok r) \/
  (asserts E = true /\ (exists s, @ecdf2 (Bnum L) E b B use_fft = Abort s) /\
   exists i, (S i < List.length b)%nat /\ nth (S i) (map B2R B) 0 < nth i (map B2R b) 0).
Proof.
  intros Hb HB Hl Hn Hs Hf. pose proof (ecdf2_64 L E b B Hb HB Hl Hn Hs use_fft Hf) as H.
  destruct (@ecdf2 (Bnum L) E b B use_fft) as [r|e|s|s|]; simpl in H; try contradiction; [eauto|].
  right. destruct H as [HA (i & Hi & Hlt)]. split; [exact HA|]. split; [eauto|].
  exists i. rewrite map_length in Hi. auto.
Qed.

Lemma new64_returns (L : libm) (E : env (Bnum L)) (v : list f64) :
  accepted64 v -> (1 <= Z.of_nat (List.length v) <= INT_MAX)%Z -> fft_lengths E ->
  (List.length v = 1%nat -> asserts E = false) ->
  (exists r, @ecdf1_new_B (Bnum L) E v = Ok r) /\ (exists r, @ecdf1_new_b (Bnum L) E v = Ok r).
Proof.
  intros Hv Hn HF H1. split; [|apply new_b_ok; auto]. apply new_B_ok; auto.
  intros e. apply H1. change (@List.length f64 v = 1%nat). lia.
Qed.

Lemma mns64_returns (L : libm) (E : env (Bnum L)) (v : list f64) : accepted64 v ->
  (exists r, @ecdf1_mns2016_b (Bnum L) E v = Ok r) /\ (exists r, @ecdf1_mns2016_B (Bnum L) E v = Ok r).
Proof. intros Hv. split; [apply mns64_b_ok|apply mns64_B_ok]; auto. Qed.

Lemma reflected64 (v : list f64) : accepted64 v ->
  accepted64 (map (fun x => Bminus mode_NE (b64_of_Z 1) x) (rev v)).
Proof.
  exact (accepted_reflected (mkLibm (fun x => x) (fun x => x) b64_of_Z (fun x _ => x) (fun _ => 0%Z) (fun _ => (B754_nan, false))) v).
Qed.
