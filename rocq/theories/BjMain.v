(** * BjMain: the thresholds returned by inverse_Mn_plus, in binary64. *)
From Coquelicot Require Import Coquelicot.
From Flocq Require Import Core.Core IEEE754.BinarySingleNaN.
From Coq Require Import ZArith Reals List Bool Lia Lra String Permutation Sorted.
From Verif Require Import Base Num Common Ecdf1New Cli Binary64 Binary64Facts Binary64Main B64Round SafeFft Spec SpecFacts Events ProbSums ProbLipschitz RSum MnsMath.
From Verif Require Import AccPmf AccFft AccNewFinal GofSpec GofKs GofBeta ExactBj BjFacts BjSearch.
Import List. Import ListNotations.
Local Open Scope R_scope.

Lemma bounds_length {N : num} (g : Z -> Z -> car N -> car N) n x : List.length (Mn_plus_bounds g n x) = n.
Proof.
  unfold Mn_plus_bounds. rewrite map_length. generalize 1%Z. induction n as [|n IH]; intros a; simpl; auto.
Qed.

Section Inverse.
Context (L : libm) (E : env (Bnum L)) (betaincinv : Z -> Z -> f64 -> f64) (n : nat) (alpha : f64).
Notation BN := (Bnum L).
Notation bounds := (@Mn_plus_bounds BN betaincinv n).
Notation distribution := (@Mn_plus_distribution BN E betaincinv n).

(** scipy's vectors are boundaries the library accepts. *)
Definition bounds_accepted : Prop := forall x : f64, is_finite x = true -> 0 < B2R x <= 1 -> accepted64 (bounds x).

Lemma distribution_returns : bounds_accepted -> (1 <= Z.of_nat n <= INT_MAX)%Z -> fft_lengths E -> (n = 1%nat -> asserts E = false) ->
  forall x : f64, is_finite x = true -> 0 < B2R x <= 1 ->
  exists p, @ecdf1_new_b BN E (bounds x) = Ok p /\ distribution x = Value (Bminus mode_NE (b64_of_Z 1) p).
Proof.
  intros HB Hn HF Ha x Fx Hx. destruct (new64_returns L E (bounds x)) as (_ & p & Hp); auto.
  - rewrite (bounds_length (N := BN)). exact Hn.
  - rewrite (bounds_length (N := BN)). exact Ha.
  - exists p. split; auto. unfold Mn_plus_distribution. rewrite Hp. reflexivity.
Qed.

Definition test_succeeds (x : f64) : Prop := exists d, distribution x = Value d /\ Bltb d alpha = true.

Theorem inverse_converges j (x : f64) : bounds_accepted -> (1 <= Z.of_nat n <= INT_MAX)%Z -> fft_lengths E -> (n = 1%nat -> asserts E = false) ->
  (1 <= j <= 55)%Z -> is_finite x = true -> B2R x = bpow radix2 (- j) -> test_succeeds x ->
  exists r report lo hi, @inverse_Mn_plus BN E betaincinv n alpha = Value (r, report) /\ (r = lo \/ r = hi) /\
    is_finite lo = true /\ is_finite hi = true /\ 0 < B2R lo < B2R hi /\ B2R hi <= 1 /\
    (forall z : f64, ~ (B2R lo < B2R z < B2R hi)) /\ B2R hi - B2R lo <= bpow radix2 (-53) /\
    test_succeeds lo /\ (B2R hi < 1 -> ~ test_succeeds hi).
Proof.
  intros HB Hn HF Ha Hj Fx Vx Sx.
  assert (DD : defined_on distribution).
  { intros y Fy Hy. destruct (distribution_returns HB Hn HF Ha y Fy Hy) as (p & _ & Hp). eauto. }
  destruct (search_converges L distribution alpha DD j x Hj Fx Vx Sx) as (i & r & lo & hi & HE & Hi & F1 & F2 & H1 & H2 & H3 & H4 & H5 & H6 & Hr).
  assert (Fr : is_finite r = true /\ 0 < B2R r <= 1) by (destruct Hr as [-> | ->]; split; auto; lra).
  destruct (distribution_returns HB Hn HF Ha r (proj1 Fr) (proj2 Fr)) as (p & Hp & _).
  unfold inverse_Mn_plus. change N_BINARY_SEARCH_STEPS_MAX with 110%nat.
  rewrite HE. cbn [sbind]. change (Z.of_nat 110 - 1)%Z with 109%Z. rewrite (proj2 (Z.ltb_lt i 109) Hi). cbn [negb].
  rewrite Hp. cbn [call py_call sbind]. eexists r, _, lo, hi. split; [reflexivity|]. auto 12.
Qed.

Theorem inverse_fails : bounds_accepted -> (1 <= Z.of_nat n <= INT_MAX)%Z -> fft_lengths E -> (n = 1%nat -> asserts E = false) ->
  (forall j (x : f64), (1 <= j <= 55)%Z -> is_finite x = true -> B2R x = bpow radix2 (- j) -> ~ test_succeeds x) ->
  @inverse_Mn_plus BN E betaincinv n alpha = Exception "AssertionError".
Proof.
  intros HB Hn HF Ha HN.
  assert (DD : defined_on distribution).
  { intros y Fy Hy. destruct (distribution_returns HB Hn HF Ha y Fy Hy) as (p & _ & Hp). eauto. }
  destruct (search_fails L distribution alpha DD HN) as (r & HE).
  unfold inverse_Mn_plus. change N_BINARY_SEARCH_STEPS_MAX with 110%nat. rewrite HE. reflexivity.
Qed.
End Inverse.

(** ** The distribution function of M_n+ has slope at most n *)
Lemma union_bound m : forall n (A : list R -> Prop) (X : nat -> list R -> Prop) p (q : nat -> R),
  is_prob n A p -> (forall i, (i < m)%nat -> is_prob n (X i) (q i)) ->
  (forall l, List.length l = n -> Forall (fun x : R => 0 <= x <= 1) l -> A l -> exists i, (i < m)%nat /\ X i l) -> p <= rsum m q.
Proof.
  induction n as [|n IH]; intros A X p q HA HX HU.
  - assert (Hq : forall i, (i < m)%nat -> 0 <= q i) by (intros i Hi; apply (is_prob_range _ _ _ (HX i Hi))).
    destruct HA as [(HA & ->)|(_ & ->)]; [|apply rsum_nonneg; exact Hq].
    destruct (HU [] eq_refl (Forall_nil _) HA) as (i & Hi & Hx). specialize (HX i Hi).
    destruct HX as [(_ & E)|(HX & _)]; [|contradiction].
    clear -Hi Hq E. revert Hi Hq. induction m as [|m IHm]; intros Hi Hq; [lia|]. rewrite rsum_S.
    destruct (Nat.eq_dec i m) as [->|Hn].
    + rewrite E. assert (0 <= rsum m q) by (apply rsum_nonneg; intros; apply Hq; lia). lra.
    + specialize (IHm ltac:(lia) (fun j Hj => Hq j ltac:(lia))). pose proof (Hq m ltac:(lia)). lra.
  - destruct HA as (f & Hf & If).
    assert (HG : exists g : nat -> R -> R, forall i, (i < m)%nat ->
      (forall x, 0 <= x <= 1 -> is_prob n (fun l => X i (x :: l)) (g i x)) /\ is_RInt (g i) 0 1 (q i)).
    { clear -HX. induction m as [|m IHm]; [exists (fun _ _ => 0); intros; lia|].
      destruct IHm as (g & Hg); [intros; apply HX; lia|]. destruct (HX m ltac:(lia)) as (h & Hh).
      exists (fun i => if (i =? m)%nat then h else g i). intros i Hi. destruct (Nat.eqb_spec i m) as [->|]; [exact Hh|apply Hg; lia]. }
    destruct HG as (g & Hg).
    assert (IS : is_RInt (fun x => rsum m (fun i => g i x)) 0 1 (rsum m q)).
    { clear -Hg. induction m as [|m IHm].
      - simpl. apply is_RInt_const_eq. ring.
      - rewrite rsum_S. apply (is_RInt_ext (fun x => plus (rsum m (fun i => g i x)) (g m x))).
        + intros x _. rewrite rsum_S. reflexivity.
        + apply (is_RInt_plus (fun x => rsum m (fun i => g i x)) (g m)); [apply IHm; intros; apply Hg; lia|apply Hg; lia]. }
    refine (is_RInt_le f (fun x => rsum m (fun i => g i x)) 0 1 p (rsum m q) _ If IS _); [lra|].
    intros x Hx. apply (IH (fun l => A (x :: l)) (fun i l => X i (x :: l))).
    + apply Hf. lra.
    + intros i Hi. apply (Hg i Hi). lra.
    + intros l Hl HR Ha. apply HU; auto; [simpl; lia|]. constructor; [lra|exact HR].
Qed.

Definition Mn_below (v : R) (l : list R) : Prop := exists m, Mn_plus_is l m /\ m < v.

Lemma diff_prob n i u v x y : (i < n)%nat -> 0 <= x <= 1 -> 0 <= y <= 1 -> utail n (S i) x = u -> utail n (S i) y = v -> u <= v ->
  is_prob n (fun l => (S i <= count (fun z => Rlt_bool z y) l)%nat /\ ~ (S i <= count (fun z => Rlt_bool z x) l)%nat) (v - u).
Proof.
  intros Hi Hx Hy <- <- Hle.
  assert (Hxy : x <= y).
  { destruct (Rle_or_lt x y) as [|G]; auto. pose proof (utail_strict n i y x Hi ltac:(lra) G ltac:(lra)). lra. }
  replace (utail n (S i) y - utail n (S i) x) with (1 - ((1 - utail n (S i) y) + utail n (S i) x)) by ring.
  eapply is_prob_ext; [|apply is_prob_not, is_prob_or; [|apply is_prob_not, (count_prob n (S i) y Hy)|apply (count_prob n (S i) x Hx)]].
  - intros l Hl HR. simpl. lia.
  - intros l Hl HR (N1 & N2). apply N1. eapply Nat.le_trans; [exact N2|]. apply count_impl. intros z. rewrite !Rlt_bool_iff. lra.
Qed.

Lemma thresholds_exist n v : 0 <= v <= 1 -> exists b, thresholds n v b.
Proof.
  intros Hv. destruct (bounds_exact (frexp := fun _ => 0%Z) betaincinv_exact n v betaincinv_exact_ok Hv) as (b & _ & Hb). exists b. exact Hb.
Qed.

Lemma Mn_below_lipschitz n u v p q : (1 <= n)%nat -> 0 <= u <= v -> v <= 1 -> is_prob n (Mn_below u) p -> is_prob n (Mn_below v) q ->
  p <= q /\ q <= p + INR n * (v - u).
Proof.
  intros Hn Hu Hv Hp Hq. split.
  - eapply is_prob_mono; [|exact Hp|exact Hq]. intros l _ _ (m & Hm & Hlt). exists m. split; auto. lra.
  - destruct (thresholds_exist n u) as (b & Hb); [lra|]. destruct (thresholds_exist n v) as (c & Hc); [lra|].
    (* Mn_below v and not Mn_below u *)
    assert (HD : is_prob n (fun l => Mn_below v l /\ ~ Mn_below u l) (q - p)).
    { replace (q - p) with (1 - ((1 - q) + p)) by ring.
      eapply is_prob_ext; [|apply is_prob_not, is_prob_or; [|apply is_prob_not; exact Hq|exact Hp]].
      - intros l Hl HR. simpl. destruct (Classical_Prop.classic (Mn_below v l)); tauto.
      - intros l Hl HR (N & m & Hm & Hlt). apply N. exists m. split; auto. lra. }
    assert (q - p <= rsum n (fun _ => v - u)); [|rewrite rsum_const in *; lra].
    eapply (union_bound n n _ (fun i l => (S i <= count (fun z => Rlt_bool z (nth i c 0%R)) l)%nat /\ ~ (S i <= count (fun z => Rlt_bool z (nth i b 0%R)) l)%nat)); [exact HD| |].
    + intros i Hi. destruct Hb as (_ & Hb). destruct Hc as (_ & Hc). destruct (Hb i Hi). destruct (Hc i Hi). apply diff_prob; auto; lra.
    + intros l Hl HR (HV & HU). apply (below_event n v c l) in HV; auto.
      assert (HU' : noncrossing_b b l).
      { apply Classical_Prop.NNPP. intros N. apply HU. apply (below_event n u b l); auto. }
      rewrite noncrossing_b_count in HV by (destruct Hc; lia). rewrite noncrossing_b_count in HU' by (destruct Hb; lia).
      unfold ev_count_b in *. destruct Hb as (Lb & _). destruct Hc as (Lc & _). rewrite Lb in HU'. rewrite Lc in HV.
      apply Classical_Prop.NNPP. intros N. apply HV. intros i Hi.
      destruct (Nat.le_gt_cases (count (fun x => Rlt_bool x (nth i c 0%R)) l) i) as [|G]; auto.
      exfalso. apply N. exists i. split; auto. split; [lia|]. specialize (HU' i Hi). lia.
Qed.

(** ** The level of the returned threshold *)
Section Level.
Context (L : libm) (E : env (Bnum L)) (betaincinv : Z -> Z -> f64 -> f64) (n : nat).
Notation BN := (Bnum L).
Notation bounds := (@Mn_plus_bounds BN betaincinv n).

(** scipy's betaincinv in binary64: the numbers it returns differ from the exact inverses by at most delta. *)
Definition betaincinv_accurate (delta : R) : Prop := forall i (x : f64), (i < n)%nat -> is_finite x = true -> 0 < B2R x <= 1 ->
  exists y, 0 <= y <= 1 /\ beta_cdf (S i) (n - i) y = B2R x /\
    Rabs (B2R (betaincinv (Z.of_nat (S i)) (Z.of_nat (n - i)) x) - y) <= delta.

Definition library_accurate (acc : R) : Prop := forall x : f64, is_finite x = true -> 0 < B2R x <= 1 ->
  exists p r, is_prob n (noncrossing_b (map B2R (bounds x))) p /\ @ecdf1_new_b BN E (bounds x) = Ok r /\
    is_finite (r : f64) = true /\ Rabs (B2R (r : f64) - p) <= acc.

Lemma bounds_nth x i : (i < n)%nat -> nth i (map B2R (bounds x)) 0 = B2R (betaincinv (Z.of_nat (S i)) (Z.of_nat (n - i)) x).
Proof.
  intros Hi. unfold Mn_plus_bounds. change 1%Z with (Z.of_nat 1). rewrite arange_seq, !map_map.
  rewrite (nth_indep _ 0 (B2R (betaincinv (Z.of_nat 0) (Z.of_nat n - Z.of_nat 0 + Z.of_nat 1) x))) by (rewrite map_length, seq_length; exact Hi).
  rewrite (map_nth (fun k => B2R (betaincinv (Z.of_nat k) (Z.of_nat n - Z.of_nat k + Z.of_nat 1) x))).
  rewrite seq_nth by exact Hi. f_equal. f_equal. lia.
Qed.

Lemma distance_bound delta : forall u v, List.length u = List.length v -> (forall i, (i < List.length u)%nat -> Rabs (nth i u 0 - nth i v 0) <= delta) ->
  distance u v <= INR (List.length u) * delta.
Proof.
  induction u as [|x u IH]; intros [|y v] HL H; try discriminate.
  - simpl. lra.
  - cbn [distance List.length]. rewrite S_INR. pose proof (H 0%nat ltac:(simpl; lia)) as H0. simpl in H0.
    specialize (IH v ltac:(simpl in HL; lia) (fun i Hi => H (S i) ltac:(simpl; lia))). lra.
Qed.

Lemma distribution_level acc delta (x : f64) : (1 <= n)%nat -> bounds_accepted L betaincinv n -> betaincinv_accurate delta -> 0 <= delta -> library_accurate acc -> 0 <= acc <= 2 ->
  is_finite x = true -> 0 < B2R x <= 1 ->
  exists q (d : f64), is_prob n (Mn_below (B2R x)) q /\ @Mn_plus_distribution BN E betaincinv n x = Value d /\ is_finite d = true /\
    Rabs (B2R d - q) <= acc + INR n * (INR n * delta) + bpow radix2 (-51).
Proof.
  intros Hn HB HD Hd HA Hacc Fx Hx.
  destruct (HA x Fx Hx) as (p & r & Hp & Hr & Fr & Ar).
  (* the exact boundary *)
  assert (HT : exists b, thresholds n (B2R x) b /\ forall i, (i < n)%nat -> Rabs (nth i (map B2R (bounds x)) 0 - nth i b 0) <= delta).
  { destruct (thresholds_exist n (B2R x)) as (b & Hb); [lra|]. exists b. split; auto. intros i Hi.
    destruct (HD i x Hi Fx Hx) as (y & Hy & Ey & Dy). rewrite bounds_nth by exact Hi.
    destruct (proj2 Hb i Hi) as (R1 & E1). rewrite beta_is_utail in Ey by exact Hi.
    replace (nth i b 0) with y; auto.
    destruct (Rtotal_order y (nth i b 0)) as [G|[G|G]]; auto; exfalso.
    - pose proof (utail_strict n i y (nth i b 0) Hi ltac:(lra) G ltac:(lra)). lra.
    - pose proof (utail_strict n i (nth i b 0) y Hi ltac:(lra) G ltac:(lra)). lra. }
  destruct HT as (b & Hb & Hdist). pose proof (thresholds_valid _ _ _ Hb) as Vb. pose proof (proj1 Hb) as Lb.
  destruct (HB x Fx Hx) as (_ & Vbx).
  assert (LX : List.length (map B2R (bounds x)) = n) by (rewrite map_length; apply (bounds_length (N := BN))).
  assert (HP : exists pb, is_prob n (noncrossing_b b) pb) by (eexists; apply prob_is_D_b; auto). destruct HP as (pb & Hpb).
  exists (1 - pb). exists (Bminus mode_NE (b64_of_Z 1) r).
  assert (Hq : is_prob n (Mn_below (B2R x)) (1 - pb)).
  { eapply is_prob_ext; [|apply is_prob_not; exact Hpb]. intros l Hl HR. symmetry. apply (below_event n (B2R x) b l); auto. }
  split; auto. split.
  { unfold Mn_plus_distribution. rewrite Hr. reflexivity. }
  destruct one_ok as (F1 & V1). pose proof (is_prob_range _ _ _ Hp) as Rp.
  apply Rabs_le_inv in Ar.
  assert (Hone : Rabs (1 - B2R (r : f64)) <= 4) by (apply Rabs_le; lra).
  destruct (minus_err (b64_of_Z 1) r F1 Fr) as (Fd & Ed).
  { rewrite V1. eapply Rle_trans; [exact Hone|]. apply (bpow_le radix2 2 60). lia. }
  split; auto. rewrite V1 in Ed.
  assert (Hclose : Rabs (p - pb) <= INR n * (INR n * delta)).
  { pose proof (prob_b_close (map B2R (bounds x)) b p pb) as HC. rewrite LX, Lb in HC. specialize (HC eq_refl (proj2 Vbx) (proj2 Vb) Hp Hpb).
    eapply Rle_trans; [exact HC|]. apply Rmult_le_compat_l; [apply pos_INR|].
    pose proof (distance_bound delta (map B2R (bounds x)) b) as HDB. rewrite LX, Lb in HDB. apply HDB; auto. }
  assert (Hu : u64 * Rabs (1 - B2R (r : f64)) <= bpow radix2 (-51)).
  { eapply Rle_trans; [apply Rmult_le_compat_l; [left; apply u64_pos|exact Hone]|]. unfold u64.
    replace (bpow radix2 (-51)) with (bpow radix2 (-53) * 4); [lra|]. change 4 with (bpow radix2 2). rewrite <- bpow_plus. reflexivity. }
  apply Rabs_le_inv in Ed, Hclose. apply Rabs_le. lra.
Qed.

Theorem threshold_level (alpha : f64) acc delta j (x : f64) : bounds_accepted L betaincinv n -> (1 <= Z.of_nat n <= INT_MAX)%Z -> fft_lengths E -> (n = 1%nat -> asserts E = false) ->
  betaincinv_accurate delta -> 0 <= delta -> library_accurate acc -> 0 <= acc <= 2 -> is_finite alpha = true -> B2R alpha <= 1 ->
  (1 <= j <= 55)%Z -> is_finite x = true -> B2R x = bpow radix2 (- j) -> test_succeeds L E betaincinv n alpha x ->
  exists (r : f64) report q, @inverse_Mn_plus BN E betaincinv n alpha = Value (r, report) /\ is_finite r = true /\ 0 < B2R r <= 1 /\
    is_prob n (Mn_below (B2R r)) q /\
    Rabs (q - B2R alpha) <= acc + INR n * (INR n * delta) + bpow radix2 (-51) + INR n * bpow radix2 (-53).
Proof.
  intros HB Hn HF Ha HD Hd HA Hacc Fa Va Hj Fx Vx Sx.
  destruct (inverse_converges L E betaincinv n alpha j x) as (r & report & lo & hi & HE & Hr & F1 & F2 & H1 & H2 & _ & H4 & Slo & Shi); auto.
  assert (Hn1 : (1 <= n)%nat) by lia.
  destruct (distribution_level acc delta lo) as (q1 & d1 & P1 & D1 & Fd1 & A1); auto; [lra|].
  destruct (distribution_level acc delta hi) as (q2 & d2 & P2 & D2 & Fd2 & A2); auto; [lra|].
  set (e := acc + INR n * (INR n * delta) + bpow radix2 (-51)) in *.
  assert (He : 0 <= e).
  { unfold e. pose proof (bpow_ge_0 radix2 (-51)). pose proof (pos_INR n).
    pose proof (Rmult_le_pos (INR n) (INR n * delta) ltac:(auto) ltac:(apply Rmult_le_pos; auto)). lra. }
  assert (B1 : q1 <= B2R alpha + e).
  { destruct Slo as (d & Ed & Hlt). rewrite D1 in Ed. injection Ed as <-.
    rewrite (Bltb_correct 53 1024) in Hlt by auto. apply Rlt_bool_iff in Hlt. apply Rabs_le_inv in A1. lra. }
  assert (B2 : B2R alpha - e <= q2).
  { destruct (Rle_lt_or_eq_dec _ _ H2) as [Hlt|Heq].
    - specialize (Shi Hlt). assert (Hge : Bltb d2 alpha = false).
      { destruct (Bltb d2 alpha) eqn:Eq; auto. exfalso. apply Shi. exists d2. auto. }
      rewrite (Bltb_correct 53 1024) in Hge by auto. apply Rlt_bool_niff in Hge. apply Rabs_le_inv in A2. lra.
    - (* every statistic is below 1 but for a sample that touches 1 *)
      assert (q2 = 1); [|lra]. rewrite Heq in P2.
      destruct (thresholds_exist n 1) as (b & Hb); [lra|].
      destruct (proj2 Hb 0%nat ltac:(lia)) as (R0 & E0). pose proof (count_prob n 1 (nth 0 b 0) R0) as P0. rewrite E0 in P0.
      apply Rle_antisym; [apply (is_prob_range _ _ _ P2)|]. eapply is_prob_mono; [|exact P0|exact P2].
      intros l Hl HR HC. apply (below_event n 1 b l); auto. intros NC.
      rewrite noncrossing_b_count in NC by (destruct Hb; lia). unfold ev_count_b in NC.
      specialize (NC 0%nat ltac:(destruct Hb; lia)). cbv beta in HC. lia. }
  destruct (Mn_below_lipschitz n (B2R lo) (B2R hi) q1 q2) as (M1 & M2); auto; [lra|].
  assert (GAP : INR n * (B2R hi - B2R lo) <= INR n * bpow radix2 (-53)) by (apply Rmult_le_compat_l; [apply pos_INR|exact H4]).
  assert (HR : exists q, is_prob n (Mn_below (B2R r)) q /\ q1 <= q <= q2) by (destruct Hr as [-> | ->]; eauto using Rle_refl).
  destruct HR as (q & Hq & Hq1 & Hq2). exists r, report, q. split; auto.
  split; [destruct Hr as [-> | ->]; auto|]. split; [destruct Hr as [-> | ->]; lra|]. split; auto.
  apply Rabs_le. fold e. lra.
Qed.

(** 2^-55 *)
Definition f_tiny : f64 := @B754_finite 53 1024 false 4503599627370496 (-107) eq_refl.
Lemma f_tiny_val : B2R f_tiny = bpow radix2 (-55).
Proof. unfold f_tiny, B2R, F2R. cbn [Fnum Fexp cond_Zopp]. change 4503599627370496%Z with (Zpower radix2 52). rewrite IZR_Zpower by lia. rewrite <- bpow_plus. reflexivity. Qed.

Lemma Mn_below_small v q : (1 <= n)%nat -> 0 <= v <= 1 -> is_prob n (Mn_below v) q -> q <= INR n * v.
Proof.
  intros Hn Hv Hq. destruct (thresholds_exist n v Hv) as (c & Hc).
  assert (q <= rsum n (fun _ => v)); [|rewrite rsum_const in *; lra].
  eapply (union_bound n n _ (fun i l => (S i <= count (fun z => Rlt_bool z (nth i c 0%R)) l)%nat)); [exact Hq| |].
  - intros i Hi. destruct (proj2 Hc i Hi) as (R1 & E1). rewrite <- E1. apply count_prob. exact R1.
  - intros l Hl HR HV. apply (below_event n v c l) in HV; auto.
    rewrite noncrossing_b_count in HV by (destruct Hc; lia). unfold ev_count_b in *. destruct Hc as (Lc & _). rewrite Lc in HV.
    apply Classical_Prop.NNPP. intros N. apply HV. intros i Hi.
    destruct (Nat.le_gt_cases (count (fun x => Rlt_bool x (nth i c 0%R)) l) i) as [|G]; auto.
    exfalso. apply N. exists i. split; auto.
Qed.

Theorem inverse_level (alpha : f64) acc delta : bounds_accepted L betaincinv n -> (1 <= Z.of_nat n <= INT_MAX)%Z -> fft_lengths E -> (n = 1%nat -> asserts E = false) ->
  betaincinv_accurate delta -> 0 <= delta -> library_accurate acc -> 0 <= acc <= 2 -> is_finite alpha = true ->
  acc + INR n * (INR n * delta) + bpow radix2 (-51) + INR n * bpow radix2 (-55) < B2R alpha <= 1 ->
  exists (r : f64) report q, @inverse_Mn_plus BN E betaincinv n alpha = Value (r, report) /\ is_finite r = true /\ 0 < B2R r <= 1 /\
    is_prob n (Mn_below (B2R r)) q /\
    Rabs (q - B2R alpha) <= acc + INR n * (INR n * delta) + bpow radix2 (-51) + INR n * bpow radix2 (-53).
Proof.
  intros HB Hn HF Ha HD Hd HA Hacc Fa Va.
  assert (Hx : 0 < B2R f_tiny <= 1) by (rewrite f_tiny_val; split; [apply bpow_gt_0|apply (bpow_le radix2 (-55) 0); lia]).
  apply (threshold_level alpha acc delta 55 f_tiny); auto; [lra|lia|apply f_tiny_val|].
  destruct (distribution_level acc delta f_tiny) as (q & d & Hq & Ed & Fd & Hdq); auto; [lia|].
  exists d. split; auto. rewrite (Bltb_correct 53 1024) by auto. apply Rlt_bool_iff.
  apply Mn_below_small in Hq; [|lia|lra]. rewrite f_tiny_val in Hq. apply Rabs_le_inv in Hdq. lra.
Qed.

Theorem inverse_level_eps (alpha : f64) eps epsf delta : bounds_accepted L betaincinv n -> (1 <= Z.of_nat n <= INT_MAX)%Z -> (asserts E = true -> (2 <= n)%nat) ->
  betaincinv_accurate delta -> 0 <= delta ->
  libm_accurate L eps -> bpow radix2 (-53) <= eps -> fft_accurate E epsf -> bpow radix2 (-53) <= epsf -> fft_lengths E ->
  65536 * (INR n * INR n * sqrt (INR n)) * eps <= 1 -> 16384 * (INR n * INR n * sqrt (INR n)) * epsf <= 1 ->
  is_finite alpha = true ->
  60001 * (INR n * INR n * eps) + 9000 * (INR n * INR n * epsf) + INR n * (INR n * delta) + bpow radix2 (-51) + INR n * bpow radix2 (-55) < B2R alpha <= 1 ->
  exists (r : f64) report q, @inverse_Mn_plus BN E betaincinv n alpha = Value (r, report) /\ is_finite r = true /\ 0 < B2R r <= 1 /\
    is_prob n (Mn_below (B2R r)) q /\
    Rabs (q - B2R alpha) <= 60001 * (INR n * INR n * eps) + 9000 * (INR n * INR n * epsf) + INR n * (INR n * delta) + bpow radix2 (-51) + INR n * bpow radix2 (-53).
Proof.
  intros HB Hn Ha HD Hd HL He HF Hf HFL H2 H3 Fa Va.
  assert (H1 : 1 <= INR n) by (apply (le_INR 1); lia).
  assert (HS : 1 <= sqrt (INR n)) by (rewrite <- sqrt_1; apply sqrt_le_1; lra).
  assert (HNN : 1 <= INR n * INR n) by nra.
  pose proof (bpow_gt_0 radix2 (-53)) as HP.
  assert (K : forall c x, 0 < x -> 0 < c -> c * (INR n * INR n * sqrt (INR n)) * x <= 1 -> c * (INR n * INR n * x) <= 1).
  { intros c x Hx Hc H. eapply Rle_trans; [|exact H]. rewrite !Rmult_assoc. apply Rmult_le_compat_l; [lra|]. apply Rmult_le_compat_l; [lra|].
    apply Rmult_le_compat_l; [lra|]. rewrite <- (Rmult_1_l x) at 1. apply Rmult_le_compat_r; lra. }
  pose proof (K 65536 eps ltac:(lra) ltac:(lra) H2). pose proof (K 16384 epsf ltac:(lra) ltac:(lra) H3).
  assert (0 <= INR n * INR n * eps) by (apply Rmult_le_pos; lra). assert (0 <= INR n * INR n * epsf) by (apply Rmult_le_pos; lra).
  apply inverse_level; auto; [|intros x Fx Hx|lra].
  - intros ->. destruct (asserts E); auto. specialize (Ha eq_refl). lia.
  - pose proof (new_b_accurate L E eps epsf (bounds x)) as HX. rewrite (bounds_length (N := BN)) in HX. apply HX; auto. lia.
Qed.

Theorem inverse_level_1000 (alpha : f64) delta : bounds_accepted L betaincinv n -> (1 <= n <= 1000)%nat -> (asserts E = true -> (2 <= n)%nat) ->
  betaincinv_accurate delta -> 0 <= delta <= 1 / 10 ^ 11 ->
  libm_accurate L (bpow radix2 (-52)) -> fft_accurate E (bpow radix2 (-47)) -> fft_lengths E ->
  is_finite alpha = true -> 2 / 10000 <= B2R alpha <= 1 ->
  exists (r : f64) report q, @inverse_Mn_plus BN E betaincinv n alpha = Value (r, report) /\ is_finite r = true /\ 0 < B2R r <= 1 /\
    is_prob n (Mn_below (B2R r)) q /\ Rabs (q - B2R alpha) <= 1 / 8000.
Proof.
  intros HB Hn Ha HD Hd HL HF HFL Fa Va.
  assert (H1 : 1 <= INR n) by (apply (le_INR 1); lia).
  assert (H2 : INR n <= 1000) by (destruct Hn as (_ & Hn); apply le_INR in Hn; replace (INR 1000) with 1000 in Hn; [exact Hn|rewrite INR_IZR_INZ; reflexivity]).
  assert (HNN : INR n * (INR n * delta) <= 1000 * (1000 * (1 / 10 ^ 11))).
  { repeat (apply Rmult_le_compat; try lra). apply Rmult_le_pos; lra. }
  assert (H51 : bpow radix2 (-51) <= 1 / 10 ^ 6) by (change (bpow radix2 (-51)) with (/ IZR (2 ^ 51)); simpl; lra).
  assert (H53 : bpow radix2 (-53) <= 1 / 10 ^ 15) by (change (bpow radix2 (-53)) with (/ IZR (2 ^ 53)); simpl; lra).
  assert (H55 : bpow radix2 (-55) <= bpow radix2 (-53)) by (apply bpow_le; lia).
  pose proof (bpow_gt_0 radix2 (-55)) as P55.
  assert (HN3 : INR n * bpow radix2 (-53) <= 1000 * (1 / 10 ^ 15)) by (apply Rmult_le_compat; lra).
  assert (HN5 : INR n * bpow radix2 (-55) <= 1000 * (1 / 10 ^ 15)) by (apply Rmult_le_compat; lra).
  destruct (inverse_level alpha (1 / 10000) delta) as (r & report & q & HE & Fr & Vr & Hq & Hl); auto; try lra.
  - split; [lia|]. unfold INT_MAX. lia.
  - intros ->. destruct (asserts E); auto. specialize (Ha eq_refl). lia.
  - intros x Fx Hx. pose proof (new_b_accurate_1000 L E (bounds x)) as HX. rewrite (bounds_length (N := BN)) in HX. apply HX; auto.
  - exists r, report, q. repeat (split; [assumption|]). eapply Rle_trans; [exact Hl|]. lra.
Qed.
End Level.
