(** * GofKs: the empirical CDF, the Kolmogorov-Smirnov statistics and the boundaries. *)
From Coquelicot Require Import Coquelicot.
From Flocq Require Import Core.Raux.
From Coq Require Import ZArith Reals List Bool Lia Lra Permutation Sorted.
From Verif Require Import Base Num XReal Common Ecdf2 Ecdf1New Ecdf1Mns XCommon XFft Spec SpecFacts Events ExactFacts ExactMore XEcdf1NewMain XMns ProbSums GofSpec.
Import List. Import ListNotations.
Local Open Scope R_scope.

Lemma filter_ext_R (P Q : R -> bool) l : (forall x, P x = Q x) -> filter P l = filter Q l.
Proof. intros H. induction l as [|x l IH]; simpl; auto. rewrite H, IH. reflexivity. Qed.
Lemma upto_count v t : number_upto v t = count (fun x => Rle_bool x t) v.
Proof.
  unfold number_upto, count. f_equal. apply filter_ext_R. intros x.
  destruct (Rle_dec x t); [rewrite Rle_bool_true|rewrite Rle_bool_false]; auto; lra.
Qed.
Lemma below_count v t : number_below v t = count (fun x => Rlt_bool x t) v.
Proof.
  unfold number_below, count. f_equal. apply filter_ext_R. intros x.
  destruct (Rlt_dec x t); [rewrite Rlt_bool_true|rewrite Rlt_bool_false]; auto; lra.
Qed.

Lemma count_mono (P : R -> bool) l l' : Forall2 (fun x y => P x = true -> P y = true) l l' -> (count P l <= count P l')%nat.
Proof.
  unfold count. induction 1 as [|x y l l' H HF IH]; simpl; auto.
  destruct (P x); [rewrite (H eq_refl); simpl; lia|]. destruct (P y); simpl; lia.
Qed.
Lemma Forall2_imp (P Q : R -> R -> Prop) l l' : (forall x y, P x y -> Q x y) -> Forall2 P l l' -> Forall2 Q l l'.
Proof. intros H. induction 1; constructor; auto. Qed.

(** ** The event of the boundaries is a band around the empirical CDF *)
Theorem band (b B sample : list R) : Sorted Rle b -> Sorted Rle B -> length b = length sample -> length B = length sample ->
  (noncrossing b B sample <->
   forall t, (number_upto B t <= number_upto sample t)%nat /\ (number_below sample t <= number_below b t)%nat).
Proof.
  intros Sb SB Lb LB. apply Sorted_strong in Sb, SB. split.
  - intros (o & HP & HS & H1 & H2) t. rewrite !upto_count, !below_count, !(count_perm _ _ _ HP). split.
    + apply count_mono. clear -H2. induction H2; constructor; auto. rewrite !Rle_bool_iff. lra.
    + apply count_mono. clear -H1. induction H1; constructor; auto. rewrite !Rlt_bool_iff. lra.
  - intros H. apply noncrossing_both. split.
    + apply noncrossing_b_count; auto. intros i Hi. destruct (H (nth i b 0)) as (_ & H2). rewrite !below_count in H2.
      eapply Nat.le_trans; [exact H2|].
      destruct (Nat.le_gt_cases (count (fun x => Rlt_bool x (nth i b 0)) b) i) as [|Hc]; auto.
      apply (nth_lt_count b Sb i (nth i b 0) Hi) in Hc. lra.
    + apply noncrossing_B_count; auto. intros i Hi. destruct (H (nth i B 0)) as (H1 & _). rewrite !upto_count in H1.
      eapply Nat.lt_le_trans; [|exact H1]. apply (nth_le_count B SB i (nth i B 0) Hi). lra.
Qed.

(** ** Kolmogorov-Smirnov *)
Lemma seq_sorted (f : nat -> R) : (forall i j, (i <= j)%nat -> f i <= f j) -> forall n k, Sorted Rle (map f (seq k n)).
Proof.
  intros H. induction n as [|n IH]; intros k; simpl; constructor; auto.
  destruct n; simpl; constructor. apply H. lia.
Qed.
Lemma div_mono n i j : (i <= j)%nat -> INR i / INR n <= INR j / INR n.
Proof.
  intros H. unfold Rdiv. destruct n as [|n].
  - simpl. rewrite Rinv_0, !Rmult_0_r. lra.
  - apply Rmult_le_compat_r; [left; apply Rinv_0_lt_compat, lt_0_INR; lia|]. apply le_INR. exact H.
Qed.
Lemma div_le_1 n i : (i <= n)%nat -> (1 <= n)%nat -> INR i / INR n <= 1.
Proof.
  intros H H1. pose proof (div_mono n i n H). assert (0 < INR n) by (apply lt_0_INR; lia).
  unfold Rdiv in *. rewrite Rinv_r in H0; lra.
Qed.
Lemma div_ge_0 n i : 0 <= INR i / INR n.
Proof. pose proof (div_mono n 0 i ltac:(lia)). unfold Rdiv in *. simpl in *. lra. Qed.
Lemma ks_lower_length n d : length (ks_lower n d) = n.
Proof. unfold ks_lower. rewrite map_length, seq_length. reflexivity. Qed.
Lemma ks_upper_length n d : length (ks_upper n d) = n.
Proof. unfold ks_upper. rewrite map_length, seq_length. reflexivity. Qed.
Lemma ks_lower_valid n d : 0 <= d -> valid_boundary (ks_lower n d).
Proof.
  intros Hd. split.
  - unfold ks_lower. apply seq_sorted. intros i j H. pose proof (div_mono n (S i) (S j) ltac:(lia)).
    apply Rle_max_compat_l. lra.
  - unfold ks_lower. apply Forall_map. apply Forall_forall. intros i Hi. apply in_seq in Hi.
    pose proof (div_le_1 n (S i) ltac:(lia) ltac:(lia)). split; [apply Rmax_l|]. apply Rmax_lub; lra.
Qed.
Lemma ks_upper_valid n d : 0 <= d -> valid_boundary (ks_upper n d).
Proof.
  intros Hd. split.
  - unfold ks_upper. apply seq_sorted. intros i j H. pose proof (div_mono n i j H).
    apply Rle_min_compat_l. lra.
  - unfold ks_upper. apply Forall_map. apply Forall_forall. intros i Hi. apply in_seq in Hi.
    pose proof (div_ge_0 n i). split; [|apply Rmin_l]. apply Rmin_glb; lra.
Qed.
Lemma ks_lower_nth n d i : (i < n)%nat -> nth i (ks_lower n d) 0 = Rmax 0 (INR (S i) / INR n - d).
Proof.
  intros H. unfold ks_lower. rewrite (nth_indep _ 0 (Rmax 0 (INR (S 0) / INR n - d))) by (rewrite map_length, seq_length; auto).
  rewrite (map_nth (fun i => Rmax 0 (INR (S i) / INR n - d)) (seq 0 n) 0%nat). rewrite seq_nth by auto. reflexivity.
Qed.
Lemma ks_upper_nth n d i : (i < n)%nat -> nth i (ks_upper n d) 0 = Rmin 1 (INR i / INR n + d).
Proof.
  intros H. unfold ks_upper. rewrite (nth_indep _ 0 (Rmin 1 (INR 0 / INR n + d))) by (rewrite map_length, seq_length; auto).
  rewrite (map_nth (fun i => Rmin 1 (INR i / INR n + d)) (seq 0 n) 0%nat). rewrite seq_nth by auto. reflexivity.
Qed.

Lemma count_impl (P Q : R -> bool) l : (forall x, P x = true -> Q x = true) -> (count P l <= count Q l)%nat.
Proof.
  intros H. unfold count. induction l as [|x l IH]; simpl; auto. specialize (H x).
  destruct (P x); [rewrite H by auto; simpl; lia|]. destruct (Q x); simpl; lia.
Qed.

Theorem ks_plus_event n d l : length l = n -> 0 <= d -> Forall (fun x => 0 <= x <= 1) l ->
  (ks_plus_at_most d l <-> noncrossing_b (ks_lower n d) l).
Proof.
  intros Hl Hd HR. rewrite noncrossing_b_count by (rewrite ks_lower_length; auto).
  unfold ev_count_b. rewrite ks_lower_length. split.
  - intros H i Hi. rewrite ks_lower_nth by auto. set (c := Rmax 0 (INR (S i) / INR n - d)).
    destruct (Nat.le_gt_cases (count (fun x => Rlt_bool x c) l) i) as [|Hc]; auto. exfalso.
    (* the (i+1)-th order statistic is below c *)
    pose proof (rsort_perm l) as HP. pose proof (rsort_sorted l) as HS. pose proof (Permutation_length HP) as HL.
    rewrite (count_perm _ _ _ HP) in Hc. apply nth_lt_count in Hc; auto; [|lia].
    set (x := nth i (rsort l) 0) in *.
    assert (Hx : 0 <= x <= 1).
    { assert (In x l) by (apply (Permutation_in _ (Permutation_sym HP)), nth_In; lia). rewrite Forall_forall in HR. auto. }
    specialize (H x Hx). unfold empirical_cdf in H. rewrite upto_count, Hl in H.
    assert (Hn : (S i <= count (fun y => Rle_bool y x) l)%nat).
    { rewrite (count_perm _ _ _ HP). apply (nth_le_count _ HS i x ltac:(lia)). unfold x. lra. }
    pose proof (div_mono n _ _ Hn). unfold c in Hc. destruct (Rle_dec 0 (INR (S i) / INR n - d)).
    + rewrite Rmax_right in Hc by lra. lra.
    + rewrite Rmax_left in Hc by lra. lra.
  - intros H t Ht. unfold empirical_cdf. rewrite upto_count, Hl.
    set (k := count (fun x => Rle_bool x t) l). destruct (Rle_or_lt (INR k / INR n - t) d) as [|Hk]; auto. exfalso.
    destruct k as [|i] eqn:Ek; [unfold Rdiv in Hk; simpl in Hk; lra|].
    assert (Hi : (i < n)%nat) by (pose proof (count_le_length (fun x => Rle_bool x t) l); unfold k in Ek; lia).
    specialize (H i Hi). rewrite ks_lower_nth in H by auto.
    assert (count (fun x => Rle_bool x t) l <= count (fun x => Rlt_bool x (Rmax 0 (INR (S i) / INR n - d))) l)%nat; [|unfold k in Ek; lia].
    apply count_impl. intros x. rewrite Rle_bool_iff, Rlt_bool_iff. intros Hx. eapply Rlt_le_trans; [|apply Rmax_r]. lra.
Qed.

Theorem ks_minus_event n d l : length l = n -> (1 <= n)%nat -> 0 <= d -> Forall (fun x => 0 <= x <= 1) l ->
  (ks_minus_at_most d l <-> noncrossing_B (ks_upper n d) l).
Proof.
  intros Hl Hn Hd HR. rewrite noncrossing_B_count by (rewrite ks_upper_length; auto).
  unfold ev_count_B. rewrite ks_upper_length. split.
  - intros H i Hi. rewrite ks_upper_nth by auto. set (c := Rmin 1 (INR i / INR n + d)).
    pose proof (rsort_perm l) as HP. pose proof (rsort_sorted l) as HS. pose proof (Permutation_length HP) as HL.
    rewrite (count_perm _ _ _ HP). apply nth_le_count; auto; [lia|].
    set (x := nth i (rsort l) 0) in *.
    assert (Hx : 0 <= x <= 1).
    { assert (In x l) by (apply (Permutation_in _ (Permutation_sym HP)), nth_In; lia). rewrite Forall_forall in HR. auto. }
    apply Rmin_glb; [lra|]. apply le_epsilon. intros eps He.
    destruct (Rle_or_lt x (INR i / INR n + d + eps)) as [|Hc]; auto. exfalso.
    pose proof (div_ge_0 n i).
    assert (Ht : 0 <= x - eps <= 1) by lra. specialize (H _ Ht).
    unfold empirical_cdf in H. rewrite upto_count, Hl in H.
    assert (Hk : (count (fun y => Rle_bool y (x - eps)) l <= i)%nat).
    { destruct (Nat.le_gt_cases (count (fun y => Rle_bool y (x - eps)) l) i) as [|Hg]; auto.
      rewrite (count_perm _ _ _ HP) in Hg. apply nth_le_count in Hg; auto; [|lia]. fold x in Hg. lra. }
    pose proof (div_mono n _ _ Hk). lra.
  - intros H t Ht. unfold empirical_cdf. rewrite upto_count, Hl.
    set (k := count (fun x => Rle_bool x t) l).
    assert (Hk : (k <= n)%nat) by (unfold k; rewrite <- Hl; apply count_le_length).
    destruct (Nat.eq_dec k n) as [->|Hne].
    + unfold Rdiv. rewrite Rinv_r by (apply not_0_INR; lia). lra.
    + specialize (H k ltac:(lia)). rewrite ks_upper_nth in H by lia.
      destruct (Rle_or_lt (t - INR k / INR n) d) as [|Hg]; auto. exfalso.
      assert (count (fun x => Rle_bool x (Rmin 1 (INR k / INR n + d))) l <= k)%nat; [|lia].
      apply count_impl. intros x. rewrite !Rle_bool_iff. intros Hx. pose proof (Rmin_r 1 (INR k / INR n + d)). lra.
Qed.

Theorem ks_event n d l : length l = n -> (1 <= n)%nat -> 0 <= d -> Forall (fun x => 0 <= x <= 1) l ->
  (ks_at_most d l <-> noncrossing (ks_lower n d) (ks_upper n d) l).
Proof.
  intros Hl Hn Hd HR. rewrite noncrossing_both, <- (ks_plus_event n d l), <- (ks_minus_event n d l) by auto.
  unfold ks_at_most, ks_plus_at_most, ks_minus_at_most. split.
  - intros H. split; intros t Ht; specialize (H t Ht); apply Rabs_le_inv in H; lra.
  - intros (H1 & H2) t Ht. specialize (H1 t Ht). specialize (H2 t Ht). apply Rabs_le. lra.
Qed.

(** ** The programs' results *)
Section Programs.
Context {frexp : xr -> Z} (E : env (Xnum frexp)).

Theorem ks_two_sided n d use_fft : (1 <= n)%nat -> 0 <= d -> sort_ok E -> (use_fft = true -> fft_ok E) ->
  exists p, is_prob n (fun l => ~ ks_at_most d l) p /\
    ecdf2 E (map Fin (ks_lower n d)) (map Fin (ks_upper n d)) use_fft = Ok (Fin (1 - p)).
Proof.
  intros Hn Hd HS HF.
  assert (HL : length (ks_lower n d) = length (ks_upper n d)) by (rewrite ks_lower_length, ks_upper_length; auto).
  assert (HA : forall i, (S i < length (ks_lower n d))%nat -> nth i (ks_lower n d) 0 <= nth (S i) (ks_upper n d) 0).
  { rewrite ks_lower_length. intros i Hi. rewrite ks_lower_nth, ks_upper_nth by lia.
    pose proof (div_ge_0 n (S i)). pose proof (div_le_1 n (S i) ltac:(lia) Hn).
    apply Rmax_lub; apply Rmin_glb; lra. }
  assert (HE : exists q, is_noncrossing_probability (ks_lower n d) (ks_upper n d) q /\
    ecdf2 E (map Fin (ks_lower n d)) (map Fin (ks_upper n d)) use_fft = Ok (Fin q)).
  { destruct use_fft.
    - apply ecdf2_fft_exact; auto using ks_lower_valid, ks_upper_valid.
    - apply ecdf2_direct_exact; auto using ks_lower_valid, ks_upper_valid. }
  destruct HE as (q & (_ & Hq) & Hr). rewrite ks_lower_length in Hq.
  exists (1 - q). split; [|rewrite Hr; do 2 f_equal; ring].
  apply (is_prob_ext n (fun l => ~ noncrossing (ks_lower n d) (ks_upper n d) l)); [|apply is_prob_not; exact Hq].
  intros l Hl HR. rewrite (ks_event n d l) by auto. tauto.
Qed.

Theorem ks_one_sided_new n d : (1 <= n)%nat -> (Z.of_nat n <= INT_MAX)%Z -> (asserts E = true -> (2 <= n)%nat) -> 0 <= d -> fft_ok E ->
  (exists p, is_prob n (fun l => ~ ks_plus_at_most d l) p /\ ecdf1_new_b E (map Fin (ks_lower n d)) = Ok (Fin (1 - p))) /\
  (exists p, is_prob n (fun l => ~ ks_minus_at_most d l) p /\ ecdf1_new_B E (map Fin (ks_upper n d)) = Ok (Fin (1 - p))).
Proof.
  intros Hn Hm Ha Hd HF. split.
  - destruct (new_b_total E (ks_lower n d)) as (q & Hq & Hr); auto using ks_lower_valid; rewrite ?ks_lower_length; auto.
    rewrite ks_lower_length in Hq. exists (1 - q). split; [|rewrite Hr; do 2 f_equal; ring].
    apply (is_prob_ext n (fun l => ~ noncrossing_b (ks_lower n d) l)); [|apply is_prob_not; exact Hq].
    intros l Hl HR. rewrite (ks_plus_event n d l) by auto. tauto.
  - destruct (new_B_total E (ks_upper n d)) as (q & Hq & Hr); auto using ks_upper_valid; rewrite ?ks_upper_length; auto.
    rewrite ks_upper_length in Hq. exists (1 - q). split; [|rewrite Hr; do 2 f_equal; ring].
    apply (is_prob_ext n (fun l => ~ noncrossing_B (ks_upper n d) l)); [|apply is_prob_not; exact Hq].
    intros l Hl HR. rewrite (ks_minus_event n d l) by auto. tauto.
Qed.

Theorem ks_one_sided_mns n d : (1 <= n)%nat -> 0 <= d -> long_double_ok E ->
  (exists p, is_prob n (fun l => ~ ks_plus_at_most d l) p /\ ecdf1_mns2016_b E (map Fin (ks_lower n d)) = Ok (Fin (1 - p))) /\
  (exists p, is_prob n (fun l => ~ ks_minus_at_most d l) p /\ ecdf1_mns2016_B E (map Fin (ks_upper n d)) = Ok (Fin (1 - p))).
Proof.
  intros Hn Hd HF. split.
  - destruct (mns_b_total E (ks_lower n d)) as (q & Hq & Hr); auto using ks_lower_valid.
    rewrite ks_lower_length in Hq. exists (1 - q). split; [|rewrite Hr; do 2 f_equal; ring].
    apply (is_prob_ext n (fun l => ~ noncrossing_b (ks_lower n d) l)); [|apply is_prob_not; exact Hq].
    intros l Hl HR. rewrite (ks_plus_event n d l) by auto. tauto.
  - destruct (mns_B_total E (ks_upper n d)) as (q & Hq & Hr); auto using ks_upper_valid.
    rewrite ks_upper_length in Hq. exists (1 - q). split; [|rewrite Hr; do 2 f_equal; ring].
    apply (is_prob_ext n (fun l => ~ noncrossing_B (ks_upper n d) l)); [|apply is_prob_not; exact Hq].
    intros l Hl HR. rewrite (ks_minus_event n d l) by auto. tauto.
Qed.
End Programs.
