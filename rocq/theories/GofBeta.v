(** * GofBeta: the distribution of the order statistics of uniforms and the incomplete beta function. *)
From Coquelicot Require Import Coquelicot.
From Flocq Require Import Core.Raux.
From Coq Require Import ZArith Reals List Bool Lia Lra Permutation Sorted Factorial.
From Verif Require Import Base Num Spec SpecFacts Events ProbSums GofSpec GofKs.
Import List. Import ListNotations.
Local Open Scope R_scope.

(** The probability that at least i of n uniforms are below x. *)
Fixpoint utail (n i : nat) (x : R) : R :=
  match i, n with
  | O, _ => 1
  | S _, O => 0
  | S i', S n' => x * utail n' i' x + (1 - x) * utail n' i x
  end.

Lemma utail_0 n x : utail n 0 x = 1.
Proof. destruct n; reflexivity. Qed.
Lemma utail_big n : forall i x, (n < i)%nat -> utail n i x = 0.
Proof.
  induction n as [|n IH]; intros [|i] x H; try lia; [reflexivity|]. cbn [utail]. rewrite !IH by lia. ring.
Qed.
Lemma utail_at_0 n : forall i, utail n (S i) 0 = 0.
Proof. induction n as [|n IH]; intros i; [reflexivity|]. cbn [utail]. rewrite IH. ring. Qed.
Lemma utail_at_1 n : forall i, (i <= n)%nat -> utail n i 1 = 1.
Proof.
  induction n as [|n IH]; intros [|i] H; try lia; try reflexivity. cbn [utail]. rewrite IH by lia. ring.
Qed.
Lemma utail_range n : forall i x, 0 <= x <= 1 -> 0 <= utail n i x <= 1.
Proof.
  induction n as [|n IH]; intros [|i] x H; cbn [utail]; try lra.
  pose proof (IH i x H) as H1. pose proof (IH (S i) x H) as H2.
  pose proof (Rmult_le_compat_l x 0 (utail n i x) ltac:(lra) ltac:(lra)).
  pose proof (Rmult_le_compat_l x (utail n i x) 1 ltac:(lra) ltac:(lra)).
  pose proof (Rmult_le_compat_l (1 - x) 0 (utail n (S i) x) ltac:(lra) ltac:(lra)).
  pose proof (Rmult_le_compat_l (1 - x) (utail n (S i) x) 1 ltac:(lra) ltac:(lra)). lra.
Qed.

Lemma C_0 n : C n 0 = 1.
Proof. unfold C. rewrite Nat.sub_0_r. simpl (fact 0). simpl INR. pose proof (INR_fact_neq_0 n). field. auto. Qed.
Lemma C_n n : C n n = 1.
Proof. unfold C. rewrite Nat.sub_diag. simpl (fact 0). simpl INR. pose proof (INR_fact_neq_0 n). field. auto. Qed.
Lemma C_pos n i : 0 < C n i.
Proof.
  unfold C. apply Rdiv_lt_0_compat; [apply INR_fact_lt_0|]. apply Rmult_lt_0_compat; apply INR_fact_lt_0.
Qed.

Lemma utail_diff n : forall i x, (i <= n)%nat -> utail n i x - utail n (S i) x = C n i * x ^ i * (1 - x) ^ (n - i).
Proof.
  induction n as [|n IH]; intros i x H.
  - assert (i = 0)%nat as -> by lia. cbn [utail]. rewrite C_0. simpl. ring.
  - destruct i as [|i].
    + cbn [utail]. rewrite utail_0, C_0. specialize (IH 0%nat x ltac:(lia)). rewrite utail_0, C_0 in IH.
      rewrite Nat.sub_0_r in *. simpl pow in *.
      replace (1 - (x * 1 + (1 - x) * utail n 1 x)) with ((1 - x) * (1 - utail n 1 x)) by ring. rewrite IH. ring.
    + cbn [utail]. replace (x * utail n i x + (1 - x) * utail n (S i) x - (x * utail n (S i) x + (1 - x) * utail n (S (S i)) x))
        with (x * (utail n i x - utail n (S i) x) + (1 - x) * (utail n (S i) x - utail n (S (S i)) x)) by ring.
      rewrite (IH i) by lia. destruct (Nat.eq_dec i n) as [->|Hn].
      * rewrite !(utail_big n) by lia. rewrite !C_n, !Nat.sub_diag. simpl. ring.
      * rewrite (IH (S i)) by lia. rewrite <- (pascal n i) by lia.
        replace (n - i)%nat with (S (n - S i)) by lia. replace (S n - S i)%nat with (S (n - S i)) by lia. simpl. ring.
Qed.

(** The constant of the density of the (i+1)-th of m+1 order statistics. *)
Definition dens (m i : nat) (x : R) : R := INR (S m) * C m i * (x ^ i * (1 - x) ^ (m - i)).

Lemma C_shift m i : (i <= m)%nat -> INR (S m) * C m i = INR (S i) * C (S m) (S i).
Proof.
  intros H. unfold C. replace (S m - S i)%nat with (m - i)%nat by lia.
  rewrite !fact_simpl, !mult_INR. pose proof (INR_fact_neq_0 m). pose proof (INR_fact_neq_0 i). pose proof (INR_fact_neq_0 (m - i)).
  pose proof (not_0_INR (S i) ltac:(lia)). field. auto.
Qed.

Lemma utail_derive m : forall i x, (i <= m)%nat -> is_derive (utail (S m) (S i)) x (dens m i x).
Proof.
  induction m as [|m IH]; intros i x H.
  - assert (i = 0)%nat as -> by lia. apply (is_derive_ext (fun y => y)).
    { assert (HT : forall t : R, t = utail 1 1 t) by (intros t; cbn [utail]; ring). exact HT. }
    replace (dens 0 0 x) with 1 by (unfold dens; rewrite C_0; simpl; ring). apply (is_derive_id x).
  - set (A := utail (S m) i). set (A' := utail (S m) (S i)).
    assert (HA : is_derive A x (match i with O => 0 | S k => dens m k x end)).
    { unfold A. destruct i as [|k].
      - apply (is_derive_ext (fun _ => 1)); [intros t; rewrite utail_0; auto|]. apply (is_derive_const (1 : R) x).
      - apply IH. lia. }
    assert (HA' : is_derive A' x (if (i <=? m)%nat then dens m i x else 0)).
    { unfold A'. destruct (Nat.leb_spec i m).
      - apply IH. lia.
      - apply (is_derive_ext (fun _ => 0)); [intros t; rewrite utail_big; auto; lia|]. apply (is_derive_const (0 : R) x). }
    apply (is_derive_ext (fun t => t * A t + (1 - t) * A' t)); [intros t; reflexivity|].
    replace (dens (S m) i x) with ((A x + x * (match i with O => 0 | S k => dens m k x end))
      + (- A' x + (1 - x) * (if (i <=? m)%nat then dens m i x else 0))).
    + apply (is_derive_plus (fun t => t * A t) (fun t => (1 - t) * A' t)).
      * replace (A x + x * match i with O => 0 | S k => dens m k x end)
          with (1 * A x + x * match i with O => 0 | S k => dens m k x end) by ring.
        apply (is_derive_mult (fun t => t) A x 1 _ (is_derive_id x) HA Rmult_comm).
      * replace (- A' x + (1 - x) * (if (i <=? m)%nat then dens m i x else 0))
          with ((0 - 1) * A' x + (1 - x) * (if (i <=? m)%nat then dens m i x else 0)) by ring.
        apply (is_derive_mult (fun t => 1 - t) A' x (0 - 1)); [|exact HA'|apply Rmult_comm].
        apply (is_derive_minus (fun _ => 1) (fun t => t)); [apply (is_derive_const (1 : R) x)|apply (is_derive_id x)].
    + pose proof (utail_diff (S m) i x H) as HD. fold A A' in HD.
      transitivity ((A x - A' x) + (x * (match i with O => 0 | S k => dens m k x end) + (1 - x) * (if (i <=? m)%nat then dens m i x else 0))); [ring|].
      rewrite HD. unfold dens. destruct i as [|k].
      * cbn [Nat.leb]. rewrite !C_0, !Nat.sub_0_r, (S_INR (S m)). simpl pow. ring.
      * destruct (Nat.leb_spec (S k) m) as [Hk|Hk].
        -- rewrite <- (pascal m k) by lia. rewrite (S_INR (S m)).
           replace (S m - S k)%nat with (S (m - S k)) by lia. replace (m - k)%nat with (S (m - S k)) by lia. simpl pow. ring.
        -- assert (k = m) as -> by lia. rewrite !C_n, !Nat.sub_diag, (S_INR (S m)). simpl pow. ring.
Qed.

Lemma dens_cont m i x : continuous (dens m i) x.
Proof.
  apply (ex_derive_continuous (dens m i)). unfold dens. auto_derive. exact I.
Qed.

Lemma dens_RInt m i x : (i <= m)%nat -> is_RInt (dens m i) 0 x (utail (S m) (S i) x).
Proof.
  intros H. replace (utail (S m) (S i) x) with (minus (utail (S m) (S i) x) (utail (S m) (S i) 0)).
  2:{ rewrite utail_at_0. unfold minus, plus, opp. simpl. ring. }
  apply (is_RInt_derive (utail (S m) (S i)) (dens m i)).
  - intros t _. apply utail_derive. exact H.
  - intros t _. apply dens_cont.
Qed.

(** The incomplete beta function is a tail of the binomial distribution. *)
Theorem beta_is_utail n i x : (i < n)%nat -> beta_cdf (S i) (n - i) x = utail n (S i) x.
Proof.
  intros H. destruct n as [|m]; [lia|].
  set (c := INR (S m) * C m i). assert (Hc : c <> 0).
  { unfold c. apply Rmult_integral_contrapositive_currified; [apply not_0_INR; lia|]. pose proof (C_pos m i). lra. }
  assert (HB : forall y, RInt (beta_density (S i) (S m - i)) 0 y = utail (S m) (S i) y / c).
  { intros y. apply is_RInt_unique. replace (utail (S m) (S i) y / c) with (scal (/ c) (utail (S m) (S i) y)).
    2:{ unfold scal. simpl. unfold mult. simpl. field. exact Hc. }
    apply (is_RInt_ext (fun t => scal (/ c) (dens m i t))).
    - intros t _. change (/ c * dens m i t = beta_density (S i) (S m - i) t). unfold dens, beta_density. fold c.
      replace (S i - 1)%nat with i by lia. replace (S m - i - 1)%nat with (m - i)%nat by lia. field. exact Hc.
    - apply (is_RInt_scal (dens m i)). apply dens_RInt. lia. }
  unfold beta_cdf. rewrite !HB, utail_at_1 by lia. field. exact Hc.
Qed.

Lemma utail_strict n i x y : (i < n)%nat -> 0 <= x -> x < y -> y <= 1 -> utail n (S i) x < utail n (S i) y.
Proof.
  intros H Hx Hxy Hy. destruct n as [|m]; [lia|].
  destruct (MVT_cor2 (utail (S m) (S i)) (dens m i) x y Hxy) as (c & E & Hc).
  { intros c _. apply is_derive_Reals, utail_derive. lia. }
  assert (0 < dens m i c).
  { unfold dens. apply Rmult_lt_0_compat; [apply Rmult_lt_0_compat; [apply lt_0_INR; lia|apply C_pos]|].
    apply Rmult_lt_0_compat; apply pow_lt; lra. }
  pose proof (Rmult_lt_0_compat (dens m i c) (y - x) ltac:(lra) ltac:(lra)). lra.
Qed.
Lemma utail_inj_lt n i x y : (i < n)%nat -> 0 <= x <= 1 -> 0 <= y <= 1 -> (utail n (S i) x < utail n (S i) y <-> x < y).
Proof.
  intros H Hx Hy. split; intros HL; [|apply utail_strict; lra || auto].
  destruct (Rtotal_order x y) as [|[->|Hg]]; auto; [lra|]. pose proof (utail_strict n i y x H ltac:(lra) Hg ltac:(lra)). lra.
Qed.
Lemma utail_decreasing n i x : 0 <= x <= 1 -> utail n (S i) x <= utail n i x.
Proof.
  intros H. destruct (Nat.le_gt_cases i n) as [Hi|Hi].
  - pose proof (utail_diff n i x Hi). assert (0 <= C n i * x ^ i * (1 - x) ^ (n - i)); [|lra].
    pose proof (C_pos n i). apply Rmult_le_pos; [apply Rmult_le_pos; [lra|]|]; apply pow_le; lra.
  - rewrite !utail_big by lia. lra.
Qed.
Lemma utail_inverse n i v : (i < n)%nat -> 0 <= v <= 1 -> { x : R | 0 <= x <= 1 /\ utail n (S i) x = v }.
Proof.
  intros H Hv. destruct n as [|m]; [lia|].
  destruct (IVT_gen (utail (S m) (S i)) 0 1 v) as (x & Hx & E).
  - intros x. apply derivable_continuous_pt. exists (dens m i x). apply is_derive_Reals, utail_derive. lia.
  - rewrite utail_at_0, utail_at_1 by lia. rewrite Rmin_left, Rmax_right by lra. exact Hv.
  - rewrite Rmin_left, Rmax_right in Hx by lra. exists x. split; auto.
Qed.

(** ** The probability that the i-th smallest of n uniforms is below x *)
Lemma count_prob n : forall i x, 0 <= x <= 1 -> is_prob n (fun l => (i <= count (fun y => Rlt_bool y x) l)%nat) (utail n i x).
Proof.
  induction n as [|n IH]; intros [|i] x Hx.
  - apply is_prob_full. intros; lia.
  - apply is_prob_empty. intros l Hl. destruct l; [|discriminate]. unfold count. simpl. lia.
  - apply is_prob_full. intros; lia.
  - cbn [is_prob utail]. exists (fun y => if Rlt_bool y x then utail n i x else utail n (S i) x). split.
    + intros y Hy. unfold count. cbn [filter]. destruct (Rlt_bool y x).
      * eapply is_prob_ext; [|apply IH; exact Hx]. intros l _ _. unfold count. simpl. lia.
      * eapply is_prob_ext; [|apply IH; exact Hx]. intros l _ _. unfold count. lia.
    + apply (is_RInt_Chasles_R _ 0 x 1 (x * utail n i x) ((1 - x) * utail n (S i) x)); [| |reflexivity].
      * eapply is_RInt_ext; [|apply (is_RInt_const_eq (utail n i x)); ring].
        intros t Ht. rewrite Rmin_left, Rmax_right in Ht by lra. simpl. rewrite Rlt_bool_true by lra. reflexivity.
      * eapply is_RInt_ext; [|apply (is_RInt_const_eq (utail n (S i) x)); ring].
        intros t Ht. rewrite Rmin_left, Rmax_right in Ht by lra. simpl. rewrite Rlt_bool_false by lra. reflexivity.
Qed.

Theorem order_statistic_prob n i x : (i < n)%nat -> 0 <= x <= 1 ->
  is_prob n (fun l => exists o, Permutation l o /\ Sorted Rle o /\ nth i o 0 < x) (beta_cdf (S i) (n - i) x).
Proof.
  intros Hi Hx. rewrite beta_is_utail by auto. eapply is_prob_ext; [|apply (count_prob n (S i) x Hx)].
  intros l Hl _. simpl. split.
  - intros H. exists (rsort l). pose proof (rsort_perm l) as HP. split; auto. split; [apply StronglySorted_Sorted, rsort_sorted|].
    pose proof (Permutation_length HP). apply nth_lt_count; [apply rsort_sorted|lia|]. rewrite <- (count_perm _ _ _ HP). lia.
  - intros (o & HP & HS & H). apply Sorted_strong in HS. pose proof (Permutation_length HP).
    apply nth_lt_count in H; auto; [|lia]. rewrite (count_perm _ _ _ HP). lia.
Qed.
