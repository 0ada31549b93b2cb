(** * ErrBound: how relative and absolute errors pass through products, sums and roundings. *)
From Coq Require Import Reals Lia Lra Factorial.
From Verif Require Import RSum.
Local Open Scope R_scope.

(** [xh] approximates [x] up to the factor [f] and the absolute error [a]. *)
Definition near (f a xh x : R) : Prop := Rabs (xh - x) <= (f - 1) * x + a.

Lemma near_refl x : near 1 0 x x.
Proof. unfold near. rewrite Rminus_diag_eq, Rabs_R0 by reflexivity. lra. Qed.

Lemma near_weaken f a f' a' xh x : 0 <= x -> f <= f' -> a <= a' -> near f a xh x -> near f' a' xh x.
Proof. unfold near. intros Hx Hf Ha H. assert ((f - 1) * x <= (f' - 1) * x) by (apply Rmult_le_compat_r; lra). lra. Qed.

Lemma near_abs f a xh x : 0 <= x -> near f a xh x -> Rabs xh <= f * x + a.
Proof.
  unfold near. intros Hx H. replace xh with ((xh - x) + x) by ring.
  eapply Rle_trans; [apply Rabs_triang|]. rewrite (Rabs_pos_eq x) by exact Hx. lra.
Qed.

Lemma near_round f a u e xh x y : 0 <= x -> 0 <= u -> near f a xh x ->
  Rabs (y - xh) <= u * Rabs xh + e -> near (f * (1 + u)) (a * (1 + u) + e) y x.
Proof.
  intros Hx Hu H Hy. pose proof (near_abs _ _ _ _ Hx H) as Ha. unfold near in *.
  replace (y - x) with ((y - xh) + (xh - x)) by ring.
  eapply Rle_trans; [apply Rabs_triang|].
  assert (u * Rabs xh <= u * (f * x + a)) by (apply Rmult_le_compat_l; auto). lra.
Qed.

Lemma near_plus f a1 a2 xh x yh y : near f a1 xh x -> near f a2 yh y -> near f (a1 + a2) (xh + yh) (x + y).
Proof.
  unfold near. intros H1 H2. replace (xh + yh - (x + y)) with ((xh - x) + (yh - y)) by ring.
  eapply Rle_trans; [apply Rabs_triang|]. lra.
Qed.

Lemma near_mult f1 a1 f2 a2 ph p sh s : 0 <= p -> 0 <= s ->
  near f1 a1 ph p -> near f2 a2 sh s ->
  near (f1 * f2) (a2 * f1 * p + a1 * f2 * s + a1 * a2) (ph * sh) (p * s).
Proof.
  intros Hp Hs H1 H2. pose proof (near_abs _ _ _ _ Hs H2) as Ha. unfold near in *.
  replace (ph * sh - p * s) with ((ph - p) * sh + p * (sh - s)) by ring.
  eapply Rle_trans; [apply Rabs_triang|]. rewrite !Rabs_mult, (Rabs_pos_eq p) by exact Hp.
  assert (Rabs (ph - p) * Rabs sh <= ((f1 - 1) * p + a1) * (f2 * s + a2)).
  { apply Rmult_le_compat; try apply Rabs_pos; auto. }
  assert (p * Rabs (sh - s) <= p * ((f2 - 1) * s + a2)) by (apply Rmult_le_compat_l; auto).
  nra.
Qed.

(** ** Sums *)
Lemma rsum_le n f g : (forall i, (i < n)%nat -> f i <= g i) -> rsum n f <= rsum n g.
Proof. induction n as [|n IH]; intros H; simpl; [lra|]. apply Rplus_le_compat; auto. Qed.

Lemma rsum_incr n m f : (n <= m)%nat -> (forall i, (i < m)%nat -> 0 <= f i) -> rsum n f <= rsum m f.
Proof.
  intros Hnm H. replace m with (n + (m - n))%nat by lia. rewrite rsum_add.
  assert (0 <= rsum (m - n) (fun i => f (n + i)%nat)) by (apply rsum_nonneg; intros; apply H; lia). lra.
Qed.

Lemma rsum_term n f i : (i < n)%nat -> (forall i, (i < n)%nat -> 0 <= f i) -> f i <= rsum n f.
Proof.
  intros Hi H. apply Rle_trans with (rsum (S i) f).
  - rewrite rsum_S. assert (0 <= rsum i f) by (apply rsum_nonneg; intros; apply H; lia). lra.
  - apply rsum_incr; [lia|exact H].
Qed.

Lemma pow_incr1 u n m : 0 <= u -> (n <= m)%nat -> (1 + u) ^ n <= (1 + u) ^ m.
Proof. intros Hu Hnm. apply Rle_pow; [lra|lia]. Qed.
Lemma pow_ge1 u n : 0 <= u -> 1 <= (1 + u) ^ n.
Proof. intros Hu. apply pow_R1_Rle. lra. Qed.

(** ** Poisson masses *)
Lemma pois_pos l k : 0 <= l -> 0 <= pois l k.
Proof. intros. rewrite pois_mono. apply Rmult_le_pos; [apply Rlt_le, exp_pos|apply mono_nonneg; auto]. Qed.

Lemma mono_sum_exp l N : 0 <= l -> rsum N (mono l) <= exp l.
Proof.
  intros Hl. destruct N as [|N]; [simpl; apply Rlt_le, exp_pos|].
  rewrite rsum_sum_f_R0. unfold exp. destruct (exist_exp l) as [e He]. simpl.
  apply (sum_incr (mono l) N e).
  - unfold exp_in, infinite_sum in He. intros eps Heps. destruct (He eps Heps) as [n0 Hn0]. exists n0.
    intros n Hn. specialize (Hn0 n Hn).
    replace (sum_f_R0 (mono l) n) with (sum_f_R0 (fun i => / INR (fact i) * l ^ i) n); [exact Hn0|].
    apply sum_eq. intros i _. unfold mono. field. apply fact_neq.
  - intros n. apply mono_nonneg; auto.
Qed.

Lemma pois_sum l N : 0 <= l -> rsum N (pois l) <= 1.
Proof.
  intros Hl. rewrite (rsum_ext _ _ (fun k => exp (- l) * mono l k)) by (intros; apply pois_mono).
  rewrite rsum_scal. apply Rle_trans with (exp (- l) * exp l).
  - apply Rmult_le_compat_l; [apply Rlt_le, exp_pos|apply mono_sum_exp; auto].
  - rewrite <- exp_plus, Rplus_opp_l, exp_0. lra.
Qed.

Lemma pois_le1 l k : 0 <= l -> pois l k <= 1.
Proof.
  intros Hl. eapply Rle_trans; [|apply (pois_sum l (S k) Hl)].
  apply (rsum_term (S k) (pois l) k); [lia|]. intros; apply pois_pos; auto.
Qed.

Lemma conv_nonneg f g N : (forall i, (i <= N)%nat -> 0 <= f i) -> (forall i, (i <= N)%nat -> 0 <= g i) -> 0 <= conv f g N.
Proof. intros Hf Hg. apply rsum_nonneg. intros i Hi. apply Rmult_le_pos; [apply Hf|apply Hg]; lia. Qed.

Lemma conv_mass l q n : 0 <= l -> (forall i, 0 <= q i) -> rsum (S n) (conv (pois l) q) <= rsum (S n) q.
Proof.
  intros Hl Hq.
  rewrite (rsum_ext _ _ (fun k => rsum (S k) (fun o => q o * pois l (k - o)%nat))).
  2:{ intros k Hk. rewrite conv_comm. reflexivity. }
  rewrite <- (rsum_triangle n (fun o j => q o * pois l j)).
  apply rsum_le. intros o Ho. rewrite rsum_scal. pose proof (pois_sum l (S (n - o)) Hl). specialize (Hq o). nra.
Qed.

(** e^n n! is at most e n^(n+1) *)
Lemma fact_bound n : (1 <= n)%nat -> INR (fact n) * exp (INR n) <= exp 1 * INR n ^ S n.
Proof.
  induction n as [|n IH]; intros Hn; [lia|]. destruct (Nat.eq_dec n 0) as [->|Hn0].
  - simpl. lra.
  - specialize (IH ltac:(lia)).
    assert (Hp : 0 < INR n) by (apply lt_0_INR; lia).
    assert (Hk : exp 1 * INR n ^ S n <= INR (S n) ^ S n).
    { assert (H1 : INR n * / INR (S n) <= exp (- / INR (S n))).
      { replace (INR n * / INR (S n)) with (1 + - / INR (S n)); [apply exp_ineq1_le|].
        rewrite S_INR. field. lra. }
      assert (HS : 0 < INR (S n)) by (apply lt_0_INR; lia).
      assert (H2 : (INR n * / INR (S n)) ^ S n <= exp (- 1)).
      { eapply Rle_trans; [apply pow_incr; split; [|exact H1]|].
        - apply Rmult_le_pos; [lra|apply Rlt_le, Rinv_0_lt_compat; exact HS].
        - assert (HE : forall x m, exp x ^ m = exp (INR m * x)).
          { intros x m. induction m as [|m IHm]; [simpl; rewrite Rmult_0_l, exp_0; reflexivity|].
            rewrite S_INR. replace ((INR m + 1) * x) with (x + INR m * x) by ring. rewrite exp_plus.
            cbn [pow]. rewrite IHm. reflexivity. }
          rewrite HE. replace (INR (S n) * - / INR (S n)) with (-1) by (field; lra). lra. }
      rewrite Rpow_mult_distr, <- Rinv_pow in H2 by lra.
      assert (HP : 0 < INR (S n) ^ S n) by (apply pow_lt; exact HS).
      apply (Rmult_le_reg_r (/ (INR (S n) ^ S n))); [apply Rinv_0_lt_compat; exact HP|].
      rewrite Rinv_r by lra. rewrite Rmult_assoc.
      apply Rle_trans with (exp 1 * exp (-1)).
      - apply Rmult_le_compat_l; [apply Rlt_le, exp_pos|exact H2].
      - rewrite <- exp_plus. replace (1 + -1) with 0 by ring. rewrite exp_0. lra. }
    rewrite fact_simpl, mult_INR.
    assert (HE1 : exp (INR (S n)) = exp (INR n) * exp 1) by (rewrite S_INR, exp_plus; reflexivity).
    rewrite HE1. replace (INR (S n) * INR (fact n) * (exp (INR n) * exp 1)) with
       (INR (S n) * exp 1 * (INR (fact n) * exp (INR n))) by ring.
    assert (0 < INR (S n)) by (apply lt_0_INR; lia). pose proof (exp_pos 1).
    apply Rle_trans with (INR (S n) * exp 1 * (exp 1 * INR n ^ S n)).
    { apply Rmult_le_compat_l; [nra|exact IH]. }
    apply Rle_trans with (INR (S n) * exp 1 * INR (S n) ^ S n).
    { apply Rmult_le_compat_l; [nra|exact Hk]. }
    cbn [pow]. nra.
Qed.

Lemma pois_nn_ge n : (1 <= n)%nat -> / (3 * INR n) <= pois (INR n) n.
Proof.
  intros Hn. pose proof (fact_bound n Hn) as H.
  assert (Hp : 0 < INR n) by (apply lt_0_INR; lia).
  pose proof (INR_fact_lt_0 n) as Hf. pose proof (exp_pos (INR n)) as He.
  pose proof (pow_lt _ n Hp) as HP. pose proof exp_le_3 as H3.
  apply (Rmult_le_reg_l (3 * INR n)); [lra|]. rewrite Rinv_r by lra.
  unfold pois. rewrite exp_Ropp.
  apply (Rmult_le_reg_r (INR (fact n) * exp (INR n))); [nra|].
  replace (3 * INR n * (/ exp (INR n) * INR n ^ n / INR (fact n)) * (INR (fact n) * exp (INR n)))
    with (3 * INR n * INR n ^ n) by (field; lra).
  rewrite Rmult_1_l. eapply Rle_trans; [exact H|]. cbn [pow].
  assert (0 < INR n * INR n ^ n) by nra. nra.
Qed.
