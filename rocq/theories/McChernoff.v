(** * McChernoff: large errors of the Monte-Carlo estimate are exponentially rare. *)
From Coquelicot Require Import Coquelicot.
From Coq Require Import ZArith Reals List Bool Lia Lra.
From Verif Require Import Base Num XReal TinyMT MonteCarlo Spec SpecFacts McSpec McProbSpec McPoissonProb McEcdfProb McEstimate McPoissonEstimate.
Import List. Import ListNotations.
Local Open Scope R_scope.

Lemma exp_quadratic x : -1/2 <= x <= 1/2 -> exp x <= 1 + x + 2 * x ^ 2.
Proof.
  intros H. assert (A : exp x * (1 - x) <= 1).
  { replace 1 with (exp x * exp (- x)) at 2 by (rewrite <- exp_plus, <- exp_0; f_equal; ring).
    apply Rmult_le_compat_l; [left; apply exp_pos|]. pose proof (exp_ineq1_le (- x)). lra. }
  assert (B : 1 <= (1 + x + 2 * x ^ 2) * (1 - x)).
  { replace ((1 + x + 2 * x ^ 2) * (1 - x)) with (1 + x ^ 2 * (1 - 2 * x)) by ring.
    assert (0 <= x ^ 2 * (1 - 2 * x)) by (apply Rmult_le_pos; [apply pow2_ge_0|lra]). lra. }
  apply Rmult_le_reg_r with (1 - x); lra.
Qed.

Lemma binom_exp p s num : forall a, binom p num (fun j => exp (s * INR j + a)) = exp a * (p + (1 - p) * exp s) ^ num.
Proof.
  induction num as [|num IH]; intros a; cbn [binom pow].
  - simpl INR. rewrite Rmult_0_r, Rplus_0_l. ring.
  - rewrite IH, (binom_ext p num (fun j => exp (s * INR (S j) + a)) (fun j => exp (s * INR j + (s + a)))).
    + rewrite IH, exp_plus. ring.
    + intros j _. rewrite S_INR. f_equal. ring.
Qed.

Lemma step_mean p s : 0 <= p <= 1 -> -1/2 <= s <= 1/2 -> p + (1 - p) * exp s <= exp (s * (1 - p) + s ^ 2 / 2).
Proof.
  intros Hp Hs. replace (p + (1 - p) * exp s) with (exp (s * (1 - p)) * (p * exp (s * - (1 - p)) + (1 - p) * exp (s * p))).
  2:{ rewrite Rmult_plus_distr_l, <- !Rmult_assoc, !(Rmult_comm (exp (s * (1 - p)))), !Rmult_assoc, <- !exp_plus.
      replace (s * (1 - p) + s * - (1 - p)) with 0 by ring. replace (s * (1 - p) + s * p) with s by ring. rewrite exp_0. ring. }
  rewrite exp_plus. apply Rmult_le_compat_l; [left; apply exp_pos|].
  assert (B : forall q, 0 <= q <= 1 -> -1/2 <= s * q <= 1/2 /\ -1/2 <= s * - q <= 1/2).
  { intros q Hq. assert (A : Rabs (s * q) <= 1/2).
    { rewrite Rabs_mult, (Rabs_pos_eq q) by lra. rewrite <- (Rmult_1_r (1/2)). apply Rmult_le_compat; try lra; [apply Rabs_pos|apply Rabs_le; lra]. }
    apply Rabs_le_between in A. lra. }
  pose proof (exp_quadratic (s * - (1 - p)) (proj2 (B (1 - p) ltac:(lra)))) as E1.
  pose proof (exp_quadratic (s * p) (proj1 (B p Hp))) as E2.
  assert (F1 : p * exp (s * - (1 - p)) <= p * (1 + s * - (1 - p) + 2 * (s * - (1 - p)) ^ 2)) by (apply Rmult_le_compat_l; lra).
  assert (F2 : (1 - p) * exp (s * p) <= (1 - p) * (1 + s * p + 2 * (s * p) ^ 2)) by (apply Rmult_le_compat_l; lra).
  assert (E : p * (1 + s * - (1 - p) + 2 * (s * - (1 - p)) ^ 2) + (1 - p) * (1 + s * p + 2 * (s * p) ^ 2) = 1 + s ^ 2 * (2 * (p * (1 - p)))) by ring.
  assert (Q : 2 * (p * (1 - p)) <= 1/2) by (pose proof (pow2_ge_0 (2 * p - 1)); lra).
  assert (G : s ^ 2 * (2 * (p * (1 - p))) <= s ^ 2 * (1/2)) by (apply Rmult_le_compat_l; [apply pow2_ge_0|exact Q]).
  pose proof (exp_ineq1_le (s ^ 2 / 2)). lra.
Qed.

Lemma exp_INR a n : exp a ^ n = exp (INR n * a).
Proof.
  induction n as [|n IH]; [simpl; rewrite Rmult_0_l, exp_0; reflexivity|].
  cbn [pow]. rewrite IH, <- exp_plus, S_INR. f_equal. ring.
Qed.

Lemma one_tail p num s : 0 <= p <= 1 -> -1/2 <= s <= 1/2 ->
  binom p num (fun j => exp (s * INR j + (- (s * (INR num * (1 - p))) - INR num * s ^ 2))) <= exp (- (INR num * s ^ 2) / 2).
Proof.
  intros Hp Hs. rewrite binom_exp.
  apply Rle_trans with (exp (- (s * (INR num * (1 - p))) - INR num * s ^ 2) * exp (INR num * (s * (1 - p) + s ^ 2 / 2))).
  - apply Rmult_le_compat_l; [left; apply exp_pos|]. rewrite <- exp_INR. apply pow_incr. split; [|apply step_mean; auto].
    apply Rplus_le_le_0_compat; [lra|]. apply Rmult_le_pos; [lra|left; apply exp_pos].
  - rewrite <- exp_plus. right. f_equal. field.
Qed.

Lemma chernoff p num eps : 0 <= p <= 1 -> 0 < eps <= 1/2 -> (1 <= num)%nat ->
  binom p num (fun j => if Rlt_dec eps (Rabs (INR j / INR num - (1 - p))) then 1 else 0) <= 2 * exp (- (INR num * eps ^ 2) / 2).
Proof.
  intros Hp He Hn. assert (N0 : 0 < INR num) by (apply lt_0_INR; lia).
  set (up := fun j => exp (eps * INR j + (- (eps * (INR num * (1 - p))) - INR num * eps ^ 2))).
  set (down := fun j => exp (- eps * INR j + (- (- eps * (INR num * (1 - p))) - INR num * (- eps) ^ 2))).
  apply Rle_trans with (binom p num (fun j => up j + 1 * down j)).
  - apply binom_mono; auto. intros j _. unfold up, down. set (d := INR j / INR num - (1 - p)).
    replace (eps * INR j + (- (eps * (INR num * (1 - p))) - INR num * eps ^ 2)) with (eps * INR num * (d - eps)) by (unfold d; field; lra).
    replace (- eps * INR j + (- (- eps * (INR num * (1 - p))) - INR num * (- eps) ^ 2)) with (eps * INR num * (- d - eps)) by (unfold d; field; lra).
    pose proof (exp_pos (eps * INR num * (d - eps))) as P1. pose proof (exp_pos (eps * INR num * (- d - eps))) as P2.
    destruct (Rlt_dec eps (Rabs d)) as [H|H]; [|lra].
    assert (E0 : 0 < eps * INR num) by (apply Rmult_lt_0_compat; lra).
    destruct (Rle_lt_dec 0 d) as [D|D].
    + rewrite Rabs_pos_eq in H by lra. pose proof (exp_ineq1_le (eps * INR num * (d - eps))).
      assert (0 <= eps * INR num * (d - eps)) by (apply Rmult_le_pos; lra). lra.
    + rewrite Rabs_left in H by lra. pose proof (exp_ineq1_le (eps * INR num * (- d - eps))).
      assert (0 <= eps * INR num * (- d - eps)) by (apply Rmult_le_pos; lra). lra.
  - rewrite binom_lin. pose proof (one_tail p num eps Hp ltac:(lra)) as T1. pose proof (one_tail p num (- eps) Hp ltac:(lra)) as T2.
    fold up in T1. fold down in T2. replace ((- eps) ^ 2) with (eps ^ 2) in T2 by ring. lra.
Qed.

Theorem estimate_exponential b B n p num eps : valid_boundary b -> valid_boundary B ->
  b = [] \/ length b = n -> (length B <= n)%nat ->
  is_noncrossing_probability (if b then repeat 0 n else b) (B ++ repeat 1 (n - length B)) p -> (1 <= num)%nat -> 0 < eps <= 1/2 ->
  exists q, q <= 2 * exp (- (INR num * eps ^ 2) / 2) /\
  has_prob (num * S n)
    (fun us => exists cs, length cs = num /\ outcomes (S n) (ecdf_inside b B) cs us /\
       eps < Rabs (IZR (crossings cs) / INR num - (1 - p))) q.
Proof.
  intros Vb VB Hb HB Hp Hn He. pose proof (ecdf_inside_prob_padded b B n p Vb VB Hb HB Hp) as HI.
  eexists. split; [apply (chernoff p num eps (has_prob_range _ _ _ HI) He Hn)|].
  eapply has_prob_ext; [|pose proof (count_law _ _ _ HI num
    (fun j => if Rlt_dec eps (Rabs (INR j / INR num - (1 - p))) then true else false)) as H].
  2:{ rewrite (binom_ext p num _ (fun j => if Rlt_dec eps (Rabs (INR j / INR num - (1 - p))) then 1 else 0)) in H; [exact H|].
      intros j _. destruct Rlt_dec; reflexivity. }
  intros us _ _. split; intros (cs & L & O & H); exists cs; split; auto; split; auto.
  - destruct Rlt_dec as [G|G]; [|discriminate]. unfold crossings. rewrite <- INR_IZR_INZ. exact G.
  - unfold crossings in H. rewrite <- INR_IZR_INZ in H. destruct Rlt_dec; auto.
Qed.

Theorem poisson_exponential (b B : list R) lambda p num eps : b <> [] -> 0 < lambda ->
  is_prob (S (length b)) (poisson_inside (/ lambda) b B) p -> (1 <= num)%nat -> 0 < eps <= 1/2 ->
  exists q, q <= 2 * exp (- (INR num * eps ^ 2) / 2) /\
  is_prob (num * S (length b))
    (fun us => exists cs, length cs = num /\ poisson_outcomes (/ lambda) b B cs us /\
       eps < Rabs (IZR (crossings cs) / INR num - (1 - p))) q.
Proof.
  intros NE Hl HP Hn He.
  eexists. split; [apply (chernoff p num eps (is_prob_range _ _ _ HP) He Hn)|]. rewrite <- (Nat.add_0_r (num * S (length b))).
  eapply is_prob_ext; [|pose proof (stopped_count_law b B lambda Hl p NE HP num 0
    (fun j => if Rlt_dec eps (Rabs (INR j / INR num - (1 - p))) then true else false)) as H].
  2:{ rewrite (binom_ext p num _ (fun j => if Rlt_dec eps (Rabs (INR j / INR num - (1 - p))) then 1 else 0)) in H; [exact H|].
      intros j _. destruct Rlt_dec; reflexivity. }
  intros us _ _. split; intros (cs & L & O & H); exists cs; split; auto; split; auto.
  - destruct Rlt_dec as [G|G]; [|discriminate]. unfold crossings. rewrite <- INR_IZR_INZ. exact G.
  - unfold crossings in H. rewrite <- INR_IZR_INZ in H. destruct Rlt_dec; auto.
Qed.
