(** * GofSpec: the goodness-of-fit statistics of README.md:4-6 and benchmarks/exactbj.py, as mathematics. *)
From Coquelicot Require Import Coquelicot.
From Coq Require Import Reals List Permutation Sorted.
Import ListNotations.
Local Open Scope R_scope.

(** How many entries of v are at most t, and how many are below t. *)
Definition number_upto (v : list R) (t : R) : nat := length (filter (fun x => if Rle_dec x t then true else false) v).
Definition number_below (v : list R) (t : R) : nat := length (filter (fun x => if Rlt_dec x t then true else false) v).

(** The empirical CDF of a sample. *)
Definition empirical_cdf (sample : list R) (t : R) : R := INR (number_upto sample t) / INR (length sample).

(** The Kolmogorov-Smirnov statistics sup_t |F(t) - t|, sup_t (F(t) - t) and sup_t (t - F(t)) of a sample are at
    most d; F is the empirical CDF and the supremum is over [0,1]. *)
Definition ks_at_most (d : R) (sample : list R) : Prop :=
  forall t, 0 <= t <= 1 -> Rabs (empirical_cdf sample t - t) <= d.
Definition ks_plus_at_most (d : R) (sample : list R) : Prop :=
  forall t, 0 <= t <= 1 -> empirical_cdf sample t - t <= d.
Definition ks_minus_at_most (d : R) (sample : list R) : Prop :=
  forall t, 0 <= t <= 1 -> t - empirical_cdf sample t <= d.

(** The boundaries b_i = max (0, i/n - d) and B_i = min (1, (i-1)/n + d), i = 1, ..., n. *)
Definition ks_lower (n : nat) (d : R) : list R := map (fun i => Rmax 0 (INR (S i) / INR n - d)) (seq 0 n).
Definition ks_upper (n : nat) (d : R) : list R := map (fun i => Rmin 1 (INR i / INR n + d)) (seq 0 n).

(** The regularised incomplete beta function with integer parameters, scipy.special.betainc(a, b, x). *)
Definition beta_density (a b : nat) (t : R) : R := t ^ (a - 1) * (1 - t) ^ (b - 1).
Definition beta_cdf (a b : nat) (x : R) : R := RInt (beta_density a b) 0 x / RInt (beta_density a b) 0 1.

(** The statistic of benchmarks/exactbj.py:42-48 is m: the least of the p-values
    Pr[U_(i) < X_(i)] = I_{X_(i)} (i, n-i+1) of the order statistics. *)
Definition Mn_plus_is (sample : list R) (m : R) : Prop :=
  exists o, Permutation sample o /\ Sorted Rle o /\
    (exists i, (i < length o)%nat /\ m = beta_cdf (S i) (length o - i) (nth i o 0)) /\
    (forall i, (i < length o)%nat -> m <= beta_cdf (S i) (length o - i) (nth i o 0)).
