(** * RSum: finite sums of reals, truncated convolution, Poisson weights. *)
From Coq Require Import Reals Lia Lra Arith Factorial.
Local Open Scope R_scope.

(** sum of f 0, ..., f (n-1) *)
Fixpoint rsum (n : nat) (f : nat -> R) : R :=
  match n with
  | O => 0
  | S n => rsum n f + f n
  end.

Lemma rsum_S n f : rsum (S n) f = rsum n f + f n.
Proof. reflexivity. Qed.

Lemma rsum_ext n f g : (forall i, (i < n)%nat -> f i = g i) -> rsum n f = rsum n g.
Proof. induction n as [|n IH]; intros H; simpl; auto. rewrite IH, H; auto. Qed.

Lemma rsum_plus n f g : rsum n (fun i => f i + g i) = rsum n f + rsum n g.
Proof. induction n as [|n IH]; simpl; [ring|]. rewrite IH. ring. Qed.

Lemma rsum_minus n f g : rsum n (fun i => f i - g i) = rsum n f - rsum n g.
Proof. induction n as [|n IH]; simpl; [ring|]. rewrite IH. ring. Qed.

Lemma rsum_scal n c f : rsum n (fun i => c * f i) = c * rsum n f.
Proof. induction n as [|n IH]; simpl; [ring|]. rewrite IH. ring. Qed.

Lemma rsum_scal_r n c f : rsum n (fun i => f i * c) = rsum n f * c.
Proof. induction n as [|n IH]; simpl; [ring|]. rewrite IH. ring. Qed.

Lemma rsum_0 n f : (forall i, (i < n)%nat -> f i = 0) -> rsum n f = 0.
Proof. induction n as [|n IH]; intros H; simpl; auto. rewrite IH, H; auto. ring. Qed.

Lemma rsum_const n c : rsum n (fun _ => c) = INR n * c.
Proof. induction n as [|n IH]; [simpl; ring|]. cbn [rsum]. rewrite IH, S_INR. ring. Qed.

Lemma rsum_first n f : rsum (S n) f = f O + rsum n (fun i => f (S i)).
Proof. induction n as [|n IH]; [simpl; ring|]. cbn [rsum] in *. rewrite IH. ring. Qed.

Lemma rsum_add n m f : rsum (n + m) f = rsum n f + rsum m (fun i => f (n + i)%nat).
Proof.
  induction m as [|m IH]; [rewrite Nat.add_0_r; simpl; ring|].
  rewrite Nat.add_succ_r. cbn [rsum]. rewrite IH. ring.
Qed.

Lemma rsum_swap n m f : rsum n (fun i => rsum m (fun j => f i j)) = rsum m (fun j => rsum n (fun i => f i j)).
Proof.
  induction n as [|n IH]; simpl.
  - symmetry; apply rsum_0; auto.
  - rewrite IH, <- rsum_plus. reflexivity.
Qed.

Lemma rsum_rev n : forall f, rsum n f = rsum n (fun i => f (n - 1 - i)%nat).
Proof.
  induction n as [|n IH]; intros f; auto.
  rewrite rsum_first. cbn [rsum].
  replace (S n - 1 - n)%nat with O by lia.
  rewrite (IH (fun i => f (S i))), Rplus_comm. f_equal.
  apply rsum_ext. intros i Hi. f_equal. lia.
Qed.

(** only one non-zero term *)
Lemma rsum_single n k f : (k < n)%nat -> (forall i, (i < n)%nat -> i <> k -> f i = 0) -> rsum n f = f k.
Proof.
  induction n as [|n IH]; intros Hk H; [lia|]. cbn [rsum].
  destruct (Nat.eq_dec k n) as [->|Hne].
  - rewrite rsum_0; [ring|]. intros i Hi. apply H; lia.
  - rewrite IH by (try lia; intros; apply H; lia). rewrite (H n) by lia. ring.
Qed.

(** terms past n are zero *)
Lemma rsum_extend n m f : (n <= m)%nat -> (forall i, (n <= i < m)%nat -> f i = 0) -> rsum m f = rsum n f.
Proof.
  intros Hnm H. replace m with (n + (m - n))%nat by lia.
  rewrite rsum_add, (rsum_0 (m - n)); [ring|]. intros i Hi. apply H. lia.
Qed.

(** summing over the triangle o + j <= N by rows or by diagonals *)
Lemma rsum_triangle N : forall f,
  rsum (S N) (fun o => rsum (S (N - o)) (fun j => f o j)) =
  rsum (S N) (fun k => rsum (S k) (fun o => f o (k - o)%nat)).
Proof.
  induction N as [|N IH]; intros f.
  - simpl. ring.
  - rewrite (rsum_S (S N) (fun o => rsum (S (S N - o)) (fun j => f o j))), Nat.sub_diag.
    rewrite (rsum_S (S N) (fun k => rsum (S k) (fun o => f o (k - o)%nat))).
    rewrite (rsum_ext (S N) (fun o => rsum (S (S N - o)) (fun j => f o j))
               (fun o => rsum (S (N - o)) (fun j => f o j) + f o (S N - o)%nat)).
    2:{ intros i Hi. replace (S N - i)%nat with (S (N - i)) by lia. apply rsum_S. }
    rewrite rsum_plus, IH, (rsum_S (S N) (fun o => f o (S N - o)%nat)), Nat.sub_diag.
    simpl (rsum 1 _). ring.
Qed.

Lemma rsum_nonneg n f : (forall i, (i < n)%nat -> 0 <= f i) -> 0 <= rsum n f.
Proof.
  induction n as [|n IH]; intros H; simpl; [lra|].
  assert (0 <= f n) by (apply H; lia). assert (0 <= rsum n f) by (apply IH; intros; apply H; lia). lra.
Qed.

Lemma rsum_sum_f_R0 n f : rsum (S n) f = sum_f_R0 f n.
Proof. induction n as [|n IH]; [simpl; ring|]. cbn [rsum sum_f_R0] in *. rewrite IH. reflexivity. Qed.

(** ** Truncated convolution *)
Definition conv (f g : nat -> R) (N : nat) : R := rsum (S N) (fun k => f k * g (N - k)%nat).

Lemma conv_ext f f' g g' N : (forall i, (i <= N)%nat -> f i = f' i) -> (forall i, (i <= N)%nat -> g i = g' i) ->
  conv f g N = conv f' g' N.
Proof. intros Hf Hg. apply rsum_ext. intros i Hi. rewrite Hf, Hg by lia. reflexivity. Qed.

Lemma conv_comm f g N : conv f g N = conv g f N.
Proof.
  unfold conv. rewrite rsum_rev. apply rsum_ext. intros i Hi.
  replace (S N - 1 - i)%nat with (N - i)%nat by lia. replace (N - (N - i))%nat with i by lia. ring.
Qed.

Lemma conv_assoc f g h N : conv (conv f g) h N = conv f (conv g h) N.
Proof.
  unfold conv.
  rewrite (rsum_ext _ _ (fun k => rsum (S k) (fun o => f o * (g (k - o)%nat * h (N - k)%nat)))).
  2:{ intros i Hi. rewrite <- rsum_scal_r. apply rsum_ext. intros; ring. }
  rewrite <- (rsum_ext (S N) (fun k => rsum (S k) (fun o => f o * (g (k - o)%nat * h (N - o - (k - o))%nat)))).
  2:{ intros i Hi. apply rsum_ext. intros j Hj. replace (N - j - (i - j))%nat with (N - i)%nat by lia. ring. }
  rewrite <- (rsum_triangle N (fun o j => f o * (g j * h (N - o - j)%nat))).
  apply rsum_ext. intros i Hi. rewrite rsum_scal. reflexivity.
Qed.

Lemma conv_plus_l f f' g N : conv (fun i => f i + f' i) g N = conv f g N + conv f' g N.
Proof. unfold conv. rewrite <- rsum_plus. apply rsum_ext. intros; ring. Qed.

Lemma conv_minus_l f f' g N : conv (fun i => f i - f' i) g N = conv f g N - conv f' g N.
Proof. unfold conv. rewrite <- rsum_minus. apply rsum_ext. intros; ring. Qed.

Lemma conv_scal_l c f g N : conv (fun i => c * f i) g N = c * conv f g N.
Proof. unfold conv. rewrite <- rsum_scal. apply rsum_ext. intros; ring. Qed.

(** ** Poisson and monomial weights *)
Definition mono (w : R) (k : nat) : R := w ^ k / INR (fact k).
Definition pois (l : R) (k : nat) : R := exp (- l) * l ^ k / INR (fact k).

Lemma fact_neq k : INR (fact k) <> 0.
Proof. apply not_0_INR. apply fact_neq_0. Qed.

Lemma pois_mono l k : pois l k = exp (- l) * mono l k.
Proof. unfold pois, mono. field. apply fact_neq. Qed.

Lemma mono_0 w : mono w 0 = 1.
Proof. unfold mono; simpl. field. Qed.

Lemma mono_zero k : mono 0 k = if Nat.eqb k 0 then 1 else 0.
Proof.
  destruct k; unfold mono; simpl; [field|]. unfold Rdiv. rewrite !Rmult_0_l. reflexivity.
Qed.

(** Chapman-Kolmogorov *)
Lemma conv_mono a b N : conv (mono a) (mono b) N = mono (a + b) N.
Proof.
  unfold conv, mono. rewrite rsum_sum_f_R0, binomial. unfold Rdiv at 3.
  rewrite <- rsum_sum_f_R0, <- rsum_sum_f_R0, <- rsum_scal_r.
  apply rsum_ext. intros i Hi. unfold C.
  field. repeat split; apply fact_neq.
Qed.

Lemma conv_pois a b N : conv (pois a) (pois b) N = pois (a + b) N.
Proof.
  rewrite (conv_ext _ (fun k => exp (- a) * mono a k) _ (fun k => exp (- b) * mono b k)).
  2,3: intros; apply pois_mono.
  rewrite conv_scal_l, conv_comm, conv_scal_l, conv_comm, conv_mono, pois_mono.
  replace (- (a + b)) with (- a + - b) by ring. rewrite exp_plus. ring.
Qed.

Lemma pois_zero k : pois 0 k = if Nat.eqb k 0 then 1 else 0.
Proof. rewrite pois_mono, mono_zero, Ropp_0, exp_0. destruct k; simpl; ring. Qed.

Lemma mono_scal c w k : mono (c * w) k = c ^ k * mono w k.
Proof. unfold mono. rewrite Rpow_mult_distr. field. apply fact_neq. Qed.

Lemma mono_nonneg w k : 0 <= w -> 0 <= mono w k.
Proof.
  intros. unfold mono, Rdiv. apply Rmult_le_pos; [apply pow_le; auto|].
  left. apply Rinv_0_lt_compat, INR_fact_lt_0.
Qed.

(** a unit mass at i convolved with g *)
Definition delta (i : nat) (k : nat) : R := if Nat.eqb k i then 1 else 0.
Lemma conv_delta i g N : conv (delta i) g N = if (i <=? N)%nat then g (N - i)%nat else 0.
Proof.
  unfold conv, delta. destruct (Nat.leb_spec i N).
  - rewrite (rsum_single _ i); [rewrite Nat.eqb_refl; ring|lia|].
    intros j Hj Hne. destruct (Nat.eqb_spec j i); [lia|ring].
  - apply rsum_0. intros j Hj. destruct (Nat.eqb_spec j i); [lia|ring].
Qed.
