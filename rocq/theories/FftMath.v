(** * FftMath: the discrete Fourier transform of inexact data. *)
From Coq Require Import ZArith Reals List Lia Lra.
From Verif Require Import RSum Dft ErrBound.
Local Open Scope R_scope.

Lemma rsum_abs n f : Rabs (rsum n f) <= rsum n (fun i => Rabs (f i)).
Proof.
  induction n as [|n IH]; simpl; [rewrite Rabs_R0; lra|].
  eapply Rle_trans; [apply Rabs_triang|]. lra.
Qed.

Lemma cos_abs x : Rabs (cos x) <= 1.
Proof. pose proof (COS_bound x). apply Rabs_le. lra. Qed.
Lemma sin_abs x : Rabs (sin x) <= 1.
Proof. pose proof (SIN_bound x). apply Rabs_le. lra. Qed.
Lemma mul_abs1 x c : Rabs c <= 1 -> Rabs (x * c) <= Rabs x.
Proof. intros H. rewrite Rabs_mult. pose proof (Rabs_pos x). nra. Qed.

Lemma dft_re_abs n x k : Rabs (dft_re n x k) <= rsum n (fun j => Rabs (x j)).
Proof.
  eapply Rle_trans; [apply rsum_abs|]. apply rsum_le. intros i _. apply mul_abs1, cos_abs.
Qed.
Lemma dft_im_abs n x k : Rabs (dft_im n x k) <= rsum n (fun j => Rabs (x j)).
Proof.
  unfold dft_im. rewrite Rabs_Ropp. eapply Rle_trans; [apply rsum_abs|]. apply rsum_le. intros i _. apply mul_abs1, sin_abs.
Qed.

(** the sum of the magnitudes of both parts of the half spectrum *)
Definition l1c (h : nat) (re im : nat -> R) : R := rsum (S h) (fun k => Rabs (re k) + Rabs (im k)).

Lemma idft_abs h re im j : (0 < h)%nat -> Rabs (idft (2 * h) re im j) <= 2 * l1c h re im.
Proof.
  intros Hh. unfold idft.
  assert (Hd : (2 * h / 2 = h)%nat) by (rewrite Nat.mul_comm; apply Nat.div_mul; lia). rewrite Hd.
  unfold l1c. destruct h as [|h]; [lia|]. rewrite rsum_S, rsum_first. cbv beta. replace (S h - 1)%nat with h by lia.
  set (S1 := rsum h (fun i => Rabs (re (S i)) + Rabs (im (S i)))).
  set (S2 := rsum h (fun i => re (S i) * cos (2 * PI * INR j * INR (S i) / INR (2 * S h)) - im (S i) * sin (2 * PI * INR j * INR (S i) / INR (2 * S h)))).
  assert (H1 : Rabs S2 <= S1).
  { eapply Rle_trans; [apply rsum_abs|]. apply rsum_le. intros i _.
    eapply Rle_trans; [apply Rabs_triang|]. rewrite Rabs_Ropp.
    apply Rplus_le_compat; apply mul_abs1; [apply cos_abs|apply sin_abs]. }
  assert (H2 : Rabs ((-1) ^ j * re (S h)) <= Rabs (re (S h))).
  { rewrite Rmult_comm. apply mul_abs1. rewrite pow_1_abs. lra. }
  pose proof (Rabs_triang (re 0%nat + (-1) ^ j * re (S h)) (2 * S2)) as T1.
  pose proof (Rabs_triang (re 0%nat) ((-1) ^ j * re (S h))) as T2.
  rewrite (Rabs_mult 2), (Rabs_pos_eq 2) in T1 by lra.
  pose proof (Rabs_pos (re 0%nat)). pose proof (Rabs_pos (im 0%nat)). pose proof (Rabs_pos (re (S h))). pose proof (Rabs_pos (im (S h))).
  lra.
Qed.

Definition wave h (re im : nat -> R) j (i : nat) : R :=
  re (S i) * cos (2 * PI * INR j * INR (S i) / INR (2 * h)) - im (S i) * sin (2 * PI * INR j * INR (S i) / INR (2 * h)).
Lemma idft_wave h re im j :
  idft (2 * h) re im j = re O + (-1) ^ j * re (2 * h / 2)%nat + 2 * rsum (2 * h / 2 - 1) (wave h re im j).
Proof. reflexivity. Qed.

Lemma idft_minus h re im re' im' j :
  idft (2 * h) re im j - idft (2 * h) re' im' j = idft (2 * h) (fun k => re k - re' k) (fun k => im k - im' k) j.
Proof.
  rewrite !idft_wave.
  rewrite (rsum_ext _ (wave h (fun k => re k - re' k) _ j) (fun i => wave h re im j i - wave h re' im' j i)).
  - rewrite rsum_minus. ring.
  - intros i _. unfold wave. ring.
Qed.

Lemma idft_scal h c re im j :
  idft (2 * h) (fun k => c * re k) (fun k => c * im k) j = c * idft (2 * h) re im j.
Proof.
  rewrite !idft_wave.
  rewrite (rsum_ext _ (wave h (fun k => c * re k) _ j) (fun i => c * wave h re im j i)).
  - rewrite rsum_scal. ring.
  - intros i _. unfold wave. ring.
Qed.

Lemma idft_ext h re im re' im' j : (0 < h)%nat ->
  (forall k, (k <= h)%nat -> re k = re' k) -> (forall k, (k <= h)%nat -> im k = im' k) ->
  idft (2 * h) re im j = idft (2 * h) re' im' j.
Proof.
  intros Hh H1 H2. unfold idft.
  assert (Hd : (2 * h / 2 = h)%nat) by (rewrite Nat.mul_comm; apply Nat.div_mul; lia). rewrite Hd.
  rewrite !H1 by lia. f_equal. f_equal. apply rsum_ext. intros i Hi. cbv zeta. rewrite H1, H2 by lia. reflexivity.
Qed.

(** an approximate spectrum of the product gives an approximate convolution *)
Lemma idft_near h sz x y re im e j : (0 < h)%nat -> (sz <= h)%nat -> (j < sz)%nat ->
  (forall i, (sz <= i)%nat -> x i = 0) -> (forall i, (sz <= i)%nat -> y i = 0) ->
  (forall k, (k <= h)%nat -> Rabs (re k - / INR (2 * h) * prod_re (2 * h) x y k) <= e) ->
  (forall k, (k <= h)%nat -> Rabs (im k - / INR (2 * h) * prod_im (2 * h) x y k) <= e) ->
  Rabs (idft (2 * h) re im j - conv x y j) <= 4 * INR (S h) * e.
Proof.
  intros Hh Hsz Hj Hx Hy Hre Him.
  assert (H0 : INR (2 * h) <> 0) by (apply not_0_INR; lia).
  replace (conv x y j) with (idft (2 * h) (fun k => / INR (2 * h) * prod_re (2 * h) x y k) (fun k => / INR (2 * h) * prod_im (2 * h) x y k) j).
  - rewrite idft_minus. eapply Rle_trans; [apply idft_abs; exact Hh|].
    unfold l1c. replace (4 * INR (S h) * e) with (2 * (INR (S h) * (e + e))) by ring. apply Rmult_le_compat_l; [lra|].
    rewrite <- rsum_const. apply rsum_le. intros k Hk. apply Rplus_le_compat; [apply Hre|apply Him]; lia.
  - rewrite idft_scal, (idft_conv h sz) by assumption. rewrite <- Rmult_assoc, Rinv_l by exact H0. apply Rmult_1_l.
Qed.
