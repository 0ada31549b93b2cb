(** * Dft: the discrete Fourier transform over the reals, and why a zero-padded
      product of transforms is a convolution. *)
From Coq Require Import ZArith Reals List Lia Lra.
From Verif Require Import RSum.
Local Open Scope R_scope.

(** ** What FFTW documents (http://fftw.org/doc/What-FFTW-Really-Computes.html) *)
(** forward real-to-complex transform of n points: real and imaginary part of output k *)
Definition dft_re (n : nat) (x : nat -> R) (k : nat) : R :=
  rsum n (fun j => x j * cos (2 * PI * INR j * INR k / INR n)).
Definition dft_im (n : nat) (x : nat -> R) (k : nat) : R :=
  - rsum n (fun j => x j * sin (2 * PI * INR j * INR k / INR n)).

(** complex-to-real transform of n = 2h points: the imaginary parts of the
    elements 0 and n/2 are ignored *)
Definition idft (n : nat) (re im : nat -> R) (j : nat) : R :=
  re O + (-1) ^ j * re (n / 2)%nat
  + 2 * rsum (n / 2 - 1) (fun i => let k := S i in
        re k * cos (2 * PI * INR j * INR k / INR n) - im k * sin (2 * PI * INR j * INR k / INR n)).

(** ** Trigonometric sums *)
Lemma sin_2PI_Z m x : sin (2 * PI * IZR m + x) = sin x.
Proof.
  destruct (Z_le_dec 0 m).
  - rewrite <- (Z2Nat.id m) by lia. rewrite <- INR_IZR_INZ.
    replace (2 * PI * INR (Z.to_nat m) + x) with (x + 2 * INR (Z.to_nat m) * PI) by ring. apply sin_period.
  - pose proof (sin_period (2 * PI * IZR m + x) (Z.to_nat (- m))) as H.
    rewrite <- H. f_equal. rewrite INR_IZR_INZ, Z2Nat.id by lia. rewrite opp_IZR. ring.
Qed.
Lemma cos_2PI_Z m x : cos (2 * PI * IZR m + x) = cos x.
Proof.
  destruct (Z_le_dec 0 m).
  - rewrite <- (Z2Nat.id m) by lia. rewrite <- INR_IZR_INZ.
    replace (2 * PI * INR (Z.to_nat m) + x) with (x + 2 * INR (Z.to_nat m) * PI) by ring. apply cos_period.
  - pose proof (cos_period (2 * PI * IZR m + x) (Z.to_nat (- m))) as H.
    rewrite <- H. f_equal. rewrite INR_IZR_INZ, Z2Nat.id by lia. rewrite opp_IZR. ring.
Qed.

Lemma sin_nPI j : sin (PI * INR j) = 0.
Proof.
  induction j as [|j IH]; [simpl; rewrite Rmult_0_r; apply sin_0|].
  rewrite S_INR, Rmult_plus_distr_l, Rmult_1_r, neg_sin, IH. ring.
Qed.
Lemma cos_nPI j : cos (PI * INR j) = (-1) ^ j.
Proof.
  induction j as [|j IH]; [simpl; rewrite Rmult_0_r; apply cos_0|].
  rewrite S_INR, Rmult_plus_distr_l, Rmult_1_r, neg_cos, IH. simpl. ring.
Qed.

Lemma cos_telescope t n : 2 * sin (t / 2) * rsum n (fun k => cos (INR k * t)) =
  sin (INR n * t - t / 2) + sin (t / 2).
Proof.
  induction n as [|n IH].
  - simpl. rewrite Rmult_0_l, Rmult_0_r. unfold Rminus. rewrite Rplus_0_l, sin_neg. ring.
  - rewrite rsum_S, Rmult_plus_distr_l, IH.
    replace (INR (S n) * t - t / 2) with (INR n * t + t / 2) by (rewrite S_INR; field).
    rewrite sin_plus, sin_minus. ring.
Qed.

Lemma cos_sum_zero n m : (Z.abs m < Z.of_nat n)%Z -> m <> 0%Z ->
  rsum n (fun k => cos (2 * PI * INR k * IZR m / INR n)) = 0.
Proof.
  intros Hm H0. assert (Hn : 0 < INR n) by (apply lt_0_INR; lia).
  set (t := 2 * PI * IZR m / INR n).
  rewrite (rsum_ext n _ (fun k => cos (INR k * t))).
  2:{ intros k Hk. f_equal. unfold t. field. lra. }
  pose proof (cos_telescope t n) as Ht.
  replace (INR n * t - t / 2) with (2 * PI * IZR m + - (t / 2)) in Ht by (unfold t; field; lra).
  rewrite sin_2PI_Z, sin_neg, Rplus_opp_l in Ht.
  apply Rmult_integral in Ht. destruct Ht as [Ht|Ht]; [|exact Ht]. exfalso.
  apply Rmult_integral in Ht. destruct Ht as [Ht|Ht]; [lra|].
  assert (HPI := PI_RGT_0).
  assert (Ht2 : t / 2 = PI * (IZR m / INR n)) by (unfold t; field; lra). rewrite Ht2 in Ht.
  rewrite INR_IZR_INZ in *.
  destruct (Z_lt_dec 0 m) as [Hp|Hp].
  - assert (0 < IZR m / IZR (Z.of_nat n) < 1).
    { split; [apply Rdiv_lt_0_compat; [apply IZR_lt; lia|lra]|].
      apply Rmult_lt_reg_r with (IZR (Z.of_nat n)); [lra|].
      unfold Rdiv. rewrite Rmult_assoc, Rinv_l by lra. rewrite Rmult_1_r, Rmult_1_l. apply IZR_lt. lia. }
    assert (0 < sin (PI * (IZR m / IZR (Z.of_nat n)))) by (apply sin_gt_0; nra). lra.
  - assert (-1 < IZR m / IZR (Z.of_nat n) < 0).
    { split.
      - apply Rmult_lt_reg_r with (IZR (Z.of_nat n)); [lra|].
        unfold Rdiv. rewrite Rmult_assoc, Rinv_l by lra. rewrite Rmult_1_r.
        replace (-1 * IZR (Z.of_nat n)) with (IZR (- Z.of_nat n)) by (rewrite opp_IZR; ring). apply IZR_lt. lia.
      - apply Rmult_lt_reg_r with (IZR (Z.of_nat n)); [lra|].
        unfold Rdiv. rewrite Rmult_assoc, Rinv_l by lra. rewrite Rmult_1_r, Rmult_0_l. apply IZR_lt. lia. }
    assert (0 < sin (- (PI * (IZR m / IZR (Z.of_nat n))))) by (apply sin_gt_0; nra).
    rewrite sin_neg in *. lra.
Qed.

(** ** Folding the full spectrum onto its first half *)
Lemma rsum_fold h f : (0 < h)%nat -> (forall i, (0 < i < h)%nat -> f (2 * h - i)%nat = f i) ->
  rsum (2 * h) f = f O + f h + 2 * rsum (h - 1) (fun i => f (S i)).
Proof.
  intros Hh Hf. replace (2 * h)%nat with (S (h - 1) + S (h - 1))%nat by lia.
  rewrite rsum_add, rsum_first.
  rewrite (rsum_first (h - 1) (fun i => f (S (h - 1) + i)%nat)).
  replace (S (h - 1) + 0)%nat with h by lia.
  rewrite (rsum_ext (h - 1) (fun i => f (S (h - 1) + S i)%nat) (fun i => f (S (h - 1 - 1 - i)))).
  2:{ intros i Hi. rewrite <- (Hf (S (h - 1 - 1 - i))) by lia. f_equal. lia. }
  rewrite <- (rsum_rev (h - 1) (fun i => f (S i))). ring.
Qed.

Definition prod_re n (x y : nat -> R) (k : nat) : R :=
  dft_re n x k * dft_re n y k - dft_im n x k * dft_im n y k.
Definition prod_im n (x y : nat -> R) (k : nat) : R :=
  dft_re n x k * dft_im n y k + dft_im n x k * dft_re n y k.

Lemma prod_term n x y j k : prod_re n x y k * cos (2 * PI * INR j * INR k / INR n)
   - prod_im n x y k * sin (2 * PI * INR j * INR k / INR n) =
  rsum n (fun a => rsum n (fun b => x a * y b *
     cos (2 * PI * INR k * IZR (Z.of_nat j - Z.of_nat a - Z.of_nat b) / INR n))).
Proof.
  set (J := 2 * PI * INR j * INR k / INR n).
  set (A := fun a : nat => 2 * PI * INR a * INR k / INR n).
  transitivity (rsum n (fun a => rsum n (fun b => x a * y b * cos (J - A a - A b)))).
  2:{ apply rsum_ext; intros a Ha. apply rsum_ext; intros b Hb. f_equal. f_equal.
      unfold J, A. rewrite !minus_IZR, <- !INR_IZR_INZ. unfold Rdiv. ring. }
  transitivity (rsum n (fun a => rsum n (fun b =>
    (x a * cos (A a)) * ((y b * cos (A b)) * cos J) - (x a * sin (A a)) * ((y b * sin (A b)) * cos J)
    + (x a * cos (A a)) * ((y b * sin (A b)) * sin J) + (x a * sin (A a)) * ((y b * cos (A b)) * sin J)))).
  2:{ apply rsum_ext; intros a Ha. apply rsum_ext; intros b Hb.
      replace (J - A a - A b) with (J - (A a + A b)) by ring.
      rewrite cos_minus, cos_plus, sin_plus. ring. }
  unfold prod_re, prod_im, dft_re, dft_im.
  change (rsum n (fun j0 => x j0 * cos (2 * PI * INR j0 * INR k / INR n))) with (rsum n (fun a => x a * cos (A a))).
  change (rsum n (fun j0 => x j0 * sin (2 * PI * INR j0 * INR k / INR n))) with (rsum n (fun a => x a * sin (A a))).
  change (rsum n (fun j0 => y j0 * cos (2 * PI * INR j0 * INR k / INR n))) with (rsum n (fun a => y a * cos (A a))).
  change (rsum n (fun j0 => y j0 * sin (2 * PI * INR j0 * INR k / INR n))) with (rsum n (fun a => y a * sin (A a))).
  symmetry. rewrite (rsum_ext n _ (fun a =>
      (x a * cos (A a)) * (rsum n (fun b => y b * cos (A b)) * cos J)
    - (x a * sin (A a)) * (rsum n (fun b => y b * sin (A b)) * cos J)
    + (x a * cos (A a)) * (rsum n (fun b => y b * sin (A b)) * sin J)
    + (x a * sin (A a)) * (rsum n (fun b => y b * cos (A b)) * sin J))).
  2:{ intros a Ha. rewrite !rsum_plus, rsum_minus, !rsum_scal, !rsum_scal_r. reflexivity. }
  rewrite !rsum_plus, rsum_minus, !rsum_scal_r. ring.
Qed.

Lemma idft_full h x y j : (0 < h)%nat ->
  idft (2 * h) (prod_re (2 * h) x y) (prod_im (2 * h) x y) j =
  rsum (2 * h) (fun k => rsum (2 * h) (fun a => rsum (2 * h) (fun b => x a * y b *
     cos (2 * PI * INR k * IZR (Z.of_nat j - Z.of_nat a - Z.of_nat b) / INR (2 * h))))).
Proof.
  intros Hh. assert (HR : 0 < INR h) by (apply lt_0_INR; lia).
  assert (H2 : INR (2 * h) = 2 * INR h) by (rewrite mult_INR; reflexivity).
  rewrite rsum_fold; [|exact Hh|].
  2:{ intros i Hi. apply rsum_ext; intros a Ha. apply rsum_ext; intros b Hb. f_equal.
      rewrite minus_INR by lia. set (m := (Z.of_nat j - Z.of_nat a - Z.of_nat b)%Z).
      replace (2 * PI * (INR (2 * h) - INR i) * IZR m / INR (2 * h)) with
        (2 * PI * IZR m + - (2 * PI * INR i * IZR m / INR (2 * h))) by (field; lra).
      rewrite cos_2PI_Z. apply cos_neg. }
  rewrite <- !prod_term. unfold idft.
  assert (Hd : (2 * h / 2 = h)%nat) by (rewrite Nat.mul_comm; apply Nat.div_mul; lia). rewrite !Hd.
  replace (2 * PI * INR j * INR 0 / INR (2 * h)) with 0 by (change (INR 0) with 0; unfold Rdiv; ring).
  replace (2 * PI * INR j * INR h / INR (2 * h)) with (PI * INR j) by (rewrite H2; field; lra).
  rewrite cos_0, sin_0, cos_nPI, sin_nPI.
  f_equal.
  - ring.
  - f_equal. apply rsum_ext. intros i Hi. cbv beta. rewrite <- prod_term. reflexivity.
Qed.

(** ** The convolution theorem *)
Theorem idft_conv h sz x y j : (0 < h)%nat -> (sz <= h)%nat -> (j < sz)%nat ->
  (forall i, (sz <= i)%nat -> x i = 0) -> (forall i, (sz <= i)%nat -> y i = 0) ->
  idft (2 * h) (prod_re (2 * h) x y) (prod_im (2 * h) x y) j = INR (2 * h) * conv x y j.
Proof.
  intros Hh Hsz Hj Hx Hy. rewrite idft_full by exact Hh. set (n := (2 * h)%nat) in *.
  rewrite rsum_swap.
  rewrite (rsum_ext n _ (fun a => rsum n (fun b => x a * y b * (if (a + b =? j)%nat then INR n else 0)))).
  2:{ intros a Ha. rewrite rsum_swap. apply rsum_ext. intros b Hb. rewrite rsum_scal.
      destruct (Nat.le_gt_cases sz a) as [Hsa|Hsa]; [rewrite Hx by lia; ring|].
      destruct (Nat.le_gt_cases sz b) as [Hsb|Hsb]; [rewrite Hy by lia; ring|].
      f_equal. destruct (Nat.eqb_spec (a + b) j) as [He|He].
      - rewrite (rsum_ext n _ (fun _ => 1)); [rewrite rsum_const; ring|].
        intros k Hk. replace (Z.of_nat j - Z.of_nat a - Z.of_nat b)%Z with 0%Z by lia.
        rewrite Rmult_0_r. unfold Rdiv. rewrite Rmult_0_l. apply cos_0.
      - apply cos_sum_zero; lia. }
  unfold conv. rewrite <- rsum_scal.
  rewrite (rsum_extend (S j) n); [|lia|].
  2:{ intros i Hi. apply rsum_0. intros b Hb. destruct (Nat.eqb_spec (i + b) j); [lia|ring]. }
  apply rsum_ext. intros a Ha.
  rewrite (rsum_single n (j - a)); [|lia|].
  - destruct (Nat.eqb_spec (a + (j - a)) j); [ring|lia].
  - intros b Hb Hne. destruct (Nat.eqb_spec (a + b) j); [lia|ring].
Qed.
