(** * AccFftConv: the FFT convolution of two approximated sequences. *)
From Coquelicot Require Import Coquelicot.
From Flocq Require Import Core.Core IEEE754.BinarySingleNaN.
From Coq Require Import ZArith Reals List Bool Lia Lra String.
From Verif Require Import Base Num Hoare Common PoissonPmf FFTConv RSum Dft Binary64 Binary64Facts SafeFft.
From Verif Require Import ErrBound B64Round AccConv FftMath AccProd AccFft.
Import List.
Local Open Scope R_scope.

Lemma rsum_near k f x y A : (forall i, (i < k)%nat -> near f (A i) (x i) (y i)) ->
  near f (rsum k A) (rsum k x) (rsum k y).
Proof.
  induction k as [|k IH]; intros H; cbn [rsum].
  - unfold near. rewrite Rminus_diag_eq, Rabs_R0 by reflexivity. lra.
  - apply near_plus; auto.
Qed.

Section FftConv.
Context (L : libm) (E : env (Bnum L)) (e : R).
Notation BN := (Bnum L).
Variables (n : nat) (fa fb a b : R) (p s : nat -> R).
Hypothesis Hfa : 1 <= fa <= 2.
Hypothesis Hfb : 1 <= fb <= 2.
Hypothesis Ha : 0 <= a <= 1.
Hypothesis Hb : 0 <= b <= 1.
Hypothesis Hp0 : forall k, 0 <= p k.
Hypothesis Hs0 : forall k, 0 <= s k.
Hypothesis Hp1 : rsum (S n) p <= 1.
Hypothesis Hs1 : rsum (S n) s <= 1.
Hypothesis Hn31 : INR n <= bpow radix2 31.
Hypothesis Hgrow : (1 + u64) ^ (n + 2) <= 2.

Lemma conv_near x y j : (j <= n)%nat ->
  (forall k, (k <= j)%nat -> near fa a (x k) (p k)) -> (forall k, (k <= j)%nat -> near fb b (y k) (s k)) ->
  near (conv_fac n fa fb) (conv_abs n fa fb a b) (conv x y j) (conv p s j).
Proof.
  intros Hj Hx Hy. pose proof u64_pos as Hu. pose proof eta64_pos as He.
  assert (H : near (fa * fb) (rsum (S j) (fun k => b * fa * p k + a * fb * s (j - k)%nat + a * b)) (conv x y j) (conv p s j)).
  { unfold conv. apply rsum_near. intros k Hk. apply near_mult; auto; [apply Hx|apply Hy]; lia. }
  pose proof (pow_ge1 u64 (n + 2) ltac:(lra)) as HG.
  eapply near_weaken; [apply conv_nonneg; auto| | |exact H].
  - unfold conv_fac. assert (0 <= fa * fb) by (apply Rmult_le_pos; lra). nra.
  - rewrite !rsum_plus, rsum_const, !rsum_scal.
    assert (HP : rsum (S j) p <= 1) by (eapply Rle_trans; [apply rsum_incr; [|auto]|exact Hp1]; lia).
    assert (HS : rsum (S j) (fun i => s (j - i)%nat) <= 1).
    { assert (rsum (S j) (fun i => s (j - i)%nat) = rsum (S j) s) as ->.
      { rewrite (rsum_rev (S j) s). apply rsum_ext. intros k Hk. f_equal. lia. }
      eapply Rle_trans; [apply rsum_incr; [|auto]|exact Hs1]; lia. }
    assert (HJ : INR (S j) <= INR (S n)) by (apply le_INR; lia).
    assert (H1 : 0 <= b * fa) by (apply Rmult_le_pos; lra). assert (H2 : 0 <= a * fb) by (apply Rmult_le_pos; lra).
    assert (H3 : 0 <= a * b) by (apply Rmult_le_pos; lra).
    assert (H4 : b * fa * rsum (S j) p <= b * fa) by nra.
    assert (H5 : a * fb * rsum (S j) (fun i => s (j - i)%nat) <= a * fb) by nra.
    assert (H6 : INR (S j) * (a * b) <= INR (S n) * (a * b)) by (apply Rmult_le_compat_r; lra).
    assert (H7 : 0 <= INR (S n) * (a * b)) by (apply Rmult_le_pos; [apply pos_INR|lra]).
    assert (H8 : 0 <= INR (S n) * eta64) by (apply Rmult_le_pos; [apply pos_INR|lra]).
    unfold conv_abs. set (Y := b * fa + a * fb + INR (S n) * (a * b) + INR (S n) * eta64).
    assert (HY : 0 <= Y) by (unfold Y; lra).
    apply Rle_trans with (1 * Y); [unfold Y; lra|apply Rmult_le_compat_r; lra].
Qed.

Lemma l1_near (x : nat -> R) q f c m : (m <= S n)%nat -> 1 <= f <= 2 -> 0 <= c -> INR (S n) * c <= 1 ->
  (forall k, 0 <= q k) -> rsum (S n) q <= 1 ->
  (forall k, (k < m)%nat -> near f c (x k) (q k)) -> rsum m (fun k => Rabs (x k)) <= 3.
Proof.
  intros Hm Hf Hc Hnc Hq Hq1 Hx.
  apply Rle_trans with (rsum m (fun k => f * q k + c)).
  { apply rsum_le. intros k Hk. apply near_abs; [apply Hq|apply Hx, Hk]. }
  rewrite rsum_plus, rsum_const, rsum_scal.
  assert (H1 : rsum m q <= 1) by (eapply Rle_trans; [apply rsum_incr; [exact Hm|auto]|exact Hq1]).
  assert (H0 : 0 <= rsum m q) by (apply rsum_nonneg; auto).
  assert (H2 : INR m * c <= INR (S n) * c) by (apply Rmult_le_compat_r; [exact Hc|apply le_INR, Hm]).
  assert (f * rsum m q <= 2) by nra. lra.
Qed.

Context {thr : exn -> Prop} {abt : Prop}.
Hypothesis HF : fft_accurate E e.
Hypothesis Hue : u64 <= e.
Hypothesis He : e <= / 4096.
Hypothesis Hna : INR (S n) * a <= 1.
Hypothesis Hnb : INR (S n) * b <= 1.
Hypothesis Hn31' : (Z.of_nat n + 1 <= 2 ^ 31)%Z.

Lemma wp_fft_convolve64 f sz (s0 : list f64) o0 (s1 : list f64) o1 (dest : list f64) od (Q : fftconv BN * list f64 -> Prop) :
  fft_shape (Z.of_nat n + 1) f -> (sz <= Z.of_nat n + 1)%Z ->
  (0 < sz -> 0 <= o0 /\ o0 + sz <= size s0 /\ 0 <= o1 /\ o1 + sz <= size s1 /\ 0 <= od /\ od + sz <= size dest)%Z ->
  (forall k, (0 <= k < sz)%Z -> fnear fa a (gb s0 (o0 + k)) (p (Z.to_nat k))) ->
  (forall k, (0 <= k < sz)%Z -> fnear fb b (gb s1 (o1 + k)) (s (Z.to_nat k))) ->
  (forall f' dest', fft_shape (Z.of_nat n + 1) f' -> size dest' = size dest ->
     (forall i, (od <= i < od + sz)%Z ->
        fnear (conv_fac n fa fb) (conv_abs n fa fb a b + 400 * e) (gb dest' i) (conv p s (Z.to_nat (i - od)))) ->
     Q (f', dest')) ->
  wp thr abt (@fft_convolve_same_size BN E f sz s0 o0 s1 o1 dest od) Q.
Proof.
  intros HI Hsz Hbd H0 H1 HQ. pose proof u64_pos as Hu.
  destruct (Z.ltb_spec sz MINIMUM_SIZE_FOR_FFTW_CONVOLUTION) as [Hs|Hs].
  - unfold fft_convolve_same_size. rewrite (proj1 HI).
    destruct (Z.ltb_spec (Z.of_nat n + 1 + 2047) sz) as [?|_]; [lia|].
    destruct (Z.leb_spec sz 0) as [Hz|Hz]; [apply wp_ok, HQ; auto; lia|].
    destruct (Z.ltb_spec sz MINIMUM_SIZE_FOR_FFTW_CONVOLUTION) as [_|?]; [|lia].
    apply wp_bind. apply (wp_convolve64 L n fa fb a b p s); auto.
    intros dest' Hd Hv. apply wp_ok, HQ; auto. intros i Hi.
    eapply fnear_weaken; [apply conv_nonneg; auto|apply Rle_refl| |apply Hv, Hi]. lra.
  - assert (Hmin : (0 < MINIMUM_SIZE_FOR_FFTW_CONVOLUTION)%Z) by reflexivity.
    set (fn := fun j => B2R (gb s0 (o0 + Z.of_nat j))). set (gn := fun j => B2R (gb s1 (o1 + Z.of_nat j))).
    assert (Hfn : forall k, (k < Z.to_nat sz)%nat -> near fa a (fn k) (p k)).
    { intros k Hk. destruct (H0 (Z.of_nat k) ltac:(lia)) as [_ G]. rewrite Nat2Z.id in G. exact G. }
    assert (Hgn : forall k, (k < Z.to_nat sz)%nat -> near fb b (gn k) (s k)).
    { intros k Hk. destruct (H1 (Z.of_nat k) ltac:(lia)) as [_ G]. rewrite Nat2Z.id in G. exact G. }
    apply (wp_big64 E e HF Hue He (Z.of_nat n + 1) f sz s0 o0 s1 o1 dest od fn gn); auto.
    + apply Hbd. lia.
    + intros k Hk. split; [apply H0, Hk|]. unfold fn. rewrite Z2Nat.id by lia. reflexivity.
    + intros k Hk. split; [apply H1, Hk|]. unfold gn. rewrite Z2Nat.id by lia. reflexivity.
    + apply (l1_near fn p fa a); auto; [lia|lra].
    + apply (l1_near gn s fb b); auto; [lia|lra].
    + intros f' dest' HI' Hd Hv. apply HQ; auto. intros i Hi. destruct (Hv i Hi) as [Fv Ev].
      split; [exact Fv|]. set (j := Z.to_nat (i - od)) in *.
      pose proof (conv_near fn gn j ltac:(unfold j; lia) ltac:(intros; apply Hfn; unfold j in *; lia)
        ltac:(intros; apply Hgn; unfold j in *; lia)) as HN.
      unfold near in *. replace (B2R (gb dest' i) - conv p s j) with ((B2R (gb dest' i) - conv fn gn j) + (conv fn gn j - conv p s j)) by ring.
      eapply Rle_trans; [apply Rabs_triang|]. lra.
Qed.
End FftConv.
