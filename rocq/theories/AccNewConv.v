(** * AccNewConv: convolution of sequences of either sign in binary64, absolute error. *)
From Coquelicot Require Import Coquelicot.
From Flocq Require Import Core.Core IEEE754.BinarySingleNaN.
From Coq Require Import ZArith Reals List Bool Lia Lra String.
From Verif Require Import Base Num Hoare Common PoissonPmf FFTConv RSum Dft Binary64 Binary64Facts SafeFft.
From Verif Require Import ErrBound B64Round AccConv FftMath AccProd AccFft.
Import List.
Local Open Scope R_scope.

Section Conv.
Context (L : libm) (E : env (Bnum L)).
Notation BN := (Bnum L).
Context {thr : exn -> Prop} {abt : Prop}.
Notation WP := (wp thr abt).

Definition acc_abs (fn gn : nat -> R) (j i : nat) (v : f64) : Prop :=
  fabs v (rsum i (fun k => fn k * gn (j - k)%nat))
       (u64 * rsum i (fun k => Rabs (fn k) * Rabs (gn (j - k)%nat)) + INR i * (17 / 10 * u64)).

Lemma acc_abs_step fn gn j i (x y v : f64) : INR i <= 128 ->
  rsum (S i) (fun k => Rabs (fn k) * Rabs (gn (j - k)%nat)) <= 16 / 10 ->
  is_finite x = true -> B2R x = fn i -> is_finite y = true -> B2R y = gn (j - i)%nat ->
  acc_abs fn gn j i v -> acc_abs fn gn j (S i) (Bplus mode_NE v (Bmult mode_NE x y)).
Proof.
  intros Hi HS Fx Vx Fy Vy [Fv Hv]. unfold acc_abs. rewrite !rsum_S in *. rewrite S_INR.
  pose proof u64_pos as Hu. pose proof eta64_pos as He.
  assert (Hus : u64 <= / 65536) by (unfold u64; change (/ 65536) with (bpow radix2 (-16)); apply bpow_le; lia).
  assert (Heu : eta64 <= / 100 * u64).
  { apply Rle_trans with (bpow radix2 (-7) * u64); [unfold eta64, u64; rewrite <- bpow_plus; apply bpow_le; lia|].
    apply Rmult_le_compat_r; [lra|]. simpl. lra. }
  set (s := rsum i (fun k => fn k * gn (j - k)%nat)) in *.
  set (t := rsum i (fun k => Rabs (fn k) * Rabs (gn (j - k)%nat))) in *.
  assert (Ht : 0 <= t) by (apply rsum_nonneg; intros; apply Rmult_le_pos; apply Rabs_pos).
  assert (Hst : Rabs s <= t).
  { unfold s, t. eapply Rle_trans; [apply rsum_abs|]. apply rsum_le. intros k _. rewrite Rabs_mult. lra. }
  set (q := Rabs (fn i) * Rabs (gn (j - i)%nat)) in *.
  assert (Hq : Rabs (fn i * gn (j - i)%nat) = q) by apply Rabs_mult.
  assert (Hq0 : 0 <= q) by (rewrite <- Hq; apply Rabs_pos).
  assert (H60 : bpow radix2 60 = 1152921504606846976) by (simpl; lra).
  destruct (mult_err x y Fx Fy) as [Fm Em]; [rewrite Vx, Vy, Hq; lra|].
  rewrite Vx, Vy, Hq in Em. set (z := Bmult mode_NE x y) in *. set (w := fn i * gn (j - i)%nat) in *.
  assert (Huq : u64 * q <= / 65536 * q) by (apply Rmult_le_compat_r; lra).
  assert (Hut : 0 <= u64 * t <= / 65536 * t) by (split; [apply Rmult_le_pos; lra|apply Rmult_le_compat_r; lra]).
  assert (Hiu : 0 <= INR i * (17 / 10 * u64) <= 128 * (17 / 10 * u64)).
  { split; [apply Rmult_le_pos; [apply pos_INR|lra]|apply Rmult_le_compat_r; lra]. }
  assert (Hvz : Rabs (B2R v + B2R z) <= 169 / 100).
  { replace (B2R v + B2R z) with ((B2R v - s) + (B2R z - w) + (s + w)) by ring.
    eapply Rle_trans; [apply Rabs_triang|]. pose proof (Rabs_triang (B2R v - s) (B2R z - w)). pose proof (Rabs_triang s w). lra. }
  destruct (plus_err v z Fv Fm) as [Fp Ep]; [lra|].
  split; [exact Fp|].
  assert (Hup : u64 * Rabs (B2R v + B2R z) <= u64 * (169 / 100)) by (apply Rmult_le_compat_l; lra).
  replace (B2R (Bplus mode_NE v z) - (s + w)) with ((B2R (Bplus mode_NE v z) - (B2R v + B2R z)) + ((B2R v - s) + (B2R z - w))) by ring.
  eapply Rle_trans; [apply Rabs_triang|]. pose proof (Rabs_triang (B2R v - s) (B2R z - w)). lra.
Qed.

Lemma wp_conv_abs sz (s0 : list f64) o0 (s1 : list f64) o1 (dest : list f64) od (fn gn : nat -> R) (Q : list f64 -> Prop) :
  (sz <= 128)%Z ->
  (0 < sz -> 0 <= o0 /\ o0 + sz <= size s0 /\ 0 <= o1 /\ o1 + sz <= size s1 /\ 0 <= od /\ od + sz <= size dest)%Z ->
  (forall k, (0 <= k < sz)%Z -> is_finite (gb s0 (o0 + k)) = true /\ B2R (gb s0 (o0 + k)) = fn (Z.to_nat k)) ->
  (forall k, (0 <= k < sz)%Z -> is_finite (gb s1 (o1 + k)) = true /\ B2R (gb s1 (o1 + k)) = gn (Z.to_nat k)) ->
  rsum (Z.to_nat sz) (fun j => Rabs (fn j)) <= 102 / 100 -> (forall k, (k < Z.to_nat sz)%nat -> Rabs (gn k) <= 3 / 2) ->
  (forall dest', size dest' = size dest ->
     (forall i, (od <= i < od + sz)%Z -> fabs (gb dest' i) (conv fn gn (Z.to_nat (i - od))) (250 * u64)) -> Q dest') ->
  WP (@convolve_same_size BN sz s0 o0 s1 o1 dest od) Q.
Proof.
  intros Hsz Hbd H0 H1 Hf Hg HQ. unfold convolve_same_size.
  assert (HS : forall j i, (i <= S j)%nat -> (j < Z.to_nat sz)%nat ->
     rsum i (fun k => Rabs (fn k) * Rabs (gn (j - k)%nat)) <= 16 / 10).
  { intros j i Hi Hj. apply Rle_trans with (rsum i (fun k => 3 / 2 * Rabs (fn k))).
    - apply rsum_le. intros k Hk. rewrite Rmult_comm. apply Rmult_le_compat_r; [apply Rabs_pos|]. apply Hg. lia.
    - rewrite rsum_scal. assert (rsum i (fun k => Rabs (fn k)) <= 102 / 100); [|lra].
      eapply Rle_trans; [apply rsum_incr; [|intros; apply Rabs_pos]|exact Hf]. lia. }
  assert (HR : forall k, (k <= 128)%nat -> INR k <= 128).
  { intros k Hk. apply le_INR in Hk. rewrite (INR_IZR_INZ 128) in Hk. simpl in Hk. exact Hk. }
  pose proof u64_pos as Hu.
  apply wp_for with (P := fun j (d : list f64) => size d = size dest /\
     forall i, (od <= i < od + j)%Z -> fabs (gb d i) (conv fn gn (Z.to_nat (i - od))) (250 * u64)).
  - split; [reflexivity|lia].
  - intros j d Hj [Hs Hd]. apply wp_bind.
    apply wp_for with (P := fun k (acc : f64) => acc_abs fn gn (Z.to_nat j) (Z.to_nat k) acc).
    + destruct zero_ok as [F0 V0]. split; [exact F0|]. change (B2R (@n0 BN)) with (B2R (b64_of_Z 0)). rewrite V0.
      simpl. rewrite Rminus_diag_eq, Rabs_R0 by reflexivity. lra.
    + intros k acc Hk Hacc.
      apply wp_bind. apply (wp_rd (b64_of_Z 0) s0); [change (@size (car BN) s0) with (@size f64 s0) in *; lia|].
      apply wp_bind. apply (wp_rd (b64_of_Z 0) s1); [change (@size (car BN) s1) with (@size f64 s1) in *; lia|]. apply wp_ok.
      replace (Z.to_nat (k + 1)) with (S (Z.to_nat k)) by lia.
      destruct (H0 k ltac:(lia)) as [Fx Vx]. destruct (H1 (j - k)%Z ltac:(lia)) as [Fy Vy].
      apply acc_abs_step; [apply HR; lia|apply HS; lia|exact Fx|exact Vx|exact Fy| |exact Hacc].
      replace (Z.to_nat j - Z.to_nat k)%nat with (Z.to_nat (j - k)) by lia. exact Vy.
    + intros acc Hacc. replace (Z.to_nat (Z.max 0 (j + 1))) with (S (Z.to_nat j)) in Hacc by lia.
      apply wp_wr; [change (@size (car BN) d) with (@size f64 d); lia|]. rewrite size_upd. split; [exact Hs|]. intros i Hi.
      rewrite get_upd by lia. destruct (Z.eqb_spec (od + j) i) as [<-|Hne].
      * replace (od + j - od)%Z with j by lia. destruct Hacc as [Fa Ha]. split; [exact Fa|].
        eapply Rle_trans; [exact Ha|]. specialize (HS (Z.to_nat j) (S (Z.to_nat j)) ltac:(lia) ltac:(lia)).
        pose proof (HR (S (Z.to_nat j)) ltac:(lia)) as HI.
        assert (u64 * rsum (S (Z.to_nat j)) (fun k => Rabs (fn k) * Rabs (gn (Z.to_nat j - k)%nat)) <= u64 * (16 / 10)) by (apply Rmult_le_compat_l; lra).
        assert (INR (S (Z.to_nat j)) * (17 / 10 * u64) <= 128 * (17 / 10 * u64)) by (apply Rmult_le_compat_r; lra). lra.
      * apply Hd. lia.
  - intros d [Hs Hd]. apply HQ; [exact Hs|]. intros i Hi. apply Hd. lia.
Qed.

(** either method; [dl] bounds what an FFT of the given maximal length may add *)
Lemma wp_fft_abs m dl f sz (s0 : list f64) o0 (s1 : list f64) o1 (dest : list f64) od (fn gn : nat -> R) (Q : fftconv BN * list f64 -> Prop) :
  0 <= dl -> ((MINIMUM_SIZE_FOR_FFTW_CONVOLUTION <= m)%Z -> exists e, fft_accurate E e /\ u64 <= e /\ e <= / 4096 /\ 400 * e <= dl) ->
  fft_shape m f -> (sz <= m)%Z -> (m <= 2 ^ 31)%Z ->
  (0 < sz -> 0 <= o0 /\ o0 + sz <= size s0 /\ 0 <= o1 /\ o1 + sz <= size s1 /\ 0 <= od /\ od + sz <= size dest)%Z ->
  (forall k, (0 <= k < sz)%Z -> is_finite (gb s0 (o0 + k)) = true /\ B2R (gb s0 (o0 + k)) = fn (Z.to_nat k)) ->
  (forall k, (0 <= k < sz)%Z -> is_finite (gb s1 (o1 + k)) = true /\ B2R (gb s1 (o1 + k)) = gn (Z.to_nat k)) ->
  rsum (Z.to_nat sz) (fun j => Rabs (fn j)) <= 102 / 100 -> (forall k, (k < Z.to_nat sz)%nat -> Rabs (gn k) <= 3 / 2) ->
  rsum (Z.to_nat sz) (fun j => Rabs (gn j)) <= 3 ->
  (forall f' dest', fft_shape m f' -> size dest' = size dest ->
     (forall i, (od <= i < od + sz)%Z -> fabs (gb dest' i) (conv fn gn (Z.to_nat (i - od))) (dl + 250 * u64)) -> Q (f', dest')) ->
  WP (@fft_convolve_same_size BN E f sz s0 o0 s1 o1 dest od) Q.
Proof.
  intros Hdl HF HI Hsz Hm Hbd H0 H1 Hf Hg Hg3 HQ. pose proof u64_pos as Hu.
  destruct (Z.ltb_spec sz MINIMUM_SIZE_FOR_FFTW_CONVOLUTION) as [Hs|Hs].
  - unfold fft_convolve_same_size. rewrite (proj1 HI).
    destruct (Z.ltb_spec (m + 2047) sz) as [?|_]; [lia|].
    destruct (Z.leb_spec sz 0) as [Hz|Hz]; [apply wp_ok, HQ; auto; lia|].
    destruct (Z.ltb_spec sz MINIMUM_SIZE_FOR_FFTW_CONVOLUTION) as [_|?]; [|lia].
    apply wp_bind. apply (wp_conv_abs sz s0 o0 s1 o1 dest od fn gn); auto.
    { unfold MINIMUM_SIZE_FOR_FFTW_CONVOLUTION in Hs. lia. }
    intros dest' Hd Hv. apply wp_ok, HQ; auto. intros i Hi. destruct (Hv i Hi) as [Fv Ev]. split; [exact Fv|]. lra.
  - destruct HF as (e & HF & He1 & He2 & He3); [lia|].
    assert (Hmin : (0 < MINIMUM_SIZE_FOR_FFTW_CONVOLUTION)%Z) by reflexivity.
    apply (wp_big64 E e HF He1 He2 m f sz s0 o0 s1 o1 dest od fn gn); auto.
    + apply Hbd. lia.
    + lra.
    + intros f' dest' HI' Hd Hv. apply HQ; auto. intros i Hi. destruct (Hv i Hi) as [Fv Ev].
      split; [exact Fv|]. lra.
Qed.
End Conv.
