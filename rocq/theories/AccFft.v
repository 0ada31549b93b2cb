(** * AccFft: accuracy of FFTWConvolver::convolve_same_size in binary64. *)
From Coquelicot Require Import Coquelicot.
From Flocq Require Import Core.Core IEEE754.BinarySingleNaN.
From Coq Require Import ZArith Reals List Bool Lia Lra String.
From Verif Require Import Base Num Hoare Common PoissonPmf FFTConv RSum Dft Binary64 Binary64Facts SafeFft.
From Verif Require Import ErrBound B64Round AccConv FftMath AccProd.
Import List.
Local Open Scope R_scope.

Notation gz := (@get (f64 * f64) (b64_of_Z 0, b64_of_Z 0)).

(** value number j of a vector *)
Definition val (x : list f64) (j : nat) : R := B2R (nth j x (b64_of_Z 0)).
Definition val_re (z : list (f64 * f64)) (k : nat) : R := B2R (fst (nth k z (b64_of_Z 0, b64_of_Z 0))).
Definition val_im (z : list (f64 * f64)) (k : nat) : R := B2R (snd (nth k z (b64_of_Z 0, b64_of_Z 0))).

(** What FFTW is assumed to compute: for input of moderate size each output is finite and
    within e times the sum of the magnitudes of the input (for c2r: of the spectrum of which the
    input is one half), up to an underflow. *)
Definition fft_accurate {L : libm} (E : env (Bnum L)) (e : R) : Prop :=
  (forall (h : nat) (x : list f64), (0 < h)%nat -> List.length x = (2 * h)%nat ->
     Forall (fun v => is_finite v = true) x -> rsum (2 * h) (fun j => Rabs (val x j)) <= 1024 ->
     let z : list (f64 * f64) := fft_r2c E x in List.length z = S h /\
     forall k, (k <= h)%nat ->
       fabs (fst (nth k z (b64_of_Z 0, b64_of_Z 0))) (dft_re (2 * h) (val x) k)
            (e * rsum (2 * h) (fun j => Rabs (val x j)) + bpow radix2 (-1000)) /\
       fabs (snd (nth k z (b64_of_Z 0, b64_of_Z 0))) (dft_im (2 * h) (val x) k)
            (e * rsum (2 * h) (fun j => Rabs (val x j)) + bpow radix2 (-1000))) /\
  (forall (h : nat) (z : list (f64 * f64)), (0 < h)%nat -> List.length z = S h ->
     Forall (fun c => is_finite (fst c) = true /\ is_finite (snd c) = true) z ->
     l1c h (val_re z) (val_im z) <= 1024 ->
     let y : list f64 := fft_c2r E (2 * h) z in List.length y = (2 * h)%nat /\
     forall j, (j < 2 * h)%nat ->
       fabs (nth j y (b64_of_Z 0)) (idft (2 * h) (val_re z) (val_im z) j)
            (e * (2 * l1c h (val_re z) (val_im z)) + bpow radix2 (-1000))).

Lemma nth_firstn {A} (l : list A) n i d : (i < n)%nat -> nth i (firstn n l) d = nth i l d.
Proof.
  revert n i. induction l as [|a l IH]; intros n i Hi; [rewrite firstn_nil; reflexivity|].
  destruct n as [|n]; [lia|]. destruct i as [|i]; [reflexivity|]. simpl. apply IH. lia.
Qed.

Section Fft.
Context {L : libm} (E : env (Bnum L)) (e : R) {thr : exn -> Prop} {abt : Prop}.
Notation BN := (Bnum L).
Notation WP := (wp thr abt).
Hypothesis HF : fft_accurate E e.
Hypothesis Hue : u64 <= e.
Hypothesis He : e <= / 4096.

Lemma tiny_e : bpow radix2 (-1000) <= e.
Proof. eapply Rle_trans; [|exact Hue]. unfold u64. apply bpow_le. lia. Qed.

Lemma wp_copy64 (src : list f64) so (dest : list f64) ss ds (Q : list f64 -> Prop) :
  (0 < ss -> ss <= ds -> ds <= size dest -> 0 <= so -> so + ss <= size src ->
  (forall dest', size dest' = size dest ->
     (forall i, 0 <= i < ds -> gb dest' i = if i <? ss then gb src (so + i) else b64_of_Z 0) -> Q dest') ->
  WP (@copy_zero_padded BN src so dest ss ds) Q)%Z.
Proof.
  intros H1 H2 H3 H4 H5 HQ. unfold copy_zero_padded.
  apply wp_bind. apply wp_blit with (d := b64_of_Z 0 : car BN).
  { change (@size (car BN) dest) with (@size f64 dest). change (@size (car BN) src) with (@size f64 src). lia. }
  intros d1 Hs1 Hd1. change (@size f64 d1 = @size f64 dest) in Hs1.
  apply wp_fill with (d := b64_of_Z 0 : car BN); [change (@size (car BN) d1) with (@size f64 d1); lia|].
  intros d2 Hs2 Hd2. change (@size f64 d2 = @size f64 d1) in Hs2. apply HQ; [lia|].
  intros i Hi. change (gb d2 i) with (@get (car BN) (b64_of_Z 0) d2 i). rewrite Hd2, Hd1 by lia.
  destruct (Z.leb_spec ss i), (Z.ltb_spec i ds), (Z.ltb_spec i ss), (Z.leb_spec 0 i), (Z.ltb_spec i (0 + ss));
    simpl; try lia; auto. f_equal. lia.
Qed.

Lemma wp_r2c64 site h (inp : list f64) (outp : list (f64 * f64)) (x : nat -> R)
  (Q : list f64 * list (f64 * f64) -> Prop) : (0 < h)%nat ->
  (2 * Z.of_nat h <= size inp)%Z -> (Z.of_nat h + 1 <= size outp)%Z ->
  (forall i, (i < 2 * h)%nat -> is_finite (gb inp (Z.of_nat i)) = true /\ B2R (gb inp (Z.of_nat i)) = x i) ->
  rsum (2 * h) (fun j => Rabs (x j)) <= 3 ->
  (forall inp' outp', size inp' = size inp -> size outp' = size outp ->
     (forall k, (k <= h)%nat ->
        fabs (fst (gz outp' (Z.of_nat k))) (dft_re (2 * h) x k) (4 * e) /\
        fabs (snd (gz outp' (Z.of_nat k))) (dft_im (2 * h) x k) (4 * e)) -> Q (inp', outp')) ->
  WP (@execute_r2c BN E site (2 * Z.of_nat h) inp outp) Q.
Proof.
  intros Hh Hin Hout Hx H3 HQ. unfold execute_r2c.
  change (@size (car BN) inp) with (@size f64 inp).
  destruct (Z.ltb_spec (size inp) (2 * Z.of_nat h)) as [?|_]; [lia|].
  assert (Hq : Z.quot (2 * Z.of_nat h) 2 = Z.of_nat h) by (rewrite Z.mul_comm; apply Z.quot_mul; lia). rewrite Hq.
  replace (Z.to_nat (2 * Z.of_nat h)) with (2 * h)%nat by lia.
  set (v := firstn (2 * h) inp).
  assert (Hlv : List.length v = (2 * h)%nat).
  { unfold v. rewrite firstn_length. unfold size in Hin. change (@List.length (car BN) inp) with (@List.length f64 inp). lia. }
  assert (Hnth : forall i, (i < 2 * h)%nat -> nth i v (b64_of_Z 0) = gb inp (Z.of_nat i)).
  { intros i Hi. unfold get. rewrite Nat2Z.id. apply nth_firstn. exact Hi. }
  assert (Hval : forall i, (i < 2 * h)%nat -> val v i = x i).
  { intros i Hi. unfold val. rewrite Hnth by exact Hi. apply Hx, Hi. }
  assert (Hfin : Forall (fun y : f64 => is_finite y = true) v).
  { apply Forall_nth. intros i d Hi. rewrite (nth_indep _ d (b64_of_Z 0)) by exact Hi.
    rewrite Hnth by lia. apply Hx. lia. }
  assert (Hsum : rsum (2 * h) (fun j => Rabs (val v j)) = rsum (2 * h) (fun j => Rabs (x j))).
  { apply rsum_ext. intros i Hi. rewrite Hval by exact Hi. reflexivity. }
  destruct (proj1 HF h v Hh Hlv Hfin ltac:(lra)) as [Hlz Hz]. cbv zeta in Hlz, Hz.
  change (fft_r2c E (firstn (2 * h) inp)) with (fft_r2c E v). set (z := fft_r2c E v) in *.
  apply wp_bind. apply wp_blit with (d := (b64_of_Z 0, b64_of_Z 0) : cplx BN).
  { intros _. change (@size (cplx BN) outp) with (@size (f64 * f64) outp). change (@size (cplx BN) z) with (@size (f64 * f64) z).
    unfold size at 1. change (@List.length (f64 * f64) z) with (@List.length (f64*f64) z). rewrite Hlz. lia. }
  intros o Hso Ho. apply wp_ok. apply HQ; auto.
  - change (@size f64 (alloc_doubles E site (size inp)) = size inp). apply (size_doubles (N := BN)). apply size_nonneg.
  - intros k Hk. specialize (Ho (Z.of_nat k) ltac:(lia)).
    change (gz o (Z.of_nat k)) with (@get (cplx BN) (b64_of_Z 0, b64_of_Z 0) o (Z.of_nat k)). rewrite Ho.
    destruct (Z.leb_spec 0 (Z.of_nat k)), (Z.ltb_spec (Z.of_nat k) (0 + (Z.of_nat h + 1))); try lia. cbn [andb].
    unfold get. replace (Z.to_nat (0 + (Z.of_nat k - 0))) with k by lia.
    destruct (Hz k Hk) as [H1 H2]. pose proof tiny_e as Ht. pose proof u64_pos as Hu.
    assert (Hbd : e * rsum (2 * h) (fun j => Rabs (val v j)) + bpow radix2 (-1000) <= 4 * e).
    { rewrite Hsum. assert (e * rsum (2 * h) (fun j => Rabs (x j)) <= e * 3) by (apply Rmult_le_compat_l; lra). lra. }
    assert (Hre : dft_re (2 * h) (val v) k = dft_re (2 * h) x k).
    { unfold dft_re. apply rsum_ext. intros i Hi. rewrite Hval by exact Hi. reflexivity. }
    assert (Him : dft_im (2 * h) (val v) k = dft_im (2 * h) x k).
    { unfold dft_im. f_equal. apply rsum_ext. intros i Hi. rewrite Hval by exact Hi. reflexivity. }
    rewrite <- Hre, <- Him. split; eapply fabs_weaken; eassumption.
Qed.

Lemma wp_c2r64 site h (inp : list (f64 * f64)) (outp : list f64) i (re im : nat -> R)
  (Q : list (f64 * f64) * list f64 -> Prop) : (0 < h)%nat -> 0 < i -> 40 * INR (S h) * i <= 1024 ->
  (Z.of_nat h + 1 <= size inp)%Z -> (2 * Z.of_nat h <= size outp)%Z ->
  (forall k, (k <= h)%nat -> Rabs (re k) <= 18 * i) -> (forall k, (k <= h)%nat -> Rabs (im k) <= 18 * i) ->
  (forall k, (k <= h)%nat ->
     fabs (fst (gz inp (Z.of_nat k))) (re k) (164 * e * i) /\ fabs (snd (gz inp (Z.of_nat k))) (im k) (164 * e * i)) ->
  (forall inp' outp', size inp' = size inp -> size outp' = size outp ->
     (forall j, (j < 2 * h)%nat -> is_finite (gb outp' (Z.of_nat j)) = true /\ exists re' im',
        (forall k, (k <= h)%nat -> Rabs (re' k - re k) <= 164 * e * i) /\
        (forall k, (k <= h)%nat -> Rabs (im' k - im k) <= 164 * e * i) /\
        Rabs (B2R (gb outp' (Z.of_nat j)) - idft (2 * h) re' im' j) <= e * (80 * INR (S h) * i) + e) -> Q (inp', outp')) ->
  WP (@execute_c2r BN E site (2 * Z.of_nat h) inp outp) Q.
Proof.
  intros Hh Hi Hbig Hin Hout Bre Bim Hx HQ. unfold execute_c2r.
  assert (Hq : Z.quot (2 * Z.of_nat h) 2 = Z.of_nat h) by (rewrite Z.mul_comm; apply Z.quot_mul; lia). rewrite Hq.
  change (@size (cplx BN) inp) with (@size (f64 * f64) inp).
  destruct (Z.ltb_spec (size inp) (Z.of_nat h + 1)) as [?|_]; [lia|].
  replace (Z.to_nat (2 * Z.of_nat h)) with (2 * h)%nat by lia.
  replace (Z.to_nat (Z.of_nat h + 1)) with (S h) by lia.
  set (z := firstn (S h) inp).
  assert (Hlz : List.length z = S h).
  { unfold z. rewrite firstn_length. unfold size in Hin. change (@List.length (cplx BN) inp) with (@List.length (f64 * f64) inp). lia. }
  assert (Hnth : forall k, (k <= h)%nat -> nth k z (b64_of_Z 0, b64_of_Z 0) = gz inp (Z.of_nat k)).
  { intros k Hk. unfold get. rewrite Nat2Z.id. apply nth_firstn. lia. }
  assert (Hfin : Forall (fun c : f64 * f64 => is_finite (fst c) = true /\ is_finite (snd c) = true) z).
  { apply Forall_nth. intros k d Hk. rewrite (nth_indep _ d (b64_of_Z 0, b64_of_Z 0)) by exact Hk.
    rewrite Hnth by lia. destruct (Hx k ltac:(lia)) as [[F1 _] [F2 _]]. auto. }
  pose proof u64_pos as Hu. pose proof tiny_e as Ht.
  assert (Hei : 0 <= e * i <= / 4096 * i) by (split; [apply Rmult_le_pos|apply Rmult_le_compat_r]; lra).
  assert (Hvr : forall k, (k <= h)%nat -> Rabs (val_re z k - re k) <= 164 * e * i /\ Rabs (val_im z k - im k) <= 164 * e * i).
  { intros k Hk. unfold val_re, val_im. rewrite Hnth by exact Hk. destruct (Hx k Hk) as [[_ H1] [_ H2]]. auto. }
  assert (Hl1 : l1c h (val_re z) (val_im z) <= 40 * INR (S h) * i).
  { unfold l1c. apply Rle_trans with (rsum (S h) (fun _ => 40 * i)); [|rewrite rsum_const; lra].
    apply rsum_le. intros k Hk. destruct (Hvr k ltac:(lia)) as [H1 H2].
    assert (Hsp : forall a b, Rabs a <= Rabs (a - b) + Rabs b).
    { intros a b. replace a with ((a - b) + b) at 1 by ring. apply Rabs_triang. }
    pose proof (Hsp (val_re z k) (re k)). pose proof (Hsp (val_im z k) (im k)).
    pose proof (Bre k ltac:(lia)). pose proof (Bim k ltac:(lia)). lra. }
  destruct (proj2 HF h z Hh Hlz Hfin ltac:(lra)) as [Hly Hy]. cbv zeta in Hly, Hy.
  change (fft_c2r E (2 * h) (firstn (S h) inp)) with (fft_c2r E (2 * h) z). set (y := fft_c2r E (2 * h) z) in *.
  apply wp_bind. apply wp_blit with (d := b64_of_Z 0 : car BN).
  { intros _. change (@size (car BN) outp) with (@size f64 outp). change (@size (car BN) y) with (Z.of_nat (@List.length f64 y)).
    rewrite Hly. lia. }
  intros o Hso Ho. apply wp_ok. apply HQ; auto.
  - change (@size (f64 * f64) (alloc_complexes E site (size inp)) = size inp). apply (size_complexes (N := BN)). apply size_nonneg.
  - intros j Hj. specialize (Ho (Z.of_nat j) ltac:(lia)).
    change (gb o (Z.of_nat j)) with (@get (car BN) (b64_of_Z 0) o (Z.of_nat j)). rewrite Ho.
    destruct (Z.leb_spec 0 (Z.of_nat j)), (Z.ltb_spec (Z.of_nat j) (0 + 2 * Z.of_nat h)); try lia. cbn [andb].
    unfold get. replace (Z.to_nat (0 + (Z.of_nat j - 0))) with j by lia.
    destruct (Hy j Hj) as [Fy Ey]. split; [exact Fy|].
    exists (val_re z), (val_im z). split; [intros k Hk; apply Hvr, Hk|]. split; [intros k Hk; apply Hvr, Hk|].
    eapply Rle_trans; [exact Ey|].
    assert (e * (2 * l1c h (val_re z) (val_im z)) <= e * (80 * INR (S h) * i)) by (apply Rmult_le_compat_l; lra). lra.
Qed.

(** the product of the spectra *)
Lemma wp_product64 h (s0 s1 dest : list (f64 * f64)) (c : f64) i (a0 b0 a1 b1 : nat -> R) (Q : list (f64 * f64) -> Prop) :
  0 < i <= 1 -> eta64 <= u64 * i -> fabs c i (2 * u64 * i) ->
  (Z.of_nat h + 1 <= size s0)%Z -> (Z.of_nat h + 1 <= size s1)%Z -> (Z.of_nat h + 1 <= size dest)%Z ->
  (forall k, (k <= h)%nat -> Rabs (a0 k) <= 3 /\ Rabs (b0 k) <= 3 /\ Rabs (a1 k) <= 3 /\ Rabs (b1 k) <= 3) ->
  (forall k, (k <= h)%nat -> fabs (fst (gz s0 (Z.of_nat k))) (a0 k) (4 * e) /\ fabs (snd (gz s0 (Z.of_nat k))) (b0 k) (4 * e)) ->
  (forall k, (k <= h)%nat -> fabs (fst (gz s1 (Z.of_nat k))) (a1 k) (4 * e) /\ fabs (snd (gz s1 (Z.of_nat k))) (b1 k) (4 * e)) ->
  (forall dest', size dest' = size dest ->
     (forall k, (k <= h)%nat ->
        fabs (fst (gz dest' (Z.of_nat k))) (i * (a0 k * a1 k - b0 k * b1 k)) (164 * e * i) /\
        fabs (snd (gz dest' (Z.of_nat k))) (i * (a0 k * b1 k + b0 k * a1 k)) (164 * e * i)) -> Q dest') ->
  WP (@elementwise_complex_product BN (Z.of_nat h + 1) s0 s1 dest c) Q.
Proof.
  intros Hi Heta Hc S0 S1 Sd HB H0 H1 HQ. unfold elementwise_complex_product.
  apply wp_for with (P := fun j (d : list (f64 * f64)) => size d = size dest /\
    forall k, (Z.of_nat k < j)%Z ->
        fabs (fst (gz d (Z.of_nat k))) (i * (a0 k * a1 k - b0 k * b1 k)) (164 * e * i) /\
        fabs (snd (gz d (Z.of_nat k))) (i * (a0 k * b1 k + b0 k * a1 k)) (164 * e * i)).
  - split; [reflexivity|lia].
  - intros j d Hj [Hs Hk]. apply wp_bind, (wp_rd ((b64_of_Z 0, b64_of_Z 0) : cplx BN)).
    { change (@size (cplx BN) s0) with (@size (f64 * f64) s0). lia. }
    apply wp_bind, (wp_rd ((b64_of_Z 0, b64_of_Z 0) : cplx BN)).
    { change (@size (cplx BN) s1) with (@size (f64 * f64) s1). lia. }
    apply wp_wr; [change (@size (cplx BN) d) with (@size (f64 * f64) d); lia|].
    rewrite size_upd. split; [exact Hs|]. intros k Hk'. rewrite get_upd by (try exact (conj (proj1 Hj) (ltac:(lia) : (j < @size (f64*f64) d)%Z)); lia).
    destruct (Z.eqb_spec j (Z.of_nat k)) as [->|Hne]; [|apply Hk; lia].
    assert (Hkh : (k <= h)%nat) by lia.
    destruct (HB k Hkh) as (B1 & B2 & B3 & B4). destruct (H0 k Hkh) as [X1 X2]. destruct (H1 k Hkh) as [Y1 Y2].
    split.
    + apply (one_re c _ _ _ _ i e (a0 k) (b0 k) (a1 k) (b1 k) Hi Heta Hue He Hc X1 X2 Y1 Y2 B1 B2 B3 B4).
    + apply (one_im c _ _ _ _ i e (a0 k) (b0 k) (a1 k) (b1 k) Hi Heta Hue He Hc X1 X2 Y1 Y2 B1 B2 B3 B4).
  - intros d [Hs Hk]. apply HQ; [exact Hs|]. intros k Hk'. apply Hk. lia.
Qed.

(** ** The convolution *)
Lemma wp_big64 m f sz (s0 : list f64) o0 (s1 : list f64) o1 (dest : list f64) od (fn gn : nat -> R)
  (Q : fftconv BN * list f64 -> Prop) :
  fft_shape m f -> (MINIMUM_SIZE_FOR_FFTW_CONVOLUTION <= sz <= m)%Z -> (m <= 2 ^ 31)%Z ->
  (0 <= o0 /\ o0 + sz <= size s0 /\ 0 <= o1 /\ o1 + sz <= size s1 /\ 0 <= od /\ od + sz <= size dest)%Z ->
  (forall k, (0 <= k < sz)%Z -> is_finite (gb s0 (o0 + k)) = true /\ B2R (gb s0 (o0 + k)) = fn (Z.to_nat k)) ->
  (forall k, (0 <= k < sz)%Z -> is_finite (gb s1 (o1 + k)) = true /\ B2R (gb s1 (o1 + k)) = gn (Z.to_nat k)) ->
  rsum (Z.to_nat sz) (fun j => Rabs (fn j)) <= 3 -> rsum (Z.to_nat sz) (fun j => Rabs (gn j)) <= 3 ->
  (forall f' dest', fft_shape m f' -> size dest' = size dest ->
     (forall i, (od <= i < od + sz)%Z -> fabs (gb dest' i) (conv fn gn (Z.to_nat (i - od))) (400 * e)) ->
     Q (f', dest')) ->
  WP (@fft_convolve_same_size BN E f sz s0 o0 s1 o1 dest od) Q.
Proof.
  intros HI Hsz Hm31 Hb H0 H1 L0 L1 HQ.
  pose proof HI as (Hmax & Hs_in & Hs_out & Hs_cin & Hs_cout & Hs_tmp & Hpl_r & Hpl_c).
  unfold MINIMUM_SIZE_FOR_FFTW_CONVOLUTION in Hsz.
  unfold fft_convolve_same_size. rewrite Hmax.
  destruct (Z.ltb_spec (m + 2047) sz) as [?|_]; [lia|].
  destruct (Z.leb_spec sz 0) as [?|_]; [lia|].
  destruct (Z.ltb_spec sz MINIMUM_SIZE_FOR_FFTW_CONVOLUTION) as [Hc|_]; [unfold MINIMUM_SIZE_FOR_FFTW_CONVOLUTION in Hc; lia|].
  destruct (round_up_shape (2 * sz) ltac:(lia)) as (q & Hq & Hr & Hqs).
  destruct (round_up_shape (2 * m) ltac:(lia)) as (p & Hp & Hrm & Hps).
  assert (Hqp : (0 < q <= p)%Z) by lia.
  rewrite Hrm in *.
  assert (HP : Z.quot (2048 * p) ROUNDING = p) by (unfold ROUNDING; rewrite Z.mul_comm; apply Z.quot_mul; lia).
  rewrite HP in *. cbv zeta. rewrite Hr.
  set (x := fun i => if (i <? Z.to_nat sz)%nat then fn i else 0).
  set (y := fun i => if (i <? Z.to_nat sz)%nat then gn i else 0).
  set (h := Z.to_nat (1024 * q)).
  assert (Hh : (1024 <= h)%nat) by (unfold h; lia).
  assert (Hhsz : (Z.to_nat sz <= h)%nat) by (unfold h; lia).
  replace (2048 * q)%Z with (2 * Z.of_nat h)%Z by (unfold h; lia).
  assert (Hplan : forall pl (Q : list (option Z) * Z -> Prop), plans_shape p pl ->
     (forall pl', plans_shape p pl' -> Q (pl', 2 * Z.of_nat h)%Z) -> WP (@memoized_plan BN E pl (2 * Z.of_nat h)) Q).
  { intros pl Q' Hpl HQ'. replace (2 * Z.of_nat h)%Z with (2048 * q)%Z in * by (unfold h; lia).
    eapply sh_memoized_plan; eauto. }
  change (@size f64 (r2c_in f) = 2048 * p)%Z in Hs_in. change (@size (f64 * f64) (r2c_out f) = 2048 * p)%Z in Hs_out.
  change (@size (f64 * f64) (c2r_in f) = 2048 * p)%Z in Hs_cin. change (@size f64 (c2r_out f) = 2048 * p)%Z in Hs_cout.
  change (@size (f64 * f64) (tmp_complex f) = 2048 * p)%Z in Hs_tmp.
  assert (Hsx : forall g : nat -> R, rsum (2 * h) (fun j => Rabs (if (j <? Z.to_nat sz)%nat then g j else 0)) =
                 rsum (Z.to_nat sz) (fun j => Rabs (g j))).
  { intros g. rewrite (rsum_extend (Z.to_nat sz) (2 * h)); [|lia|].
    - apply rsum_ext. intros j Hj. destruct (Nat.ltb_spec j (Z.to_nat sz)); [reflexivity|lia].
    - intros j Hj. destruct (Nat.ltb_spec j (Z.to_nat sz)); [lia|apply Rabs_R0]. }
  pose proof (Hsx fn) as Hsx0. pose proof (Hsx gn) as Hsx1. fold x in Hsx0. fold y in Hsx1.
  change (rsum (2 * h) (fun j => Rabs (x j)) = rsum (Z.to_nat sz) (fun j => Rabs (fn j))) in Hsx0.
  change (rsum (2 * h) (fun j => Rabs (y j)) = rsum (Z.to_nat sz) (fun j => Rabs (gn j))) in Hsx1.
  destruct zero_ok as [F0 V0].
  (* first transform *)
  apply wp_bind, wp_copy64; try lia. intros in1 Hsi1 Hi1.
  apply wp_bind, Hplan; auto. intros plr1 Hplr1. cbn [fst snd].
  apply wp_bind. apply (wp_r2c64 7 h in1 (tmp_complex f) x); try lia.
  { intros i Hi. rewrite Hi1 by lia. unfold x.
    destruct (Z.ltb_spec (Z.of_nat i) sz), (Nat.ltb_spec i (Z.to_nat sz)); try lia; [|auto].
    destruct (H0 (Z.of_nat i) ltac:(lia)) as [G1 G2]. rewrite Nat2Z.id in G2. auto. }
  { lra. }
  intros in1' tmp Hsi1' Hst Htmp. cbn [fst snd].
  (* second transform *)
  apply wp_bind, wp_copy64; try lia. intros in2 Hsi2 Hi2.
  apply wp_bind, Hplan; auto. intros plr2 Hplr2. cbn [fst snd].
  apply wp_bind. apply (wp_r2c64 8 h in2 (r2c_out f) y); try lia.
  { intros i Hi. rewrite Hi2 by lia. unfold y.
    destruct (Z.ltb_spec (Z.of_nat i) sz), (Nat.ltb_spec i (Z.to_nat sz)); try lia; [|auto].
    destruct (H1 (Z.of_nat i) ltac:(lia)) as [G1 G2]. rewrite Nat2Z.id in G2. auto. }
  { lra. }
  intros in2' outc Hsi2' Hso Hout. cbn [fst snd].
  (* product *)
  assert (Hq2 : Z.quot (2 * Z.of_nat h) 2 = Z.of_nat h) by (rewrite Z.mul_comm; apply Z.quot_mul; lia). rewrite Hq2.
  destruct (inv_size (2 * Z.of_nat h)) as (Hc & Heta & Hi01).
  { unfold h. lia. }
  set (i := / IZR (2 * Z.of_nat h)) in *.
  assert (HiR : i = / INR (2 * h)).
  { unfold i. rewrite INR_IZR_INZ. do 2 f_equal. lia. }
  assert (Hhi : INR (S h) * i <= 1025 / 2048).
  { rewrite HiR, S_INR, mult_INR. change (INR 2) with 2.
    assert (H1024 : 1024 <= INR h) by (apply le_INR in Hh; replace (INR 1024) with 1024 in Hh by (rewrite INR_IZR_INZ; reflexivity); exact Hh).
    apply (Rmult_le_reg_r (2 * INR h)); [lra|]. rewrite Rmult_assoc, Rinv_l by lra. lra. }
  assert (Hxa : forall k, Rabs (dft_re (2 * h) x k) <= 3 /\ Rabs (dft_im (2 * h) x k) <= 3 /\
                          Rabs (dft_re (2 * h) y k) <= 3 /\ Rabs (dft_im (2 * h) y k) <= 3).
  { intros k. pose proof (dft_re_abs (2 * h) x k). pose proof (dft_im_abs (2 * h) x k).
    pose proof (dft_re_abs (2 * h) y k). pose proof (dft_im_abs (2 * h) y k). lra. }
  change (@n_div BN n1 (n_of_Z (2 * Z.of_nat h))) with (Bdiv mode_NE (b64_of_Z 1) (b64_of_Z (2 * Z.of_nat h))).
  apply wp_bind. apply (wp_product64 h tmp outc (c2r_in f) _ i (dft_re (2 * h) x) (dft_im (2 * h) x)
     (dft_re (2 * h) y) (dft_im (2 * h) y)); try lia; auto.
  intros cin Hscin Hcin.
  apply wp_bind, Hplan; auto. intros plc Hplc. cbn [fst snd].
  assert (Hprod : forall k, Rabs (i * prod_re (2 * h) x y k) <= 18 * i /\ Rabs (i * prod_im (2 * h) x y k) <= 18 * i).
  { intros k. destruct (Hxa k) as (A1 & A2 & A3 & A4). unfold prod_re, prod_im.
    rewrite !Rabs_mult, !(Rabs_pos_eq i) by lra.
    assert (HM : forall a b, Rabs a <= 3 -> Rabs b <= 3 -> Rabs (a * b) <= 9).
    { intros a b Ha Hb'. rewrite Rabs_mult. pose proof (Rabs_pos a). pose proof (Rabs_pos b).
      replace 9 with (3 * 3) by ring. apply Rmult_le_compat; auto. }
    split; rewrite (Rmult_comm 18); apply Rmult_le_compat_l; try lra.
    - eapply Rle_trans; [apply Rabs_triang|]. rewrite Rabs_Ropp. pose proof (HM _ _ A1 A3). pose proof (HM _ _ A2 A4). lra.
    - eapply Rle_trans; [apply Rabs_triang|]. pose proof (HM _ _ A1 A4). pose proof (HM _ _ A2 A3). lra. }
  apply wp_bind. apply (wp_c2r64 9 h cin (c2r_out f) i (fun k => i * prod_re (2 * h) x y k) (fun k => i * prod_im (2 * h) x y k)); try lia.
  { lra. } { lra. } { intros k _. apply Hprod. } { intros k _. apply Hprod. }
  { intros k Hk. apply Hcin, Hk. }
  intros cin' cout Hscin' Hscout Hcout. cbn [fst snd].
  apply wp_bind. apply wp_blit with (d := b64_of_Z 0 : car BN).
  { intros _. change (@size (car BN) cout) with (@size f64 cout). change (@size (car BN) dest) with (@size f64 dest). lia. }
  intros dest' Hsd Hd. apply wp_ok, HQ; auto.
  - unfold fft_shape. cbn [maximum_input_size r2c_in r2c_out c2r_in c2r_out tmp_complex r2c_plans c2r_plans].
    rewrite Hrm, HP. change (cplx BN) with (f64 * f64)%type. change (car BN) with f64.
    repeat split; try lia; try apply Hplr2; try apply Hplc.
  - intros k Hk. specialize (Hd k ltac:(lia)). change (gb dest' k) with (@get (car BN) (b64_of_Z 0) dest' k). rewrite Hd.
    destruct (Z.leb_spec od k), (Z.ltb_spec k (od + sz)); try lia. cbn [andb].
    set (j := Z.to_nat (k - od)). replace (0 + (k - od))%Z with (Z.of_nat j) by (unfold j; lia).
    destruct (Hcout j ltac:(unfold j, h; lia)) as (Fj & re' & im' & Hre & Him & Ej).
    split; [exact Fj|].
    change (@get (car BN) (b64_of_Z 0) cout (Z.of_nat j)) with (gb cout (Z.of_nat j)).
    assert (Hcv : conv fn gn j = conv x y j).
    { apply conv_ext; intros l Hl; unfold x, y; destruct (Nat.ltb_spec l (Z.to_nat sz)); auto; unfold j in Hl; lia. }
    rewrite Hcv. rewrite HiR in Hre, Him.
    pose proof (idft_near h (Z.to_nat sz) x y re' im' (164 * e * / INR (2 * h)) j ltac:(lia) Hhsz ltac:(unfold j; lia)) as HN.
    assert (HN' : Rabs (idft (2 * h) re' im' j - conv x y j) <= 4 * INR (S h) * (164 * e * / INR (2 * h))).
    { apply HN; auto.
      - intros l Hl. unfold x. destruct (Nat.ltb_spec l (Z.to_nat sz)); auto; lia.
      - intros l Hl. unfold y. destruct (Nat.ltb_spec l (Z.to_nat sz)); auto; lia. }
    rewrite <- HiR in HN'.
    replace (B2R (gb cout (Z.of_nat j)) - conv x y j) with ((B2R (gb cout (Z.of_nat j)) - idft (2 * h) re' im' j) + (idft (2 * h) re' im' j - conv x y j)) by ring.
    eapply Rle_trans; [apply Rabs_triang|]. pose proof u64_pos as Hu.
    assert (G1 : e * (INR (S h) * i) <= e * (1025 / 2048)) by (apply Rmult_le_compat_l; lra).
    replace (4 * INR (S h) * (164 * e * i)) with (656 * (e * (INR (S h) * i))) in HN' by ring.
    replace (e * (80 * INR (S h) * i)) with (80 * (e * (INR (S h) * i))) in Ej by ring. lra.
Qed.
End Fft.
