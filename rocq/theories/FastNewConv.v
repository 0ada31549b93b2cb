(** * FastNewConv: convolution of sequences of either sign in any arithmetic of FastNum.v and FastNewNum.v, absolute error. *)
From Coquelicot Require Import Coquelicot.
From Flocq Require Import Core.Core.
From Coq Require Import ZArith Reals List Bool Lia Lra String.
From Verif Require Import Base Num Hoare Common PoissonPmf FFTConv RSum Dft SafeFft Ecdf1New.
From Verif Require Import ErrBound FftMath FastNum FastGrow FastPmf FastConv FastFft FastNewNum.
Import List.
Local Open Scope R_scope.

Lemma pow_lin u k : 0 <= u -> INR k * u <= / 11 -> 1 <= (1 + u) ^ k <= 1 + 11 / 10 * (INR k * u).
Proof.
  intros Hu. induction k as [|k IH]; intros Hk; [simpl; lra|].
  rewrite S_INR in *. pose proof (pos_INR k) as H0. cbn [pow].
  assert (Hku : 0 <= INR k * u) by (apply Rmult_le_pos; lra). specialize (IH ltac:(lra)).
  split; [nra|]. apply Rle_trans with ((1 + u) * (1 + 11 / 10 * (INR k * u))); [apply Rmult_le_compat_l; lra|]. nra.
Qed.

Section Conv.
Context (F : num) (E : env F) (fin one raw : car F -> Prop) (val : car F -> R) (u eps eta : R)
  (acc : car F -> R -> R -> nat -> Prop).
Hypothesis HA : arith F fin one raw val u eps eta.
Hypothesis HAF : arith_fft F fin val u eta.
Hypothesis HAN : arith_new F fin raw val u eta acc.
Hypothesis Hu : bpow radix2 (-53) <= u.
Hypothesis Hu2 : u <= / 65536.
Hypothesis Heta0 : 0 < eta.
Hypothesis Heta : eta <= bpow radix2 (-1010).
Context {thr : exn -> Prop} {abt : Prop}.
Notation WP := (wp thr abt).
Notation g0 := (get (@n0 F)).

Lemma cu_pos : 0 < u.
Proof. pose proof (bpow_gt_0 radix2 (-53)). lra. Qed.

(** a number or an expression, close to x *)
Definition held (v : car F) (x e A : R) (k : Z) : Prop :=
  exists s a j, acc v s a j /\ Rabs (s - x) <= e /\ a <= A /\ (Z.of_nat j <= k)%Z.

Lemma held_val v x e A k : held v x e A k -> 0 <= A <= bpow radix2 36 -> (0 <= k <= 2 ^ 20)%Z -> IZR k * u <= / 11 ->
  fin v /\ Rabs (val v - x) <= e + 11 / 10 * (IZR k * u) * A + u.
Proof.
  intros (s & a & j & Hacc & Hs & Ha & Hj) HA0 Hk Hku. pose proof cu_pos as Hu0.
  destruct (an_val _ _ _ _ _ _ _ HAN _ _ _ _ Hacc ltac:(lra) ltac:(lia)) as [Fv Ev]. split; [exact Fv|].
  assert (HjI : INR j <= IZR k) by (rewrite INR_IZR_INZ; apply IZR_le, Hj). pose proof (pos_INR j) as Hj0.
  assert (Hju : INR j * u <= IZR k * u) by (apply Rmult_le_compat_r; lra).
  destruct (pow_lin u j ltac:(lra) ltac:(lra)) as [P1 P2]. set (g := (1 + u) ^ j) in *.
  assert (Hjk : IZR k <= bpow radix2 20) by (change (bpow radix2 20) with (IZR (2 ^ 20)); apply IZR_le; lia).
  assert (Htiny : g * (INR j * eta) <= u).
  { apply Rle_trans with (2 * (bpow radix2 20 * bpow radix2 (-1010))).
    - apply Rmult_le_compat; [lra|apply Rmult_le_pos; lra|lra|]. apply Rmult_le_compat; lra.
    - rewrite <- bpow_plus. change 2 with (bpow radix2 1). rewrite <- bpow_plus.
      eapply Rle_trans; [|exact Hu]. apply bpow_le. lia. }
  assert (Hga : (g - 1) * a <= 11 / 10 * (IZR k * u) * A).
  { destruct (Rle_dec 0 a) as [H0|H0].
    - apply Rmult_le_compat; lra.
    - assert ((g - 1) * a <= 0) by nra. assert (0 <= IZR k * u) by (apply Rmult_le_pos; [apply IZR_le; lia|lra]).
      assert (0 <= 11 / 10 * (IZR k * u) * A) by (apply Rmult_le_pos; lra). lra. }
  replace (val v - x) with ((val v - s) + (s - x)) by ring. eapply Rle_trans; [apply Rabs_triang|]. lra.
Qed.

Lemma held_weaken v x e A k e' A' k' : held v x e A k -> e <= e' -> A <= A' -> (k <= k')%Z -> held v x e' A' k'.
Proof. intros (s & a & j & H1 & H2 & H3 & H4) He HA0 Hk. exists s, a, j. repeat split; auto; try lra; lia. Qed.

Lemma held_trans v x y e e' A k : held v x e A k -> Rabs (x - y) <= e' -> held v y (e + e') A k.
Proof.
  intros (s & a & j & H1 & H2 & H3 & H4) H5. exists s, a, j. split; [exact H1|]. split; [|auto].
  replace (s - y) with ((s - x) + (x - y)) by ring. eapply Rle_trans; [apply Rabs_triang|]. lra.
Qed.

Lemma held_raw v : fin v -> raw v -> held v (val v) 0 (Rabs (val v)) 1.
Proof.
  intros Fv Rv. exists (val v), (Rabs (val v)), 1%nat. split; [apply (an_raw _ _ _ _ _ _ _ HAN); auto|].
  rewrite Rminus_diag_eq, Rabs_R0 by reflexivity. repeat split; try lra. lia.
Qed.

Lemma wp_conv_held sz (s0 : list (car F)) o0 (s1 : list (car F)) o1 (dest : list (car F)) od (fn gn : nat -> R) (Q : list (car F) -> Prop) :
  (sz <= 128)%Z ->
  (0 < sz -> 0 <= o0 /\ o0 + sz <= size s0 /\ 0 <= o1 /\ o1 + sz <= size s1 /\ 0 <= od /\ od + sz <= size dest)%Z ->
  (forall k, (0 <= k < sz)%Z -> fin (g0 s0 (o0 + k)) /\ val (g0 s0 (o0 + k)) = fn (Z.to_nat k)) ->
  (forall k, (0 <= k < sz)%Z -> fin (g0 s1 (o1 + k)) /\ val (g0 s1 (o1 + k)) = gn (Z.to_nat k)) ->
  rsum (Z.to_nat sz) (fun j => Rabs (fn j)) <= 102 / 100 -> (forall k, (k < Z.to_nat sz)%nat -> Rabs (gn k) <= 3 / 2) ->
  (forall dest', size dest' = size dest ->
     (forall i, (od <= i < od + sz)%Z -> held (g0 dest' i) (conv fn gn (Z.to_nat (i - od))) 0 2 130) -> Q dest') ->
  WP (convolve_same_size sz s0 o0 s1 o1 dest od) Q.
Proof.
  intros Hsz Hbd H0 H1 Hf Hg HQ. unfold convolve_same_size.
  assert (HS : forall j i, (i <= S j)%nat -> (j < Z.to_nat sz)%nat ->
     rsum i (fun k => Rabs (fn k) * Rabs (gn (j - k)%nat)) <= 16 / 10).
  { intros j i Hi Hj. apply Rle_trans with (rsum i (fun k => 3 / 2 * Rabs (fn k))).
    - apply rsum_le. intros k Hk. rewrite Rmult_comm. apply Rmult_le_compat_r; [apply Rabs_pos|]. apply Hg. lia.
    - rewrite rsum_scal. assert (rsum i (fun k => Rabs (fn k)) <= 102 / 100); [|lra].
      eapply Rle_trans; [apply rsum_incr; [|intros; apply Rabs_pos]|exact Hf]. lia. }
  apply wp_for with (P := fun j (d : list (car F)) => size d = size dest /\
     forall i, (od <= i < od + j)%Z -> held (g0 d i) (conv fn gn (Z.to_nat (i - od))) 0 2 130).
  - split; [reflexivity|lia].
  - intros j d Hj [Hs Hd]. apply wp_bind.
    set (x k := g0 s0 (o0 + Z.of_nat k)%Z). set (y k := g0 s1 (o1 + (j - Z.of_nat k))%Z).
    apply wp_for with (P := fun k (a : car F) => a = dot x y (Z.to_nat k)).
    + reflexivity.
    + intros k a Hk ->.
      apply wp_bind. apply (wp_rd n0 s0); [lia|].
      apply wp_bind. apply (wp_rd n0 s1); [lia|]. apply wp_ok.
      replace (Z.to_nat (k + 1)) with (S (Z.to_nat k)) by lia. cbn [dot]. unfold x, y.
      rewrite Z2Nat.id by lia. reflexivity.
    + intros a ->. replace (Z.to_nat (Z.max 0 (j + 1))) with (S (Z.to_nat j)) by lia.
      apply wp_wr; [lia|]. rewrite size_upd. split; [exact Hs|]. intros i Hi.
      rewrite get_upd by lia. destruct (Z.eqb_spec (od + j) i) as [<-|Hne]; [|apply Hd; lia].
      replace (od + j - od)%Z with j by lia. set (jn := Z.to_nat j).
      assert (Hx : forall k, (k < S jn)%nat -> fin (x k) /\ val (x k) = fn k).
      { intros k Hk. unfold x. destruct (H0 (Z.of_nat k) ltac:(unfold jn in Hk; lia)) as [G1 G2]. rewrite Nat2Z.id in G2. auto. }
      assert (Hy : forall k, (k < S jn)%nat -> fin (y k) /\ val (y k) = gn (jn - k)%nat).
      { intros k Hk. unfold y. destruct (H1 (j - Z.of_nat k)%Z ltac:(unfold jn in Hk; lia)) as [G1 G2].
        replace (Z.to_nat (j - Z.of_nat k)) with (jn - k)%nat in G2 by (unfold jn; lia). auto. }
      assert (Hf4 : forall k, (k < S jn)%nat -> Rabs (fn k) <= 4).
      { intros k Hk. apply Rle_trans with (102 / 100); [|lra]. eapply Rle_trans; [|exact Hf].
        apply (rsum_term (Z.to_nat sz) (fun j => Rabs (fn j)) k); [unfold jn in Hk; lia|]. intros; apply Rabs_pos. }
      exists (rsum (S jn) (fun k => val (x k) * val (y k))), (rsum (S jn) (fun k => Rabs (val (x k) * val (y k)))), (S jn + 1)%nat.
      split.
      { apply (an_dot _ _ _ _ _ _ _ HAN); [unfold jn; lia| |].
        - intros k Hk. destruct (Hx k Hk) as [G1 G2]. split; [exact G1|]. rewrite G2. auto.
        - intros k Hk. destruct (Hy k Hk) as [G1 G2]. split; [exact G1|]. rewrite G2.
          pose proof (Hg (jn - k)%nat ltac:(unfold jn; lia)). lra. }
      split; [|split].
      * assert (rsum (S jn) (fun k => val (x k) * val (y k)) = conv fn gn jn) as ->.
        { apply rsum_ext. intros k Hk. rewrite (proj2 (Hx k Hk)), (proj2 (Hy k Hk)). reflexivity. }
        rewrite Rminus_diag_eq, Rabs_R0 by reflexivity. lra.
      * apply Rle_trans with (16 / 10); [|lra]. eapply Rle_trans; [|apply (HS jn (S jn)); unfold jn; lia].
        apply rsum_le. intros k Hk. rewrite (proj2 (Hx k Hk)), (proj2 (Hy k Hk)), Rabs_mult. lra.
      * unfold jn. lia.
  - intros d [Hs Hd]. apply HQ; [exact Hs|]. intros i Hi. apply Hd. lia.
Qed.

(** either method; [dl] bounds what an FFT of the given maximal length may add *)
Lemma wp_fft_held m dl f sz (s0 : list (car F)) o0 (s1 : list (car F)) o1 (dest : list (car F)) od (fn gn : nat -> R) (Q : fftconv F * list (car F) -> Prop) :
  0 <= dl <= 4 / 10 ->
  ((MINIMUM_SIZE_FOR_FFTW_CONVOLUTION <= m)%Z -> exists e, fft_accurate_in fin val E e /\ (forall k z, Forall raw (fft_c2r E k z)) /\ 2 * u <= e /\ e <= / 4096 /\ 400 * e <= dl) ->
  fft_shape m f -> (sz <= m)%Z -> (m <= 2 ^ 31)%Z ->
  (0 < sz -> 0 <= o0 /\ o0 + sz <= size s0 /\ 0 <= o1 /\ o1 + sz <= size s1 /\ 0 <= od /\ od + sz <= size dest)%Z ->
  (forall k, (0 <= k < sz)%Z -> fin (g0 s0 (o0 + k)) /\ val (g0 s0 (o0 + k)) = fn (Z.to_nat k)) ->
  (forall k, (0 <= k < sz)%Z -> fin (g0 s1 (o1 + k)) /\ val (g0 s1 (o1 + k)) = gn (Z.to_nat k)) ->
  rsum (Z.to_nat sz) (fun j => Rabs (fn j)) <= 102 / 100 -> (forall k, (k < Z.to_nat sz)%nat -> Rabs (gn k) <= 3 / 2) ->
  rsum (Z.to_nat sz) (fun j => Rabs (gn j)) <= 3 ->
  (forall f' dest', fft_shape m f' -> size dest' = size dest ->
     (forall i, (od <= i < od + sz)%Z -> held (g0 dest' i) (conv fn gn (Z.to_nat (i - od))) dl 2 130) -> Q (f', dest')) ->
  WP (fft_convolve_same_size E f sz s0 o0 s1 o1 dest od) Q.
Proof.
  intros Hdl HF HI Hsz Hm Hbd H0 H1 Hf Hg Hg3 HQ.
  destruct (Z.ltb_spec sz MINIMUM_SIZE_FOR_FFTW_CONVOLUTION) as [Hs|Hs].
  - unfold fft_convolve_same_size. rewrite (proj1 HI).
    destruct (Z.ltb_spec (m + 2047) sz) as [?|_]; [lia|].
    destruct (Z.leb_spec sz 0) as [Hz|Hz]; [apply wp_ok, HQ; auto; lia|].
    destruct (Z.ltb_spec sz MINIMUM_SIZE_FOR_FFTW_CONVOLUTION) as [_|?]; [|lia].
    apply wp_bind. apply (wp_conv_held sz s0 o0 s1 o1 dest od fn gn); auto.
    { unfold MINIMUM_SIZE_FOR_FFTW_CONVOLUTION in Hs. lia. }
    intros dest' Hd Hv. apply wp_ok, HQ; auto. intros i Hi. eapply held_weaken; [apply Hv, Hi|lra|lra|lia].
  - destruct HF as (e & HF & Hraw & He1 & He2 & He3); [lia|].
    assert (Hmin : (0 < MINIMUM_SIZE_FOR_FFTW_CONVOLUTION)%Z) by reflexivity.
    assert (Hz0 : fin n0 /\ val n0 = 0).
    { destruct (ar_int _ _ _ _ _ _ _ _ HA 0 ltac:(lia)) as (G1 & _ & _ & G2). auto. }
    assert (Hr0 : raw n0) by apply (ar_int _ _ _ _ _ _ _ _ HA 0 ltac:(lia)).
    assert (Hout : forall h z j, (j < 2 * h)%nat -> raw (nth j (fft_c2r E (2 * h)%nat z) n0)).
    { intros h z j _. pose proof (Hraw (2 * h)%nat z) as HR. rewrite Forall_forall in HR.
      destruct (nth_in_or_default j (fft_c2r E (2 * h) z) n0) as [G|G]; [apply HR, G|rewrite G; exact Hr0]. }
    apply (wp_fbig F E fin val u eta e HAF Hz0 HF Hu He1 He2 Heta raw Hout m f sz s0 o0 s1 o1 dest od fn gn); auto.
    + apply Hbd. lia.
    + lra.
    + intros f' dest' HI' Hd Hv. apply HQ; auto. intros i Hi. destruct (Hv i Hi) as [[Fv Ev] Rv].
      assert (Hc : Rabs (conv fn gn (Z.to_nat (i - od))) <= 16 / 10).
      { set (j := Z.to_nat (i - od)). assert (Hj : (j < Z.to_nat sz)%nat) by (unfold j; lia).
        unfold conv. eapply Rle_trans; [apply rsum_abs|].
        apply Rle_trans with (rsum (S j) (fun k => 3 / 2 * Rabs (fn k))).
        - apply rsum_le. intros k Hk. rewrite Rabs_mult, Rmult_comm. apply Rmult_le_compat_r; [apply Rabs_pos|]. apply Hg. lia.
        - rewrite rsum_scal. assert (rsum (S j) (fun k => Rabs (fn k)) <= 102 / 100); [|lra].
          eapply Rle_trans; [apply rsum_incr; [|intros; apply Rabs_pos]|exact Hf]. lia. }
      eapply held_weaken; [apply (held_trans _ _ _ 0 dl _ _ (held_raw _ Fv Rv)); lra|lra| |lia].
      set (c := conv fn gn (Z.to_nat (i - od))) in *. set (y := val (g0 dest' i)) in *.
      replace y with ((y - c) + c) by ring. eapply Rle_trans; [apply Rabs_triang|]. lra.
Qed.
End Conv.
