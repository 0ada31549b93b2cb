(** * AccConv: accuracy of the direct convolution in binary64. *)
From Coquelicot Require Import Coquelicot.
From Flocq Require Import Core.Core IEEE754.BinarySingleNaN.
From Coq Require Import ZArith Reals List Bool Lia Lra.
From Verif Require Import Base Num Hoare Common RSum Binary64 Binary64Facts ErrBound B64Round.
Import List.
Local Open Scope R_scope.

Notation gb := (@get f64 (b64_of_Z 0)).

(** a finite number near [x] *)
Definition fnear (f a : R) (v : f64) (x : R) : Prop := is_finite v = true /\ near f a (B2R v) x.

Lemma fnear_weaken f a f' a' v x : 0 <= x -> f <= f' -> a <= a' -> fnear f a v x -> fnear f' a' v x.
Proof. intros Hx Hf Ha [F H]. split; [exact F|]. eapply near_weaken; eauto. Qed.

Section Conv.
Context (L : libm).
Notation BN := (Bnum L).
Variables (n : nat) (fa fb a b : R) (p s : nat -> R).
Hypothesis Hfa : 1 <= fa <= 2.
Hypothesis Hfb : 1 <= fb <= 2.
Hypothesis Ha : 0 <= a <= 1.
Hypothesis Hb : 0 <= b <= 1.
Hypothesis Hp0 : forall k, 0 <= p k.
Hypothesis Hs0 : forall k, 0 <= s k.
Hypothesis Hp1 : rsum (S n) p <= 1.
Hypothesis Hs1 : rsum (S n) s <= 1.
Hypothesis Hn31 : INR n <= bpow radix2 31.
Hypothesis Hgrow : (1 + u64) ^ (n + 2) <= 2.

Definition term_err (j k : nat) : R := (b * fa * p k + a * fb * s (j - k)%nat + a * b) * (1 + u64) + eta64.
Definition conv_abs : R := (1 + u64) ^ (n + 2) * (b * fa + a * fb + INR (S n) * (a * b) + INR (S n) * eta64).
Definition conv_fac : R := fa * fb * (1 + u64) ^ (n + 2).

Lemma p_le1 k : (k <= n)%nat -> p k <= 1.
Proof. intros Hk. eapply Rle_trans; [|exact Hp1]. apply (rsum_term (S n) p k); [lia|auto]. Qed.
Lemma s_le1 k : (k <= n)%nat -> s k <= 1.
Proof. intros Hk. eapply Rle_trans; [|exact Hs1]. apply (rsum_term (S n) s k); [lia|auto]. Qed.

Lemma term_err_sum j i : (j <= n)%nat -> (i <= S j)%nat ->
  0 <= rsum i (term_err j) <= (b * fa + a * fb + INR (S n) * (a * b)) * (1 + u64) + INR (S n) * eta64.
Proof.
  intros Hj Hi. pose proof u64_pos as Hu. pose proof eta64_pos as He.
  assert (H0 : forall k, 0 <= term_err j k).
  { intros k. unfold term_err. specialize (Hp0 k). specialize (Hs0 (j - k)%nat).
    assert (0 <= b * fa * p k) by (repeat apply Rmult_le_pos; lra).
    assert (0 <= a * fb * s (j - k)%nat) by (repeat apply Rmult_le_pos; lra).
    assert (0 <= a * b) by (apply Rmult_le_pos; lra). nra. }
  split; [apply rsum_nonneg; auto|].
  apply Rle_trans with (rsum (S j) (term_err j)); [apply rsum_incr; auto|].
  unfold term_err. rewrite rsum_plus, rsum_const, rsum_scal_r, !rsum_plus, rsum_const, !rsum_scal.
  assert (HP : rsum (S j) p <= 1) by (eapply Rle_trans; [apply rsum_incr; [|auto]|exact Hp1]; lia).
  assert (HS : rsum (S j) (fun i => s (j - i)%nat) <= 1).
  { assert (rsum (S j) (fun i => s (j - i)%nat) = rsum (S j) s) as ->.
    { rewrite (rsum_rev (S j) s). apply rsum_ext. intros k Hk. f_equal. lia. }
    eapply Rle_trans; [apply rsum_incr; [|auto]|exact Hs1]; lia. }
  assert (HJ : INR (S j) <= INR (S n)) by (apply le_INR; lia).
  assert (0 <= b * fa) by (apply Rmult_le_pos; lra). assert (0 <= a * fb) by (apply Rmult_le_pos; lra).
  assert (0 <= a * b) by (apply Rmult_le_pos; lra).
  assert (b * fa * rsum (S j) p <= b * fa) by nra.
  assert (a * fb * rsum (S j) (fun i => s (j - i)%nat) <= a * fb) by nra.
  assert (INR (S j) * (a * b) <= INR (S n) * (a * b)) by nra.
  assert (INR (S j) * eta64 <= INR (S n) * eta64) by nra.
  assert (0 <= 1 + u64) by lra. nra.
Qed.

Definition acc_ok (j i : nat) (v : f64) : Prop :=
  fnear (fa * fb * (1 + u64) * (1 + u64) ^ i) ((1 + u64) ^ i * rsum i (term_err j)) v
        (rsum i (fun k => p k * s (j - k)%nat)).

Lemma acc_step j i (x y v : f64) : (i <= j)%nat -> (j <= n)%nat ->
  fnear fa a x (p i) -> fnear fb b y (s (j - i)%nat) -> acc_ok j i v ->
  acc_ok j (S i) (Bplus mode_NE v (Bmult mode_NE x y)).
Proof.
  intros Hij Hjn [Fx Hx] [Fy Hy] [Fv Hv].
  pose proof u64_pos as Hu. pose proof eta64_pos as He.
  pose proof (p_le1 i ltac:(lia)) as Hpi. pose proof (s_le1 (j - i)%nat ltac:(lia)) as Hsi.
  pose proof (Hp0 i) as Hpi0. pose proof (Hs0 (j - i)%nat) as Hsi0.
  assert (H60 : bpow radix2 60 = 1152921504606846976) by (simpl; lra).
  assert (H31 : bpow radix2 31 = 2147483648) by (simpl; lra).
  (* product *)
  pose proof (near_mult _ _ _ _ _ _ _ _ Hpi0 Hsi0 Hx Hy) as Hm.
  assert (HPS : 0 <= p i * s (j - i)%nat) by (apply Rmult_le_pos; auto).
  assert (Hxa : Rabs (B2R x) <= 3) by (pose proof (near_abs _ _ _ _ Hpi0 Hx); nra).
  assert (Hya : Rabs (B2R y) <= 3) by (pose proof (near_abs _ _ _ _ Hsi0 Hy); nra).
  assert (Hxy : Rabs (B2R x * B2R y) <= 9).
  { rewrite Rabs_mult. pose proof (Rabs_pos (B2R x)). pose proof (Rabs_pos (B2R y)). nra. }
  destruct (mult_err x y Fx Fy) as [Fm Em]; [lra|].
  set (z := Bmult mode_NE x y) in *.
  pose proof (near_round _ _ u64 eta64 _ _ (B2R z) HPS ltac:(lra) Hm Em) as Hz.
  fold (term_err j i) in Hz.
  assert (Hza : Rabs (B2R z) <= 19).
  { assert (Hu9 : u64 <= 1) by (unfold u64; change 1 with (bpow radix2 0); apply bpow_le; lia).
    assert (He9 : eta64 <= 1) by (unfold eta64; change 1 with (bpow radix2 0); apply bpow_le; lia).
    pose proof (Rabs_triang (B2R z - B2R x * B2R y) (B2R x * B2R y)) as Ht.
    replace (B2R z - B2R x * B2R y + B2R x * B2R y) with (B2R z) in Ht by ring.
    pose proof (Rabs_pos (B2R x * B2R y)). nra. }
  (* accumulated value *)
  assert (HS0 : 0 <= rsum i (fun k => p k * s (j - k)%nat)).
  { apply rsum_nonneg. intros; apply Rmult_le_pos; auto. }
  assert (HS1 : rsum i (fun k => p k * s (j - k)%nat) <= 1).
  { apply Rle_trans with (rsum i p).
    - apply rsum_le. intros k Hk. pose proof (s_le1 (j - k)%nat ltac:(lia)). specialize (Hp0 k). specialize (Hs0 (j - k)%nat). nra.
    - eapply Rle_trans; [apply rsum_incr; [|auto]|exact Hp1]. lia. }
  pose proof (pow_incr1 u64 i (n + 2) ltac:(lra) ltac:(lia)) as Hpw. pose proof (pow_ge1 u64 i ltac:(lra)) as Hpw1.
  pose proof (term_err_sum j i Hjn ltac:(lia)) as [HT0 HT1].
  assert (Hu9 : u64 <= 1) by (unfold u64; change 1 with (bpow radix2 0); apply bpow_le; lia).
  assert (He9 : eta64 <= 1) by (unfold eta64; change 1 with (bpow radix2 0); apply bpow_le; lia).
  assert (HTb : rsum i (term_err j) <= 100 * bpow radix2 31).
  { eapply Rle_trans; [exact HT1|]. rewrite S_INR. pose proof (pos_INR n) as HN0.
    assert (b * fa <= 2) by nra. assert (a * fb <= 2) by nra. assert (0 <= a * b <= 1) by nra.
    assert (0 <= (INR n + 1) * (a * b) <= INR n + 1) by nra.
    assert ((INR n + 1) * eta64 <= INR n + 1) by nra.
    assert (0 <= b * fa) by nra. assert (0 <= a * fb) by nra.
    apply Rle_trans with ((2 + 2 + (INR n + 1)) * 2 + (INR n + 1)); [|lra].
    apply Rplus_le_compat; [|assumption]. apply Rmult_le_compat; lra. }
  assert (HF : 1 <= fa * fb <= 4) by nra.
  assert (HFF : fa * fb * (1 + u64) <= 8) by nra.
  assert (HFF0 : 0 <= fa * fb * (1 + u64)) by nra.
  assert (HF3 : fa * fb * (1 + u64) * (1 + u64) ^ i <= 16) by nra.
  assert (HF4 : 0 <= fa * fb * (1 + u64) * (1 + u64) ^ i) by nra.
  assert (Hva : Rabs (B2R v) <= 16 + 200 * bpow radix2 31).
  { eapply Rle_trans; [apply (near_abs _ _ _ _ HS0 Hv)|]. nra. }
  destruct (plus_err v z Fv Fm) as [Fw Ew].
  { eapply Rle_trans; [apply Rabs_triang|]. lra. }
  (* combine *)
  split; [exact Fw|]. cbn [rsum].
  assert (Hz' : near (fa * fb * (1 + u64) * (1 + u64) ^ i) (term_err j i) (B2R z) (p i * s (j - i)%nat)).
  { eapply near_weaken; [exact HPS| |apply Rle_refl|exact Hz]. nra. }
  pose proof (near_plus _ _ _ _ _ _ _ Hv Hz') as Hsum.
  assert (Ew' : Rabs (B2R (Bplus mode_NE v z) - (B2R v + B2R z)) <= u64 * Rabs (B2R v + B2R z) + 0) by lra.
  pose proof (near_round _ _ u64 0 _ _ _ (Rplus_le_le_0_compat _ _ HS0 HPS) ltac:(lra) Hsum Ew') as Hr.
  eapply near_weaken; [lra| | |exact Hr].
  - apply Req_le. cbn [pow]. ring.
  - cbn [pow]. assert (0 <= term_err j i).
    { unfold term_err. assert (0 <= b * fa * p i) by (repeat apply Rmult_le_pos; lra).
      assert (0 <= a * fb * s (j - i)%nat) by (repeat apply Rmult_le_pos; lra).
      assert (0 <= a * b) by (apply Rmult_le_pos; lra). nra. }
    assert (0 <= term_err j i * ((1 + u64) ^ i - 1)) by (apply Rmult_le_pos; lra). nra.
Qed.

Lemma acc_done j v : (j <= n)%nat -> acc_ok j (S j) v -> fnear conv_fac conv_abs v (conv p s j).
Proof.
  intros Hj. pose proof u64_pos as Hu. pose proof eta64_pos as He.
  assert (HS0 : 0 <= conv p s j) by (apply conv_nonneg; auto).
  apply fnear_weaken; [exact HS0| |].
  - unfold conv_fac. replace (fa * fb * (1 + u64) * (1 + u64) ^ S j) with (fa * fb * (1 + u64) ^ S (S j)) by (cbn [pow]; ring).
    apply Rmult_le_compat_l; [nra|]. apply pow_incr1; [lra|lia].
  - unfold conv_abs. destruct (term_err_sum j (S j) Hj ltac:(lia)) as [H0 H1].
    assert (Hb0 : 0 <= b * fa) by nra. assert (Ha0 : 0 <= a * fb) by nra. assert (Hab : 0 <= a * b) by nra.
    assert (HN : 0 <= INR (S n)) by apply pos_INR.
    set (X := b * fa + a * fb + INR (S n) * (a * b)) in *. assert (HX : 0 <= X) by (unfold X; nra).
    assert (HY : 0 <= INR (S n) * eta64) by nra.
    apply Rle_trans with ((1 + u64) ^ (n + 1) * ((X + INR (S n) * eta64) * (1 + u64))).
    + apply Rmult_le_compat; [apply pow_le; lra|exact H0|apply pow_incr1; [lra|lia]|nra].
    + apply Req_le. replace (n + 2)%nat with (S (n + 1)) by lia. cbn [pow]. ring.
Qed.

Context {thr : exn -> Prop} {abt : Prop}.

Lemma wp_convolve64 sz (s0 : list f64) o0 (s1 : list f64) o1 (dest : list f64) od (Q : list f64 -> Prop) :
  (sz <= Z.of_nat n + 1)%Z ->
  (0 < sz -> 0 <= o0 /\ o0 + sz <= size s0 /\ 0 <= o1 /\ o1 + sz <= size s1 /\ 0 <= od /\ od + sz <= size dest)%Z ->
  (forall k, (0 <= k < sz)%Z -> fnear fa a (gb s0 (o0 + k)) (p (Z.to_nat k))) ->
  (forall k, (0 <= k < sz)%Z -> fnear fb b (gb s1 (o1 + k)) (s (Z.to_nat k))) ->
  (forall dest', size dest' = size dest ->
     (forall i, (od <= i < od + sz)%Z -> fnear conv_fac conv_abs (gb dest' i) (conv p s (Z.to_nat (i - od)))) ->
     Q dest') ->
  wp thr abt (@convolve_same_size BN sz s0 o0 s1 o1 dest od) Q.
Proof.
  intros Hsz Hbd H0 H1 HQ. unfold convolve_same_size.
  apply wp_for with (P := fun j (d : list f64) => size d = size dest /\
     forall i, (od <= i < od + j)%Z -> fnear conv_fac conv_abs (gb d i) (conv p s (Z.to_nat (i - od)))).
  - split; [reflexivity|lia].
  - intros j d Hj [Hs Hd]. apply wp_bind.
    apply wp_for with (P := fun k (acc : f64) => acc_ok (Z.to_nat j) (Z.to_nat k) acc).
    + destruct zero_ok as [F0 V0]. split; [exact F0|]. change (B2R (@n0 BN)) with (B2R (b64_of_Z 0)). rewrite V0.
      simpl. unfold near. rewrite Rminus_diag_eq, Rabs_R0 by reflexivity. lra.
    + intros k acc Hk Hacc.
      apply wp_bind. apply (wp_rd (b64_of_Z 0) s0); [change (@size (car BN) s0) with (@size f64 s0) in *; lia|].
      apply wp_bind. apply (wp_rd (b64_of_Z 0) s1); [change (@size (car BN) s1) with (@size f64 s1) in *; lia|]. apply wp_ok.
      replace (Z.to_nat (k + 1)) with (S (Z.to_nat k)) by lia.
      apply acc_step; [lia|lia|apply H0; lia| |exact Hacc].
      replace (Z.to_nat j - Z.to_nat k)%nat with (Z.to_nat (j - k)) by lia. apply H1. lia.
    + intros acc Hacc. replace (Z.to_nat (Z.max 0 (j + 1))) with (S (Z.to_nat j)) in Hacc by lia.
      apply wp_wr; [change (@size (car BN) d) with (@size f64 d); lia|]. rewrite size_upd. split; [exact Hs|]. intros i Hi.
      rewrite get_upd by lia. destruct (Z.eqb_spec (od + j) i) as [<-|Hne].
      * replace (od + j - od)%Z with j by lia. apply acc_done; [lia|exact Hacc].
      * apply Hd. lia.
  - intros d [Hs Hd]. apply HQ; [exact Hs|]. intros i Hi. apply Hd. lia.
Qed.
End Conv.
