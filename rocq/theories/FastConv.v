(** * FastConv: accuracy of the direct convolution in any arithmetic of FastNum.v. *)
From Coquelicot Require Import Coquelicot.
From Flocq Require Import Core.Core.
From Coq Require Import ZArith Reals List Bool Lia Lra.
From Verif Require Import Base Num Hoare Common RSum ErrBound FastNum FastGrow FastPmf.
Import List.
Local Open Scope R_scope.

Lemma rsum_abs m f : Rabs (rsum m f) <= rsum m (fun k => Rabs (f k)).
Proof.
  induction m as [|m IH]; cbn [rsum]; [rewrite Rabs_R0; lra|].
  eapply Rle_trans; [apply Rabs_triang|]. lra.
Qed.
Lemma rsum_minus m f g : rsum m f - rsum m g = rsum m (fun k => f k - g k).
Proof. induction m as [|m IH]; cbn [rsum]; [ring|]. rewrite <- IH. ring. Qed.

Section Conv.
Context (F : num) (fin one raw : car F -> Prop) (val : car F -> R) (u eps eta : R).
Hypothesis HA : arith F fin one raw val u eps eta.
Hypothesis Hu0 : 0 < u.
Hypothesis Heta0 : 0 < eta.
Variables (n : nat) (fa fb a b : R) (p s : nat -> R).
Hypothesis Hn : (Z.of_nat n < 2 ^ 31)%Z.
Hypothesis Hfa : 1 <= fa <= 2.
Hypothesis Hfb : 1 <= fb <= 2.
Hypothesis Ha : 0 <= a <= 1.
Hypothesis Hb : 0 <= b <= 1.
Hypothesis Hp0 : forall k, 0 <= p k.
Hypothesis Hs0 : forall k, 0 <= s k.
Hypothesis Hp1 : rsum (S n) p <= 1.
Hypothesis Hs1 : rsum (S n) s <= 1.
Notation AN := (anear fin val).

Lemma fp_le1 k : (k <= n)%nat -> p k <= 1.
Proof. intros Hk. eapply Rle_trans; [|exact Hp1]. apply (rsum_term (S n) p k); [lia|auto]. Qed.
Lemma fs_le1 k : (k <= n)%nat -> s k <= 1.
Proof. intros Hk. eapply Rle_trans; [|exact Hs1]. apply (rsum_term (S n) s k); [lia|auto]. Qed.

Lemma fterm_sum j : (j <= n)%nat ->
  rsum (S j) (fun k => b * fa * p k + a * fb * s (j - k)%nat + a * b) <= b * fa + a * fb + INR (S n) * (a * b).
Proof.
  intros Hj. rewrite !rsum_plus, rsum_const, !rsum_scal.
  assert (HP : rsum (S j) p <= 1) by (eapply Rle_trans; [apply rsum_incr; [|auto]|exact Hp1]; lia).
  assert (HS : rsum (S j) (fun i => s (j - i)%nat) <= 1).
  { assert (rsum (S j) (fun i => s (j - i)%nat) = rsum (S j) s) as ->.
    { rewrite (rsum_rev (S j) s). apply rsum_ext. intros k Hk. f_equal. lia. }
    eapply Rle_trans; [apply rsum_incr; [|auto]|exact Hs1]; lia. }
  assert (HJ : INR (S j) <= INR (S n)) by (apply le_INR; lia).
  assert (0 <= b * fa) by (apply Rmult_le_pos; lra). assert (0 <= a * fb) by (apply Rmult_le_pos; lra).
  assert (0 <= a * b) by (apply Rmult_le_pos; lra).
  assert (b * fa * rsum (S j) p <= b * fa) by nra.
  assert (a * fb * rsum (S j) (fun i => s (j - i)%nat) <= a * fb) by nra.
  assert (INR (S j) * (a * b) <= INR (S n) * (a * b)) by nra. lra.
Qed.

Lemma fdot_near j (x y : nat -> car F) : (j <= n)%nat ->
  (forall k, (k <= j)%nat -> AN fa a (x k) (p k)) ->
  (forall k, (k <= j)%nat -> AN fb b (y k) (s (j - k)%nat)) ->
  AN (fconv_fac u n fa fb) (fconv_abs u eta n fa fb a b) (dot x y (S j)) (conv p s j).
Proof.
  intros Hj Hx Hy.
  assert (Hx4 : forall k, (k < S j)%nat -> fin (x k) /\ Rabs (val (x k)) <= 4).
  { intros k Hk. destruct (Hx k ltac:(lia)) as [Fx Nx]. split; [exact Fx|].
    pose proof (near_abs _ _ _ _ (Hp0 k) Nx) as Hab. pose proof (fp_le1 k ltac:(lia)). specialize (Hp0 k). nra. }
  assert (Hy4 : forall k, (k < S j)%nat -> fin (y k) /\ Rabs (val (y k)) <= 4).
  { intros k Hk. destruct (Hy k ltac:(lia)) as [Fy Ny]. split; [exact Fy|].
    pose proof (near_abs _ _ _ _ (Hs0 (j - k)%nat) Ny) as Hab. pose proof (fs_le1 (j - k) ltac:(lia)). specialize (Hs0 (j - k)%nat). nra. }
  destruct (ar_dot _ _ _ _ _ _ _ _ HA (S j) x y ltac:(lia) Hx4 Hy4) as [FD HD].
  split; [exact FD|]. unfold near.
  set (c k := p k * s (j - k)%nat). set (t k := b * fa * p k + a * fb * s (j - k)%nat + a * b).
  assert (Hc0 : forall k, 0 <= c k) by (intros; apply Rmult_le_pos; auto).
  assert (Hnear : forall k, (k < S j)%nat -> near (fa * fb) (t k) (val (x k) * val (y k)) (c k)).
  { intros k Hk. destruct (Hx k ltac:(lia)) as [_ Nx]. destruct (Hy k ltac:(lia)) as [_ Ny].
    apply near_mult; auto. }
  set (C := rsum (S j) c). set (T := rsum (S j) t).
  assert (HC0 : 0 <= C) by (apply rsum_nonneg; auto).
  assert (HT : T <= b * fa + a * fb + INR (S n) * (a * b)) by (apply fterm_sum, Hj).
  assert (HE1 : Rabs (rsum (S j) (fun k => val (x k) * val (y k)) - C) <= (fa * fb - 1) * C + T).
  { unfold C at 1. rewrite rsum_minus. eapply Rle_trans; [apply rsum_abs|].
    unfold C, T. rewrite <- rsum_scal, <- rsum_plus. apply rsum_le. intros k Hk. apply (Hnear k Hk). }
  assert (HE2 : rsum (S j) (fun k => Rabs (val (x k) * val (y k))) <= fa * fb * C + T).
  { unfold C, T. rewrite <- rsum_scal, <- rsum_plus. apply rsum_le. intros k Hk. apply (near_abs _ _ _ _ (Hc0 k) (Hnear k Hk)). }
  set (g := (1 + u) ^ (S j + 1)) in *. set (G := (1 + u) ^ (n + 2)).
  assert (Hg1 : 1 <= g) by (apply pow_ge1; lra).
  assert (HgG : g <= G) by (apply pow_incr1; [lra|lia]).
  assert (HI : INR (S j + 1) <= INR (n + 2)) by (apply le_INR; lia). pose proof (pos_INR (S j + 1)) as HI0.
  change (conv p s j) with C. unfold fconv_fac, fconv_abs. fold G.
  assert (Hff : 1 <= fa * fb) by nra.
  assert (HT0 : 0 <= T).
  { apply rsum_nonneg. intros k Hk. unfold t. specialize (Hp0 k). specialize (Hs0 (j - k)%nat).
    assert (0 <= b * fa * p k) by (repeat apply Rmult_le_pos; lra).
    assert (0 <= a * fb * s (j - k)%nat) by (repeat apply Rmult_le_pos; lra).
    assert (0 <= a * b) by (apply Rmult_le_pos; lra). lra. }
  apply Rle_trans with ((g - 1) * (fa * fb * C + T) + g * (INR (S j + 1) * eta) + ((fa * fb - 1) * C + T)).
  - replace (val (dot x y (S j)) - C) with ((val (dot x y (S j)) - rsum (S j) (fun k => val (x k) * val (y k)))
      + (rsum (S j) (fun k => val (x k) * val (y k)) - C)) by ring.
    eapply Rle_trans; [apply Rabs_triang|]. apply Rplus_le_compat; [|exact HE1].
    eapply Rle_trans; [exact HD|]. apply Rplus_le_compat_r. apply Rmult_le_compat_l; [lra|exact HE2].
  - replace ((g - 1) * (fa * fb * C + T) + g * (INR (S j + 1) * eta) + ((fa * fb - 1) * C + T))
      with ((g * (fa * fb) - 1) * C + g * (T + INR (S j + 1) * eta)) by ring.
    apply Rplus_le_compat.
    + apply Rmult_le_compat_r; [exact HC0|]. assert (g * (fa * fb) <= G * (fa * fb)) by (apply Rmult_le_compat_r; lra). lra.
    + assert (INR (S j + 1) * eta <= INR (n + 2) * eta) by (apply Rmult_le_compat_r; lra).
      assert (0 <= INR (S j + 1) * eta) by (apply Rmult_le_pos; lra).
      apply Rmult_le_compat; lra.
Qed.

Lemma dot_ext m (x x' y y' : nat -> car F) : (forall k, (k < m)%nat -> x k = x' k) -> (forall k, (k < m)%nat -> y k = y' k) ->
  dot x y m = dot x' y' m.
Proof.
  induction m as [|m IH]; intros Hx Hy; [reflexivity|]. cbn [dot]. rewrite IH, Hx, Hy by auto. reflexivity.
Qed.

Context {thr : exn -> Prop} {abt : Prop}.

Lemma wp_fconvolve sz (s0 : list (car F)) o0 (s1 : list (car F)) o1 (dest : list (car F)) od (Q : list (car F) -> Prop) :
  (sz <= Z.of_nat n + 1)%Z ->
  (0 < sz -> 0 <= o0 /\ o0 + sz <= size s0 /\ 0 <= o1 /\ o1 + sz <= size s1 /\ 0 <= od /\ od + sz <= size dest)%Z ->
  (forall k, (0 <= k < sz)%Z -> AN fa a (get n0 s0 (o0 + k)) (p (Z.to_nat k))) ->
  (forall k, (0 <= k < sz)%Z -> AN fb b (get n0 s1 (o1 + k)) (s (Z.to_nat k))) ->
  (forall dest', size dest' = size dest ->
     (forall i, (od <= i < od + sz)%Z ->
        AN (fconv_fac u n fa fb) (fconv_abs u eta n fa fb a b) (get n0 dest' i) (conv p s (Z.to_nat (i - od)))) ->
     Q dest') ->
  wp thr abt (convolve_same_size sz s0 o0 s1 o1 dest od) Q.
Proof.
  intros Hsz Hbd H0 H1 HQ. unfold convolve_same_size.
  apply wp_for with (P := fun j (d : list (car F)) => size d = size dest /\
     forall i, (od <= i < od + j)%Z ->
       AN (fconv_fac u n fa fb) (fconv_abs u eta n fa fb a b) (get n0 d i) (conv p s (Z.to_nat (i - od)))).
  - split; [reflexivity|lia].
  - intros j d Hj [Hs Hd]. apply wp_bind.
    set (x k := get n0 s0 (o0 + Z.of_nat k)%Z). set (y k := get n0 s1 (o1 + (j - Z.of_nat k))%Z).
    apply wp_for with (P := fun k (acc : car F) => acc = dot x y (Z.to_nat k)).
    + reflexivity.
    + intros k acc Hk ->.
      apply wp_bind. apply (wp_rd n0 s0); [lia|].
      apply wp_bind. apply (wp_rd n0 s1); [lia|]. apply wp_ok.
      replace (Z.to_nat (k + 1)) with (S (Z.to_nat k)) by lia. cbn [dot]. unfold x, y.
      rewrite Z2Nat.id by lia. reflexivity.
    + intros acc ->. replace (Z.to_nat (Z.max 0 (j + 1))) with (S (Z.to_nat j)) by lia.
      apply wp_wr; [lia|]. rewrite size_upd. split; [exact Hs|]. intros i Hi.
      rewrite get_upd by lia. destruct (Z.eqb_spec (od + j) i) as [<-|Hne].
      * replace (od + j - od)%Z with j by lia. apply fdot_near; [lia| |].
        -- intros k Hk. unfold x. replace k with (Z.to_nat (Z.of_nat k)) at 2 by lia. apply H0. lia.
        -- intros k Hk. unfold y. replace (Z.to_nat j - k)%nat with (Z.to_nat (j - Z.of_nat k)) by lia. apply H1. lia.
      * apply Hd. lia.
  - intros d [Hs Hd]. apply HQ; [exact Hs|]. intros i Hi. apply Hd. lia.
Qed.
End Conv.
