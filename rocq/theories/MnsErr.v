(** * MnsErr: how errors spread through the recursion of ecdf1_mns2016, as pure mathematics.

    The polynomial after k steps is sum_{j<=k} c_j (x - b_j)^(k-j)/(k-j)!, and c_(k+1) is chosen so
    that its antiderivative vanishes at b_k. *)
From Coquelicot Require Import Coquelicot.
From Coq Require Import ZArith Reals List Bool Lia Lra Factorial.
From Verif Require Import RSum MnsMath.
Local Open Scope R_scope.

Lemma rsum_le n f g : (forall i, (i < n)%nat -> f i <= g i) -> rsum n f <= rsum n g.
Proof.
  induction n as [|n IH]; intros H; simpl; [lra|].
  assert (rsum n f <= rsum n g) by (apply IH; intros; apply H; lia). assert (f n <= g n) by (apply H; lia). lra.
Qed.
Lemma rsum_abs n f : Rabs (rsum n f) <= rsum n (fun i => Rabs (f i)).
Proof.
  induction n as [|n IH]; simpl; [rewrite Rabs_R0; lra|].
  eapply Rle_trans; [apply Rabs_triang|]. lra.
Qed.
Lemma mono_le x y k : 0 <= x <= y -> mono x k <= mono y k.
Proof.
  intros H. unfold mono, Rdiv. apply Rmult_le_compat_r; [left; apply Rinv_0_lt_compat, INR_fact_lt_0|].
  apply pow_incr. exact H.
Qed.
Lemma mono_prod a c p q : 0 <= a -> 0 <= c -> mono a p * mono c q <= mono (a + c) (p + q).
Proof.
  intros Ha Hc. rewrite <- conv_mono. unfold conv.
  assert (H : forall n f k, (k < n)%nat -> (forall i, (i < n)%nat -> 0 <= f i) -> f k <= rsum n f).
  { clear. induction n as [|n IH]; intros f k Hk Hf; [lia|]. simpl.
    assert (0 <= f n) by (apply Hf; lia).
    destruct (Nat.eq_dec k n) as [->|Hne].
    - assert (0 <= rsum n f) by (apply rsum_nonneg; intros; apply Hf; lia). lra.
    - assert (f k <= rsum n f) by (apply IH; [lia|intros; apply Hf; lia]). lra. }
  pose proof (H (S (p + q)) (fun k => mono a k * mono c (p + q - k)) p ltac:(lia)) as H1.
  cbv beta in H1. replace (p + q - p)%nat with q in H1 by lia. apply H1.
  intros i Hi. apply Rmult_le_pos; apply mono_nonneg; auto.
Qed.
Lemma mono_one k : mono 1 k = / INR (fact k).
Proof. unfold mono. rewrite pow1. unfold Rdiv. ring. Qed.
Lemma sum_inv_fact k : rsum (S k) (fun l => / INR (fact l) * / INR (fact (k - l))) = 2 ^ k / INR (fact k).
Proof.
  change (2 ^ k / INR (fact k)) with (mono 2 k). replace 2 with (1 + 1) by ring. rewrite <- conv_mono.
  unfold conv. apply rsum_ext. intros i Hi. rewrite !mono_one. reflexivity.
Qed.

Lemma incr_from (f df : R -> R) a : (forall x, is_derive f x (df x)) -> (forall x, a <= x -> 0 <= df x) ->
  forall x, a <= x -> f a <= f x.
Proof.
  intros Hd H0 x Hx.
  destruct (MVT_gen f a x df) as (c & [Hc1 Hc2] & Hc).
  - intros y _. apply Hd.
  - intros y _. apply derivable_continuous_pt. exists (df y). apply is_derive_Reals, Hd.
  - rewrite Rmin_left in Hc1 by lra. pose proof (H0 c Hc1). assert (0 <= df c * (x - a)) by (apply Rmult_le_pos; lra). lra.
Qed.

Section Poly.
Variable b : nat -> R.
Hypothesis b_mono : forall j, b j <= b (S j).

Lemma b_le i j : (i <= j)%nat -> b i <= b j.
Proof. induction 1 as [|j Hij IH]; [lra|]. pose proof (b_mono j). lra. Qed.

(** r-fold antiderivative of the polynomial *)
Definition G (c : nat -> R) (k r : nat) (x : R) : R := rsum (S k) (fun j => c j * mono (x - b j) (k - j + r)).
Definition Gabs (c : nat -> R) (k r : nat) (x : R) : R := rsum (S k) (fun j => Rabs (c j) * mono (x - b j) (k - j + r)).

Lemma G_derive c k r x : is_derive (G c k (S r)) x (G c k r x).
Proof.
  unfold G. apply is_derive_rsum. intros j Hj.
  replace (k - j + S r)%nat with (S (k - j + r)) by lia.
  eapply is_derive_ext; [intros t; reflexivity|].
  apply (is_derive_scal (fun y => mono (y - b j) (S (k - j + r))) x (c j) (mono (x - b j) (k - j + r))).
  apply is_derive_mono.
Qed.

Lemma G_S c k r x : G c (S k) r x = G c k (S r) x + c (S k) * mono (x - b (S k)) r.
Proof.
  unfold G. rewrite (rsum_S (S k)). f_equal.
  - apply rsum_ext. intros j Hj. do 2 f_equal. lia.
  - do 2 f_equal. lia.
Qed.

Definition rec (c : nat -> R) : Prop := c O = 1 /\ forall k, c (S k) = - G c k 1 (b k).

Section Exact.
Variable c : nat -> R.
Hypothesis Hc : rec c.

Lemma G_nonneg k : forall r x, b k <= x -> 0 <= G c k r x.
Proof.
  induction k as [|k IH].
  - intros r x Hx. unfold G. simpl. rewrite (proj1 Hc). pose proof (mono_nonneg (x - b O) r ltac:(lra)). lra.
  - induction r as [|r IHr]; intros x Hx.
    + rewrite G_S, mono_0, (proj2 Hc). pose proof (b_mono k).
      assert (G c k 1 (b k) <= G c k 1 x); [|lra].
      apply incr_from with (df := G c k 0); [intros; apply G_derive|intros; apply IH; auto|lra].
    + apply Rle_trans with (G c (S k) (S r) (b (S k))).
      * rewrite G_S. replace (b (S k) - b (S k)) with 0 by ring. rewrite mono_zero. simpl Nat.eqb. cbv iota.
        pose proof (IH (S (S r)) (b (S k)) (b_mono k)). lra.
      * apply incr_from with (df := G c (S k) r); [intros; apply G_derive|exact IHr|exact Hx].
Qed.

Lemma c_nonpos k : c (S k) <= 0.
Proof. rewrite (proj2 Hc). pose proof (G_nonneg k 1 (b k) ltac:(lra)). lra. Qed.

Lemma Gabs_eq k r x : Gabs c k r x = 2 * mono (x - b O) (k + r) - G c k r x.
Proof.
  unfold Gabs, G. rewrite !rsum_first, (proj1 Hc), Nat.sub_0_r, Rabs_R1.
  rewrite (rsum_ext k (fun i => Rabs (c (S i)) * _) (fun i => - 1 * (c (S i) * mono (x - b (S i)) (k - S i + r)))).
  - rewrite rsum_scal. ring.
  - intros i Hi. rewrite (Rabs_left1 _ (c_nonpos i)). ring.
Qed.

Lemma G_le k r x : b k <= x -> G c k r x <= mono (x - b O) (k + r).
Proof.
  intros Hx. unfold G. rewrite rsum_first, (proj1 Hc), Nat.sub_0_r.
  assert (H : 0 <= rsum k (fun i => - 1 * (c (S i) * mono (x - b (S i)) (k - S i + r)))).
  { apply rsum_nonneg. intros i Hi. pose proof (c_nonpos i). pose proof (b_le (S i) k ltac:(lia)).
    pose proof (mono_nonneg (x - b (S i)) (k - S i + r) ltac:(lra)) as Hm.
    replace (-1 * (c (S i) * mono (x - b (S i)) (k - S i + r))) with ((- c (S i)) * mono (x - b (S i)) (k - S i + r)) by ring.
    apply Rmult_le_pos; [lra|exact Hm]. }
  rewrite rsum_scal in H. lra.
Qed.

Lemma Gabs_le k r x : b k <= x -> Gabs c k r x <= 2 * mono (x - b O) (k + r).
Proof. intros Hx. rewrite Gabs_eq. pose proof (G_nonneg k r x Hx). lra. Qed.
End Exact.
End Poly.

(** the solution of the recursion *)
Fixpoint cs (b : nat -> R) (k : nat) : nat -> R :=
  match k with
  | O => fun j => if (j =? 0)%nat then 1 else 0
  | S k' => fun j => if (j =? S k')%nat then - G b (cs b k') k' 1 (b k') else cs b k' j
  end.
Definition coef (b : nat -> R) (k : nat) : R := cs b k k.

Lemma cs_coef b k : forall j, (j <= k)%nat -> cs b k j = coef b j.
Proof.
  induction k as [|k IH]; intros j Hj.
  - replace j with O by lia. reflexivity.
  - destruct (Nat.eq_dec j (S k)) as [->|Hne]; [reflexivity|].
    cbn [cs]. destruct (Nat.eqb_spec j (S k)); [lia|]. apply IH. lia.
Qed.
Lemma G_ext b c c' k r x : (forall j, (j <= k)%nat -> c j = c' j) -> G b c k r x = G b c' k r x.
Proof. intros H. apply rsum_ext. intros j Hj. rewrite H by lia. reflexivity. Qed.
Lemma coef_rec b : rec b (coef b).
Proof.
  split; [reflexivity|]. intros k. unfold coef at 1. cbn [cs]. rewrite Nat.eqb_refl. f_equal.
  apply G_ext. intros j Hj. apply cs_coef. exact Hj.
Qed.

Section Perturbed.
Variable b : nat -> R.
Hypothesis b_mono : forall j, b j <= b (S j).
Notation b_le := (b_le b b_mono).
Variable c : nat -> R.

(** the errors made *)
Definition dlt (l : nat) : R := match l with O => c O | S k => c (S k) + G b c k 1 (b k) end.
Definition K (l : nat) : nat -> R := coef (fun j => b (l + j)).
Definition GK (l m r : nat) (x : R) : R := G (fun j => b (l + j)%nat) (K l) m r x.

Lemma shift_mono l : forall j, b (l + j) <= b (l + S j).
Proof. intros j. replace (l + S j)%nat with (S (l + j)) by lia. apply b_mono. Qed.

Lemma super k : forall j, (j <= k)%nat -> c j = rsum (S j) (fun l => dlt l * K l (j - l)).
Proof.
  assert (HG : forall k, (forall j, (j <= k)%nat -> c j = rsum (S j) (fun l => dlt l * K l (j - l))) ->
     forall r x, G b c k r x = rsum (S k) (fun l => dlt l * GK l (k - l) r x)).
  { clear k. intros k H r x.
    transitivity (rsum (S k) (fun j => rsum (S j) (fun l => dlt l * K l (j - l) * mono (x - b (l + (j - l))) (k - (l + (j - l)) + r)))).
    - apply rsum_ext. intros j Hj. rewrite H by lia. rewrite <- rsum_scal_r. apply rsum_ext. intros l Hl.
      replace (l + (j - l))%nat with j by lia. reflexivity.
    - rewrite <- (rsum_triangle k (fun l i => dlt l * K l i * mono (x - b (l + i)) (k - (l + i) + r))).
      apply rsum_ext. intros l Hl. unfold GK, G. rewrite <- rsum_scal. apply rsum_ext. intros i Hi.
      rewrite Rmult_assoc. do 3 f_equal. lia. }
  induction k as [|k IH]; intros j Hj.
  - replace j with O by lia. cbn [rsum]. change (K 0 (0 - 0)) with 1. cbn [dlt]. ring.
  - destruct (Nat.eq_dec j (S k)) as [->|Hne]; [|apply IH; lia].
    rewrite (rsum_S (S k)). rewrite Nat.sub_diag. change (K (S k) 0) with 1. cbn [dlt].
    rewrite (HG k IH 1%nat (b k)).
    assert (HE : rsum (S k) (fun l => dlt l * K l (S k - l)) = - rsum (S k) (fun l => dlt l * GK l (k - l) 1 (b k))).
    { replace (- rsum (S k) (fun l => dlt l * GK l (k - l) 1 (b k))) with (-1 * rsum (S k) (fun l => dlt l * GK l (k - l) 1 (b k))) by ring.
      rewrite <- rsum_scal. apply rsum_ext. intros l Hl. replace (S k - l)%nat with (S (k - l)) by lia.
      unfold K at 1. rewrite (proj2 (coef_rec _)). unfold GK, K. replace (l + (k - l))%nat with k by lia. ring. }
    rewrite HE. ring.
Qed.

Lemma G_super k r x : G b c k r x = rsum (S k) (fun l => dlt l * GK l (k - l) r x).
Proof.
  transitivity (rsum (S k) (fun j => rsum (S j) (fun l => dlt l * K l (j - l) * mono (x - b (l + (j - l))) (k - (l + (j - l)) + r)))).
  - apply rsum_ext. intros j Hj. rewrite (super k) by lia. rewrite <- rsum_scal_r. apply rsum_ext. intros l Hl.
    replace (l + (j - l))%nat with j by lia. reflexivity.
  - rewrite <- (rsum_triangle k (fun l i => dlt l * K l i * mono (x - b (l + i)) (k - (l + i) + r))).
    apply rsum_ext. intros l Hl. unfold GK, G. rewrite <- rsum_scal. apply rsum_ext. intros i Hi.
    rewrite Rmult_assoc. do 3 f_equal. lia.
Qed.

Lemma Gabs_super k r x : b k <= x ->
  Gabs b c k r x <= 2 * rsum (S k) (fun l => Rabs (dlt l) * mono (x - b l) (k - l + r)).
Proof.
  intros Hx.
  apply Rle_trans with (rsum (S k) (fun j => rsum (S j) (fun l => Rabs (dlt l) * Rabs (K l (j - l)) * mono (x - b (l + (j - l))) (k - (l + (j - l)) + r)))).
  - apply rsum_le. intros j Hj. rewrite (super k) at 1 by lia.
    pose proof (b_le j k ltac:(lia)).
    apply Rle_trans with (rsum (S j) (fun l => Rabs (dlt l * K l (j - l)) * mono (x - b j) (k - j + r))).
    + rewrite rsum_scal_r. apply Rmult_le_compat_r; [apply mono_nonneg; lra|]. apply rsum_abs.
    + apply Req_le, rsum_ext. intros l Hl. replace (l + (j - l))%nat with j by lia. rewrite Rabs_mult. ring.
  - rewrite <- (rsum_triangle k (fun l i => Rabs (dlt l) * Rabs (K l i) * mono (x - b (l + i)) (k - (l + i) + r))).
    rewrite <- rsum_scal. apply rsum_le. intros l Hl.
    pose proof (Gabs_le (fun j => b (l + j)%nat) (shift_mono l) (K l) (coef_rec _) (k - l) r x) as H.
    cbv beta in H. replace (l + (k - l))%nat with k in H by lia. specialize (H Hx). rewrite Nat.add_0_r in H.
    replace (2 * (Rabs (dlt l) * mono (x - b l) (k - l + r))) with (Rabs (dlt l) * (2 * mono (x - b l) (k - l + r))) by ring.
    eapply Rle_trans; [|apply Rmult_le_compat_l; [apply Rabs_pos|exact H]].
    apply Req_le. unfold Gabs. rewrite <- rsum_scal. apply rsum_ext. intros i Hi.
    rewrite Rmult_assoc. do 3 f_equal. lia.
Qed.

(** ** Errors of relative size gamma, and absolute errors om *)
Section Size.
Variables (gamma : R) (om : nat -> R) (N : nat).
Hypothesis Hg : 0 <= gamma.
Hypothesis HgN : 4 * gamma * INR N <= 1.
Hypothesis Hom : forall l, 0 <= om l.
Hypothesis H0 : Rabs (dlt 0) <= om O.
Variable n : nat.
Hypothesis HnN : (n <= N)%nat.
Hypothesis Herr : forall k, (k < n)%nat -> Rabs (dlt (S k)) <= gamma * Gabs b c k 1 (b k) + om (S k).

Definition spread (x : R) (k : nat) (l : nat) : R := om l * mono (x - b l) (k - l).

Lemma spread_nonneg x k l : b l <= x -> 0 <= spread x k l.
Proof. intros H. apply Rmult_le_pos; [apply Hom|apply mono_nonneg; lra]. Qed.

Lemma triangle_lt k (f : nat -> nat -> R) :
  rsum k (fun l => rsum l (fun m => f m l)) = rsum k (fun m => rsum (k - S m) (fun i => f m (S m + i)%nat)).
Proof.
  induction k as [|k IH]; [reflexivity|]. rewrite (rsum_S k (fun l => rsum l _)), IH.
  rewrite (rsum_S k (fun m => rsum (S k - S m) _)). replace (S k - S k)%nat with O by lia. cbn [rsum].
  rewrite Rplus_0_r, <- rsum_plus. apply rsum_ext. intros m Hm.
  replace (S k - S m)%nat with (S (k - S m)) by lia. rewrite rsum_S. f_equal. f_equal. lia.
Qed.

(** each error may be passed on by at most one later term at a time *)
Lemma twice k x : b k <= x ->
  rsum k (fun l => rsum l (fun m => spread (b l) l m) * mono (x - b l) (k - l)) <= INR k * rsum k (spread x k).
Proof.
  intros Hx.
  rewrite (rsum_ext k _ (fun l => rsum l (fun m => spread (b l) l m * mono (x - b l) (k - l))))
    by (intros; rewrite rsum_scal_r; reflexivity).
  rewrite triangle_lt, <- rsum_scal. apply rsum_le. intros m Hm.
  apply Rle_trans with (rsum (k - S m) (fun _ => spread x k m)).
  - apply rsum_le. intros i Hi. unfold spread. rewrite Rmult_assoc. apply Rmult_le_compat_l; [apply Hom|].
    pose proof (b_le m (S m + i) ltac:(lia)). pose proof (b_le (S m + i) k ltac:(lia)).
    eapply Rle_trans; [apply mono_prod; lra|].
    replace (b (S m + i)%nat - b m + (x - b (S m + i)%nat)) with (x - b m) by ring.
    replace (S m + i - m + (k - (S m + i)))%nat with (k - m)%nat by lia. lra.
  - rewrite rsum_const. apply Rmult_le_compat_r; [apply spread_nonneg; pose proof (b_le m k ltac:(lia)); lra|].
    apply le_INR. lia.
Qed.

Lemma dlt_bound k : (k <= n)%nat -> Rabs (dlt k) <= om k + 4 * gamma * rsum k (spread (b k) k).
Proof.
  induction k as [k IH] using (well_founded_induction lt_wf). intros Hk.
  destruct k as [|k]; [cbn [rsum]; lra|].
  eapply Rle_trans; [apply (Herr k); lia|]. rewrite Rplus_comm. apply Rplus_le_compat_l.
  pose proof (Gabs_super k 1 (b k) ltac:(lra)) as HS.
  assert (HS2 : rsum (S k) (fun l => Rabs (dlt l) * mono (b k - b l) (k - l + 1)) <= 2 * rsum (S k) (spread (b (S k)) (S k))).
  { assert (Hx : b (S k) <= b (S k)) by lra.
    pose proof (twice (S k) (b (S k)) Hx) as HT.
    apply Rle_trans with (rsum (S k) (fun l => spread (b (S k)) (S k) l + 4 * gamma * (rsum l (fun m => spread (b l) l m) * mono (b (S k) - b l) (S k - l)))).
    - apply rsum_le. intros l Hl. pose proof (IH l ltac:(lia) ltac:(lia)) as HI.
      pose proof (b_le l k ltac:(lia)). pose proof (b_mono k).
      assert (Hm : 0 <= mono (b k - b l) (k - l + 1) <= mono (b (S k) - b l) (S k - l)).
      { split; [apply mono_nonneg; lra|]. replace (k - l + 1)%nat with (S k - l)%nat by lia. apply mono_le. lra. }
      eapply Rle_trans; [apply Rmult_le_compat; [apply Rabs_pos|apply Hm|exact HI|apply Hm]|].
      change (spread (b (S k)) (S k) l) with (om l * mono (b (S k) - b l) (S k - l)).
      change (rsum l (fun m => spread (b l) l m)) with (rsum l (spread (b l) l)). apply Req_le. ring.
    - rewrite rsum_plus, rsum_scal.
      assert (HP : 0 <= rsum (S k) (spread (b (S k)) (S k))).
      { apply rsum_nonneg. intros l Hl. apply spread_nonneg. apply b_le. lia. }
      assert (Hk1 : INR (S k) <= INR N) by (apply le_INR; lia). pose proof (pos_INR (S k)).
      assert (4 * gamma * rsum (S k) (fun l => rsum l (fun m => spread (b l) l m) * mono (b (S k) - b l) (S k - l)) <=
              1 * rsum (S k) (spread (b (S k)) (S k))); [|lra].
      eapply Rle_trans; [apply Rmult_le_compat_l; [lra|exact HT]|]. rewrite <- Rmult_assoc.
      apply Rmult_le_compat_r; [exact HP|]. nra. }
  replace (4 * gamma * rsum (S k) (spread (b (S k)) (S k))) with (gamma * (2 * (2 * rsum (S k) (spread (b (S k)) (S k))))) by ring.
  apply Rmult_le_compat_l; [exact Hg|]. lra.
Qed.

Lemma dlt_total k x : (k <= n)%nat -> b k <= x ->
  rsum (S k) (fun l => Rabs (dlt l) * mono (x - b l) (k - l)) <= (1 + 4 * gamma * INR (S k)) * rsum (S k) (spread x k) /\
  rsum k (fun l => Rabs (dlt (S l)) * mono (x - b (S l)) (k - S l)) <=
    rsum k (fun l => spread x k (S l)) + 4 * gamma * INR (S k) * rsum (S k) (spread x k).
Proof.
  intros Hk Hx.
  assert (HT : rsum (S k) (fun l => rsum l (fun m => spread (b l) l m) * mono (x - b l) (k - l)) <= INR (S k) * rsum (S k) (spread x k)).
  { rewrite rsum_S. pose proof (twice k x Hx) as HT. rewrite rsum_S, S_INR, Nat.sub_diag, mono_0, Rmult_1_r.
    assert (HP : forall j, (j <= S k)%nat -> 0 <= rsum j (spread x k)).
    { intros j Hj. apply rsum_nonneg. intros l Hl. apply spread_nonneg. pose proof (b_le l k ltac:(lia)). lra. }
    pose proof (spread_nonneg x k k Hx). pose proof (HP k ltac:(lia)). pose proof (pos_INR k).
    assert (HL : rsum k (fun m => spread (b k) k m) <= rsum k (spread x k)).
    { apply rsum_le. intros m Hm. apply Rmult_le_compat_l; [apply Hom|]. apply mono_le. pose proof (b_le m k ltac:(lia)). lra. }
    nra. }
  assert (HB : forall l, (l <= k)%nat -> Rabs (dlt l) * mono (x - b l) (k - l) <=
     spread x k l + 4 * gamma * (rsum l (fun m => spread (b l) l m) * mono (x - b l) (k - l))).
  { intros l Hl. pose proof (dlt_bound l ltac:(lia)) as HI. pose proof (b_le l k Hl).
    eapply Rle_trans; [apply Rmult_le_compat_r; [apply mono_nonneg; lra|exact HI]|].
    change (spread x k l) with (om l * mono (x - b l) (k - l)).
    change (rsum l (fun m => spread (b l) l m)) with (rsum l (spread (b l) l)). apply Req_le. ring. }
  assert (HM : 4 * gamma * rsum (S k) (fun l => rsum l (fun m => spread (b l) l m) * mono (x - b l) (k - l)) <=
    4 * gamma * INR (S k) * rsum (S k) (spread x k)).
  { rewrite (Rmult_assoc (4 * gamma)). apply Rmult_le_compat_l; [lra|exact HT]. }
  split.
  - apply Rle_trans with (rsum (S k) (fun l => spread x k l + 4 * gamma * (rsum l (fun m => spread (b l) l m) * mono (x - b l) (k - l)))).
    + apply rsum_le. intros l Hl. apply HB. lia.
    + rewrite rsum_plus, rsum_scal. rewrite Rmult_plus_distr_r, Rmult_1_l. apply Rplus_le_compat_l. exact HM.
  - apply Rle_trans with (rsum k (fun l => spread x k (S l) + 4 * gamma * (rsum (S l) (fun m => spread (b (S l)) (S l) m) * mono (x - b (S l)) (k - S l)))).
    + apply rsum_le. intros l Hl. apply (HB (S l)). lia.
    + rewrite rsum_plus, rsum_scal. apply Rplus_le_compat_l. eapply Rle_trans; [|exact HM].
      apply Rmult_le_compat_l; [lra|]. rewrite (rsum_first k). cbv beta.
      change (rsum 0 (fun m => spread (b 0) 0 m)) with 0. rewrite Rmult_0_l, Rplus_0_l. apply Rle_refl.
Qed.
End Size.

(** ** In terms of 1/k! *)
Section Final.
Variables (gamma w : R) (n : nat).
Hypothesis Hg : 0 <= gamma.
Hypothesis HgN : 4 * gamma * INR (S n) <= 1.
Hypothesis Hw : 0 <= w.
Hypothesis Hw1 : w * 2 ^ n <= 1.
Hypothesis Hb : forall j, 0 <= b j <= 1.
Hypothesis Hc0 : c O = 1.
Hypothesis Herr : forall k, (k < n)%nat -> Rabs (dlt (S k)) <= gamma * Gabs b c k 1 (b k) + w / INR (fact (S k)).

Definition oml (l : nat) : R := match l with O => 1 | S _ => w / INR (fact l) end.
Lemma oml_nonneg l : 0 <= oml l.
Proof.
  destruct l; cbn [oml]; [lra|]. apply Rmult_le_pos; [exact Hw|]. left. apply Rinv_0_lt_compat, INR_fact_lt_0.
Qed.

Lemma tail_spread k x : (k <= n)%nat -> b k <= x <= 1 ->
  rsum k (fun l => spread oml x k (S l)) <= w * 2 ^ k / INR (fact k).
Proof.
  intros Hk Hx.
  assert (HF : forall k, 0 < / INR (fact k)) by (intros; apply Rinv_0_lt_compat, INR_fact_lt_0).
  unfold Rdiv. rewrite Rmult_assoc. change (2 ^ k * / INR (fact k)) with (2 ^ k / INR (fact k)). rewrite <- sum_inv_fact, rsum_first.
  rewrite Rmult_plus_distr_l. assert (0 <= w * (/ INR (fact 0) * / INR (fact (k - 0)))).
  { apply Rmult_le_pos; [exact Hw|]. apply Rmult_le_pos; apply Rlt_le, HF. }
  rewrite <- rsum_scal. match goal with |- ?a <= _ + ?b => enough (a <= b) by lra end.
  apply rsum_le. intros i Hi. unfold spread, oml, Rdiv. rewrite Rmult_assoc.
  apply Rmult_le_compat_l; [exact Hw|]. apply Rmult_le_compat_l; [apply Rlt_le, HF|].
  rewrite <- mono_one. apply mono_le. pose proof (b_le (S i) k ltac:(lia)). pose proof (Hb (S i)). lra.
Qed.

Lemma pow_n_le k : (k <= n)%nat -> w * 2 ^ k <= w * 2 ^ n.
Proof. intros H. apply Rmult_le_compat_l; [exact Hw|]. apply Rle_pow; [lra|exact H]. Qed.

Lemma all_spread k x : (k <= n)%nat -> b k <= x <= 1 -> rsum (S k) (spread oml x k) <= (1 + w * 2 ^ k) / INR (fact k).
Proof.
  intros Hk Hx. rewrite rsum_first. pose proof (tail_spread k x Hk Hx) as HT.
  assert (spread oml x k 0 <= / INR (fact k)).
  { unfold spread. cbn [oml]. rewrite Nat.sub_0_r, Rmult_1_l, <- mono_one. apply mono_le.
    pose proof (b_le 0 k ltac:(lia)). pose proof (Hb O). lra. }
  unfold Rdiv in *. rewrite Rmult_plus_distr_r, Rmult_1_l. lra.
Qed.

Lemma herr' : forall k, (k < n)%nat -> Rabs (dlt (S k)) <= gamma * Gabs b c k 1 (b k) + oml (S k).
Proof. intros k Hk. exact (Herr k Hk). Qed.
Lemma hd0 : Rabs (dlt 0) <= oml 0.
Proof. cbn [dlt oml]. rewrite Hc0, Rabs_R1. lra. Qed.

(** the sizes of the computed polynomial *)
Lemma Gabs_size k x : (k <= n)%nat -> b k <= x <= 1 -> Gabs b c k 0 x <= 8 / INR (fact k).
Proof.
  intros Hk Hx. eapply Rle_trans; [apply Gabs_super; lra|].
  rewrite (rsum_ext (S k) _ (fun l => Rabs (dlt l) * mono (x - b l) (k - l))) by (intros; rewrite Nat.add_0_r; reflexivity).
  destruct (dlt_total gamma oml (S n) Hg HgN oml_nonneg hd0 n ltac:(lia) herr' k x Hk ltac:(lra)) as [HT _].
  pose proof (all_spread k x Hk Hx) as HA. pose proof (pow_n_le k Hk) as HP.
  assert (HF : 0 < / INR (fact k)) by apply Rinv_0_lt_compat, INR_fact_lt_0.
  assert (Hk' : INR (S k) <= INR (S n)) by (apply le_INR; lia). pose proof (pos_INR (S k)).
  assert (HgK : 0 <= 4 * gamma * INR (S k) <= 1) by (split; [nra|nra]).
  assert (HA' : rsum (S k) (spread oml x k) <= 2 * / INR (fact k)).
  { eapply Rle_trans; [exact HA|]. apply Rmult_le_compat_r; lra. }
  assert (HS0 : 0 <= rsum (S k) (spread oml x k)).
  { apply rsum_nonneg. intros l Hl. apply spread_nonneg; [exact oml_nonneg|]. pose proof (b_le l k ltac:(lia)). lra. }
  unfold Rdiv. nra.
Qed.

Lemma c_size k : (k <= n)%nat -> Rabs (c k) <= 8 / INR (fact k).
Proof.
  intros Hk. eapply Rle_trans; [|apply (Gabs_size k (b k) Hk); split; [lra|apply Hb]].
  unfold Gabs. rewrite rsum_S, Nat.sub_diag, mono_0, Rmult_1_r.
  assert (0 <= rsum k (fun j => Rabs (c j) * mono (b k - b j) (k - j + 0))); [|lra].
  apply rsum_nonneg. intros j Hj. apply Rmult_le_pos; [apply Rabs_pos|]. apply mono_nonneg. pose proof (b_le j k ltac:(lia)). lra.
Qed.

(** the final value *)
Lemma final_error x : b n <= x <= 1 ->
  Rabs (G b c n 0 x - G b (coef b) n 0 x) <= (w * 2 ^ n + 8 * gamma * INR (S n)) / INR (fact n).
Proof.
  intros Hx. rewrite (G_super n 0 x), rsum_first. change (dlt 0) with (c O). rewrite Hc0, Nat.sub_0_r.
  change (GK 0 n 0 x) with (G b (coef b) n 0 x).
  rewrite Rmult_1_l. replace (G b (coef b) n 0 x + rsum n (fun i => dlt (S i) * GK (S i) (n - S i) 0 x) - G b (coef b) n 0 x)
    with (rsum n (fun i => dlt (S i) * GK (S i) (n - S i) 0 x)) by ring.
  eapply Rle_trans; [apply rsum_abs|].
  destruct (dlt_total gamma oml (S n) Hg HgN oml_nonneg hd0 n ltac:(lia) herr' n x ltac:(lia) ltac:(lra)) as [_ HT].
  apply Rle_trans with (rsum n (fun l => Rabs (dlt (S l)) * mono (x - b (S l)) (n - S l))).
  - apply rsum_le. intros i Hi. rewrite Rabs_mult. apply Rmult_le_compat_l; [apply Rabs_pos|].
    unfold GK.
    pose proof (G_nonneg (fun j => b (S i + j)%nat) (shift_mono (S i)) (K (S i)) (coef_rec _) (n - S i) 0 x) as H1.
    pose proof (G_le (fun j => b (S i + j)%nat) (shift_mono (S i)) (K (S i)) (coef_rec _) (n - S i) 0 x) as H2.
    cbv beta in H1, H2. replace (S i + (n - S i))%nat with n in H1, H2 by lia. rewrite !Nat.add_0_r in H2.
    rewrite Rabs_pos_eq by (apply H1; lra). apply H2. lra.
  - eapply Rle_trans; [exact HT|]. pose proof (tail_spread n x ltac:(lia) Hx) as H1. pose proof (all_spread n x ltac:(lia) Hx) as H2.
    assert (HF : 0 < / INR (fact n)) by apply Rinv_0_lt_compat, INR_fact_lt_0. pose proof (pos_INR (S n)).
    assert (HA' : rsum (S n) (spread oml x n) <= 2 * / INR (fact n)).
    { eapply Rle_trans; [exact H2|]. apply Rmult_le_compat_r; lra. }
    assert (4 * gamma * INR (S n) * rsum (S n) (spread oml x n) <= 4 * gamma * INR (S n) * (2 * / INR (fact n))).
    { apply Rmult_le_compat_l; [nra|exact HA']. }
    unfold Rdiv in *. lra.
Qed.
End Final.
End Perturbed.
