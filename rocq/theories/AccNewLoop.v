(** * AccNewLoop: the inner and outer loops of ecdf1_new in binary64, with error bounds. *)
From Coquelicot Require Import Coquelicot.
From Flocq Require Import Core.Core IEEE754.BinarySingleNaN.
From Coq Require Import ZArith Reals List Bool Lia Lra String Permutation Sorted Factorial.
From Verif Require Import Base Num Hoare Common PoissonPmf FFTConv Ecdf1New RSum Binary64 Binary64Facts.
From Verif Require Import Spec SpecFacts Cells Events XEcdf2 XEcdf1New NewMath SafeFft Binary64Main.
From Verif Require Import ErrBound B64Round AccPmf AccConv FftMath AccProd AccFft AccGrow AccStep AccEcdf2 AccNewPmf AccNewConv AccNewMath AccNewStep.
Import List. Import ListNotations.
Local Open Scope R_scope.

Section Loop.
Context (L : libm) (E : env (Bnum L)) (eps : R).
Notation BN := (Bnum L).
Hypothesis HL : libm_accurate L eps.
Hypothesis Heps : u64 <= eps.
Context {thr : exn -> Prop} {abt : Prop}.
Notation WP := (wp thr abt).
Variable Bl : list f64.
Hypothesis HB : accepted64 Bl.
Notation n := (List.length Bl).
Notation zn := (Z.of_nat n).
Hypothesis Hn1 : (1 <= n)%nat.
Notation N := (INR n).
Hypothesis Hn : 65536 * (N * N) * eps <= 1.
Variables (dl : R) (jump : Z).
Hypothesis Hdl : 0 <= dl.
Hypothesis Hj : (1 <= jump)%Z.
Hypothesis Hfft : (MINIMUM_SIZE_FOR_FFTW_CONVOLUTION <= zn + 1)%Z -> exists e, fft_accurate E e /\ u64 <= e /\ e <= / 4096 /\ 400 * e <= dl.
Notation B := (map (@B2R 53 1024) Bl).
Notation W := (W n B).
Notation Bf := (Bf B).
Notation prevloc := (prevloc B).
Notation V := (V n B).
Notation Tv := (Tv n B).
Notation prev := (prev n B).
Notation J := (IZR jump).
Definition dd : R := dl + 2000 * eps.
Definition k1 : R := 1000 * eps.
Definition emax : R := (N + 1) * (J + 1) * dd + J * (k1 * N).
Hypothesis Hsmall : (N + 1) * emax <= 1.
Notation rate := (rate n).
Notation pg64 := (pmfgen64 L (zn + 1)).

Lemma HrN : rn n = N.
Proof. unfold rn. rewrite <- INR_IZR_INZ. reflexivity. Qed.
Lemma J1 : 1 <= J.
Proof. apply IZR_le. exact Hj. Qed.
Lemma dd_pos : 0 < dd /\ 0 < k1.
Proof. unfold dd, k1. pose proof (eps_pos eps Heps). lra. Qed.
Lemma emax_half : 0 <= emax <= 1 / 2.
Proof.
  pose proof (N_ge1 n Hn1) as HN. pose proof J1. destruct dd_pos as [Hd Hk].
  assert (0 <= emax).
  { unfold emax. apply Rplus_le_le_0_compat; [apply Rmult_le_pos; [apply Rmult_le_pos|]; lra|].
    apply Rmult_le_pos; [lra|]. apply Rmult_le_pos; lra. }
  split; auto. assert (2 * emax <= (N + 1) * emax) by (apply Rmult_le_compat_r; lra). lra.
Qed.

Lemma Bf_gb i : (0 <= i < zn)%Z -> is_finite (gb Bl i) = true /\ B2R (gb Bl i) = Bf (Z.to_nat i) /\ 0 <= Bf (Z.to_nat i) <= 1.
Proof.
  intros Hi. assert (Hi' : (Z.to_nat i < n)%nat) by lia. destruct HB as [HF HV]. split; [|split].
  - rewrite Forall_forall in HF. apply HF. unfold get. apply nth_In. lia.
  - unfold get, NewMath.Bf. rewrite (nth_indep B 0 (B2R (b64_of_Z 0))) by (rewrite map_length; exact Hi'). rewrite map_nth. reflexivity.
  - unfold NewMath.Bf. apply valid_nth; auto. rewrite map_length. exact Hi'.
Qed.
Lemma wp_rd_Bl i (Q : car BN -> Prop) : (0 <= i < zn)%Z -> Q (gb Bl i) -> WP (rd (Bl : list (car BN)) i) Q.
Proof. intros Hi HQ. apply (wp_rd (b64_of_Z 0)); [exact Hi|exact HQ]. Qed.

Lemma Hup i : (i < n)%nat -> prevloc i <= Bf i.
Proof. intros Hi. apply prevloc_le; [apply HB|]. rewrite map_length. exact Hi. Qed.
Lemma Bf_mono i j : (i <= j < n)%nat -> Bf i <= Bf j.
Proof. intros H. unfold NewMath.Bf. apply valid_nth_le; [apply HB|]. rewrite map_length. exact H. Qed.
Lemma prevloc_range i : (i <= n)%nat -> 0 <= prevloc i <= 1.
Proof.
  intros Hi. destruct i as [|i]; simpl; [lra|]. assert (Hi' : (i < n)%nat) by lia. unfold NewMath.Bf. apply valid_nth; [apply HB|]. rewrite map_length. exact Hi'.
Qed.
Lemma prevloc_Bf i I : (i <= I < n)%nat -> prevloc i <= Bf I.
Proof. intros H. pose proof (Hup i ltac:(lia)). pose proof (Bf_mono i I ltac:(lia)). lra. Qed.
Lemma prevloc_mono i j : (i <= j <= n)%nat -> prevloc i <= prevloc j.
Proof.
  intros H. destruct (Nat.eq_dec i j) as [->|]; [apply Rle_refl|]. destruct j as [|j]; [lia|]. simpl (NewMath.prevloc B (S j)).
  apply prevloc_Bf. lia.
Qed.

(** ** One convolution *)
Lemma wp_conv_step f sz (arr : list f64) (s1 : list f64) o1 (dest : list f64) od l (x : nat -> R) (Q : fftconv BN * list f64 -> Prop) :
  fft_shape (zn + 1) f -> (sz <= zn + 1)%Z -> 0 <= l <= N ->
  (0 < sz -> sz <= size arr /\ 0 <= o1 /\ o1 + sz <= size s1 /\ 0 <= od /\ od + sz <= size dest)%Z ->
  (forall k, (0 <= k < sz)%Z -> fabs (gb arr k) (pois l (Z.to_nat k)) (perr eps l (Z.to_nat k))) ->
  (forall k, (0 <= k < sz)%Z -> is_finite (gb s1 (o1 + k)) = true /\ B2R (gb s1 (o1 + k)) = x (Z.to_nat k)) ->
  (forall k, (k < Z.to_nat sz)%nat -> Rabs (x k) <= 3 / 2) ->
  rsum (Z.to_nat sz) (fun j => Rabs (x j)) <= 3 ->
  (forall f' dest', fft_shape (zn + 1) f' -> size dest' = size dest ->
     (forall i, (od <= i < od + sz)%Z -> fabs (gb dest' i) (conv (pois l) x (Z.to_nat (i - od))) (dd + k1 * l)) -> Q (f', dest')) ->
  WP (@fft_convolve_same_size BN E f sz arr 0 s1 o1 dest od) Q.
Proof.
  intros Hf Hsz Hl Hb Harr Hs1 Hx HxL HQ.
  pose proof (n_small eps Heps n Hn1 Hn) as Hns.
  pose (fn := fun k : nat => B2R (gb arr (Z.of_nat k))).
  assert (HP : forall m, (m <= Z.to_nat sz)%nat -> rsum m (fun k => Rabs (fn k - pois l k)) <= 500 * eps * (1 + l)).
  { intros m Hm. eapply Rle_trans; [|apply (perr_sum eps Heps n Hn1 Hn l m Hl); lia].
    apply rsum_le. intros k Hk. unfold fn. destruct (Harr (Z.of_nat k) ltac:(lia)) as [_ H]. rewrite Nat2Z.id in H. exact H. }
  apply (wp_fft_abs L E (zn + 1) dl) with (fn := fn) (gn := x); auto.
  - lia.
  - intros H. specialize (Hb H). lia.
  - intros k Hk. rewrite Z.add_0_l. split; [apply Harr; exact Hk|]. unfold fn. rewrite Z2Nat.id by lia. reflexivity.
  - apply Rle_trans with (rsum (Z.to_nat sz) (fun j => Rabs (fn j - pois l j) + pois l j)).
    + apply rsum_le. intros j Hjj. replace (fn j) with ((fn j - pois l j) + pois l j) at 1 by ring.
      eapply Rle_trans; [apply Rabs_triang|]. rewrite (Rabs_pos_eq (pois l j)) by (apply pois_pos; lra). lra.
    + rewrite rsum_plus. pose proof (HP (Z.to_nat sz) ltac:(lia)). pose proof (pois_sum l (Z.to_nat sz) ltac:(lra)).
      destruct (perr_small eps Heps n Hn1 Hn l 0 Hl ltac:(lia)) as [_ H2]. lra.
  - intros f' dest' Hf' Hsd Hd. apply HQ; auto. intros i Hi. destruct (Hd i Hi) as [Fv Hv]. split; [exact Fv|].
    set (j := Z.to_nat (i - od)) in *.
    pose proof (conv_first fn (pois l) x j (500 * eps * (1 + l)) (3 / 2) ltac:(lra)) as HC.
    assert (Hjs : (j < Z.to_nat sz)%nat) by (unfold j; lia).
    specialize (HC ltac:(intros k Hk; apply Hx; lia) (HP (S j) ltac:(lia))).
    replace (B2R (gb dest' i) - conv (pois l) x j) with ((B2R (gb dest' i) - conv fn x j) + (conv fn x j - conv (pois l) x j)) by ring.
    eapply Rle_trans; [apply Rabs_triang|]. unfold dd, k1. pose proof (eps_pos eps Heps).
    assert (0 <= eps * l) by (apply Rmult_le_pos; lra). lra.
Qed.

(** ** Errors *)
Definition eo (P : nat) : R := INR P * (J + 1) * dd + J * (k1 * (N * prevloc P)).
Definition em (P m : nat) : R := INR m * dd + k1 * (N * (prevloc (P + m) - prevloc P)).
Definition ed (P I m : nat) : R := (INR m + 1) * ((J + 1) * dd + k1 * (N * (Bf I - prevloc P))).

Lemma lam_nn i I : (i <= I < n)%nat -> 0 <= N * (Bf I - prevloc i).
Proof. intros H. apply Rmult_le_pos; [pose proof (N_ge1 n Hn1); lra|]. pose proof (prevloc_Bf i I H). lra. Qed.

Lemma em_S P m : (P + m < n)%nat -> em P (S m) = em P m + (dd + k1 * (N * (Bf (P + m) - prevloc (P + m)))).
Proof. intros H. unfold em. rewrite S_INR, Nat.add_succ_r. cbn [NewMath.prevloc]. ring. Qed.
Lemma em_pos P m : (P + m <= n)%nat -> 0 <= em P m.
Proof.
  intros H. unfold em. destruct dd_pos as [Hd Hk]. pose proof (pos_INR m). pose proof (N_ge1 n Hn1).
  pose proof (prevloc_mono P (P + m) ltac:(lia)).
  apply Rplus_le_le_0_compat; [apply Rmult_le_pos; lra|]. apply Rmult_le_pos; [lra|]. apply Rmult_le_pos; lra.
Qed.
Lemma ed_pos P I m : (P <= I < n)%nat -> 0 <= ed P I m.
Proof.
  intros H. unfold ed. destruct dd_pos as [Hd Hk]. pose proof (pos_INR m). pose proof J1. pose proof (lam_nn P I H).
  apply Rmult_le_pos; [lra|]. apply Rplus_le_le_0_compat; [apply Rmult_le_pos; lra|]. apply Rmult_le_pos; lra.
Qed.
Lemma eo_pos P : (P <= n)%nat -> 0 <= eo P.
Proof.
  intros H. unfold eo. destruct dd_pos as [Hd Hk]. pose proof (pos_INR P). pose proof (N_ge1 n Hn1). pose proof J1.
  pose proof (prevloc_range P H). apply Rplus_le_le_0_compat; [apply Rmult_le_pos; [apply Rmult_le_pos|]; lra|].
  apply Rmult_le_pos; [lra|]. apply Rmult_le_pos; [lra|]. apply Rmult_le_pos; lra.
Qed.
Lemma eo_max P : (P <= n)%nat -> eo P + (dd + k1 * (N * (1 - prevloc P))) <= emax.
Proof.
  intros H. unfold eo, emax. destruct dd_pos as [Hd Hk]. pose proof (N_ge1 n Hn1) as HN. pose proof J1 as HJ.
  pose proof (prevloc_range P H) as Hp. pose proof (pos_INR P) as HP0. assert (HPN : INR P <= N) by (apply le_INR, H).
  assert (H1 : INR P * (J + 1) * dd <= N * (J + 1) * dd).
  { apply Rmult_le_compat_r; [lra|]. apply Rmult_le_compat_r; lra. }
  assert (H2 : 1 * dd <= (J + 1) * dd) by (apply Rmult_le_compat_r; lra).
  assert (H3 : 1 * (k1 * (N * (1 - prevloc P))) <= J * (k1 * (N * (1 - prevloc P)))).
  { apply Rmult_le_compat_r; [|lra]. apply Rmult_le_pos; [lra|]. apply Rmult_le_pos; lra. }
  replace (J * (k1 * N)) with (J * (k1 * (N * prevloc P)) + J * (k1 * (N * (1 - prevloc P)))) by ring.
  replace ((N + 1) * (J + 1) * dd) with (N * (J + 1) * dd + (J + 1) * dd) by ring. lra.
Qed.
Lemma eo_step P I : (P <= I < n)%nat -> (Z.of_nat I + 1 - Z.of_nat P <= jump)%Z ->
  eo P + ed P I (I - P) <= eo (S I).
Proof.
  intros H Hw. unfold eo, ed. cbn [NewMath.prevloc]. destruct dd_pos as [Hd Hk]. pose proof (lam_nn P I H) as Hl.
  rewrite minus_INR by lia. rewrite S_INR.
  assert (HJ : INR I - INR P + 1 <= J).
  { rewrite !INR_IZR_INZ, <- minus_IZR, <- plus_IZR. apply IZR_le. lia. }
  assert ((INR I - INR P + 1) * (k1 * (N * (Bf I - prevloc P))) <= J * (k1 * (N * (Bf I - prevloc P)))).
  { apply Rmult_le_compat_r; [|exact HJ]. apply Rmult_le_pos; lra. }
  lra.
Qed.
Lemma ed_mono P I m m' : (P <= I < n)%nat -> (m <= m')%nat -> ed P I m <= ed P I m'.
Proof.
  intros H Hm. unfold ed. apply le_INR in Hm. destruct dd_pos as [Hd Hk]. pose proof J1. pose proof (lam_nn P I H).
  apply Rmult_le_compat_r; [|lra]. apply Rplus_le_le_0_compat; [apply Rmult_le_pos; lra|]. apply Rmult_le_pos; lra.
Qed.
Lemma em_ed P I m : (P <= I < n)%nat -> (P + m <= I)%nat -> (Z.of_nat I + 1 - Z.of_nat P <= jump)%Z -> em P (S m) <= ed P I m.
Proof.
  intros H Hm Hw. unfold em, ed. destruct dd_pos as [Hd Hk]. pose proof J1 as HJ. pose proof (pos_INR m) as H0.
  rewrite S_INR, Nat.add_succ_r. cbn [NewMath.prevloc]. pose proof (N_ge1 n Hn1) as HN.
  pose proof (Bf_mono (P + m) I ltac:(lia)) as Hb. pose proof (lam_nn P I H) as Hl. pose proof (lam_nn P (P + m) ltac:(lia)) as Hl2.
  rewrite Rmult_plus_distr_l. apply Rplus_le_compat.
  - apply Rmult_le_compat_l; [lra|]. assert (1 * dd <= (J + 1) * dd) by (apply Rmult_le_compat_r; lra). lra.
  - apply Rle_trans with (1 * (k1 * (N * (Bf I - prevloc P)))).
    + rewrite Rmult_1_l. apply Rmult_le_compat_l; [lra|]. apply Rmult_le_compat_l; lra.
    + apply Rmult_le_compat_r; [|lra]. apply Rmult_le_pos; lra.
Qed.
Lemma all_max P I m : (P <= I < n)%nat -> (P + m <= I)%nat -> (Z.of_nat I + 1 - Z.of_nat P <= jump)%Z ->
  eo P + ed P I m <= emax.
Proof.
  intros H Hm Hw. pose proof (eo_step P I H Hw) as Hes. pose proof (ed_mono P I m (I - P) H ltac:(lia)) as Hdm.
  pose proof (eo_max (S I) ltac:(lia)) as H1. destruct dd_pos as [Hd Hk].
  assert (0 <= k1 * (N * (1 - prevloc (S I)))).
  { apply Rmult_le_pos; [lra|]. apply Rmult_le_pos; [pose proof (N_ge1 n Hn1); lra|]. pose proof (prevloc_range (S I) ltac:(lia)). lra. }
  lra.
Qed.

(** ** Sizes of the sequences *)
Section Block.
Variables (P : nat) (v : nat -> R).
Hypothesis HP : (P <= n)%nat.
Hypothesis Hv0 : forall k, (k < P)%nat -> v k = 0.
Hypothesis Hve : forall k, (k <= n)%nat -> Rabs (v k - W P k) <= eo P.

Lemma v_sup k : (k <= n)%nat -> Rabs (v k) <= 1 + eo P.
Proof.
  intros Hk. replace (v k) with ((v k - W P k) + W P k) by ring. eapply Rle_trans; [apply Rabs_triang|].
  specialize (Hve k Hk). pose proof (W_le1 n B Hup P k HP) as [H0 H1]. rewrite (Rabs_pos_eq (W P k)) by exact H0. lra.
Qed.
Lemma v_l1 : rsum (S n) (fun k => Rabs (v k)) <= 1 + (N + 1) * eo P.
Proof.
  apply Rle_trans with (rsum (S n) (fun k => W P k + eo P)).
  - apply rsum_le. intros k Hk. replace (v k) with ((v k - W P k) + W P k) by ring. eapply Rle_trans; [apply Rabs_triang|].
    specialize (Hve k ltac:(lia)). pose proof (W_le1 n B Hup P k HP) as [H0 H1]. rewrite (Rabs_pos_eq (W P k)) by exact H0. lra.
  - rewrite rsum_plus, rsum_const, S_INR. pose proof (W_mass n B Hup P n HP). lra.
Qed.
Lemma V_sup' m j : (P + m <= n)%nat -> (j <= n)%nat -> Rabs (V P v m j) <= 1 + eo P.
Proof. intros Hm Hjn. apply V_sup; auto; [exact Hup|]. intros k Hk. apply v_sup. lia. Qed.
Lemma V_l1' m : (P + m <= n)%nat -> rsum (S n) (fun k => Rabs (V P v m k)) <= 1 + (N + 1) * eo P.
Proof. intros Hm. eapply Rle_trans; [apply V_l1; auto; exact Hup|apply v_l1]. Qed.

(** a computed piece [x] of [V P v m], starting at i *)
Lemma piece_ok m (x : nat -> R) sz e : (P + m <= n)%nat -> (P + m + sz <= S n)%nat -> 0 <= e -> eo P + e <= emax ->
  (forall k, (k < sz)%nat -> Rabs (x k - V P v m (P + m + k)) <= e) ->
  (forall k, (k < sz)%nat -> Rabs (x k) <= 3 / 2) /\ rsum sz (fun j => Rabs (x j)) <= 3.
Proof.
  intros Hm Hsz He Hem Hx. pose proof emax_half as Hh. pose proof (N_ge1 n Hn1) as HN.
  assert (Hk : forall k, (k < sz)%nat -> Rabs (x k) <= Rabs (V P v m (P + m + k)) + e).
  { intros k Hk. replace (x k) with ((x k - V P v m (P + m + k)) + V P v m (P + m + k)) by ring.
    eapply Rle_trans; [apply Rabs_triang|]. specialize (Hx k Hk). lra. }
  split.
  - intros k Hk'. pose proof (V_sup' m (P + m + k) Hm ltac:(lia)). specialize (Hk k Hk'). lra.
  - apply Rle_trans with (rsum sz (fun k => Rabs (V P v m (P + m + k)) + e)); [apply rsum_le; exact Hk|].
    rewrite rsum_plus, rsum_const.
    assert (H1 : rsum sz (fun k => Rabs (V P v m (P + m + k))) <= rsum (S n) (fun k => Rabs (V P v m k))).
    { apply Rle_trans with (rsum (P + m + sz) (fun k => Rabs (V P v m k))).
      - rewrite rsum_add. assert (0 <= rsum (P + m) (fun k => Rabs (V P v m k))) by (apply rsum_nonneg; intros; apply Rabs_pos). lra.
      - replace (S n) with (P + m + sz + (S n - (P + m + sz)))%nat by lia. rewrite rsum_add with (n := (P + m + sz)%nat).
        assert (0 <= rsum (S n - (P + m + sz)) (fun k => Rabs (V P v m (P + m + sz + k)))) by (apply rsum_nonneg; intros; apply Rabs_pos). lra. }
    pose proof (V_l1' m Hm) as H2.
    assert (H3 : INR sz * e <= (N + 1) * e).
    { apply Rmult_le_compat_r; [exact He|]. rewrite <- S_INR. apply le_INR. lia. }
    assert ((N + 1) * (eo P + e) <= (N + 1) * emax) by (apply Rmult_le_compat_l; lra). lra.
Qed.
End Block.

(** ** The loop over i *)
Definition inner64 (P : nat) (v : nat -> R) (I : nat) (i : Z) (s : inner) : Prop :=
  let m := (Z.to_nat i - P)%nat in
  pg64 (in_pmf s) /\ fft_shape (zn + 1) (in_fft s) /\
  @size f64 (get_src (in_mini s)) = jump /\ @size f64 (get_dest (in_mini s)) = jump /\
  (forall j, (Z.to_nat i <= j <= I)%nat -> fabs (gb (get_src (in_mini s)) (Z.of_nat j - Z.of_nat P)) (V P v m j) (em P m)) /\
  @size f64 (in_dest s) = (zn + 1)%Z /\
  (forall j, (I < j <= n)%nat -> fabs (gb (in_dest s) (Z.of_nat j)) (Tv P v m I j) (ed P I m)) /\
  is_finite (in_prev s : f64) = true /\ B2R (in_prev s : f64) = prevloc (Z.to_nat i).

Lemma src_flip2 (d : dbuf BN) md ms : get_src (flip (set_src (set_dest d md) ms)) = md.
Proof. unfold get_src, flip, set_src, set_dest. destruct (buf0_is_src d); reflexivity. Qed.
Lemma dest_flip2 (d : dbuf BN) md ms : get_dest (flip (set_src (set_dest d md) ms)) = ms.
Proof. unfold get_dest, flip, set_src, set_dest. destruct (buf0_is_src d); reflexivity. Qed.

Lemma fabs_trans (x : f64) a b e e' : fabs x a e -> Rabs (a - b) <= e' -> fabs x b (e + e').
Proof.
  intros [F H] H2. split; [exact F|]. replace (B2R x - b) with ((B2R x - a) + (a - b)) by ring.
  eapply Rle_trans; [apply Rabs_triang|]. lra.
Qed.

Lemma Tv_sup P v I m j : (P <= n)%nat -> (P + m <= I < n)%nat -> (j <= n)%nat ->
  (forall k, (k <= n)%nat -> Rabs (v k - W P k) <= eo P) -> Rabs (Tv P v m I j) <= 1 + eo P.
Proof.
  intros HP Hm Hjn Hve. unfold AccNewMath.Tv. apply conv_sup; [rewrite HrN; apply lam_nn; exact Hm|].
  intros k Hk. apply V_sup'; auto; lia.
Qed.
Lemma prev_sup P v m j : (P + m < n)%nat -> (j <= n)%nat ->
  (forall k, (k <= n)%nat -> Rabs (v k - W P k) <= eo P) -> Rabs (prev P v m j) <= 1 + eo P.
Proof.
  intros Hm Hjn Hve. unfold AccNewMath.prev. apply conv_sup; [rewrite HrN; apply lam_nn; lia|].
  intros k Hk. apply V_sup'; auto; lia.
Qed.

Lemma inner_ok64 P v I i s : (P <= I < n)%nat -> (Z.of_nat I + 1 - Z.of_nat P <= jump)%Z -> (Z.of_nat P <= i < Z.of_nat I)%Z ->
  (forall k, (k < P)%nat -> v k = 0) -> (forall k, (k <= n)%nat -> Rabs (v k - W P k) <= eo P) ->
  inner64 P v I i s ->
  WP (inner_step E zn (b64_of_Z zn : car BN) (Bl : list (car BN)) (Z.of_nat P - 1) (Z.of_nat I) i s) (inner64 P v I (i + 1)).
Proof.
  intros HP Hw Hi Hv0 Hve (Hpm & Hfi & Hss & Hsd & Hsrc & Hsz & Hdst & Fp & Vp). unfold inner_step.
  pose proof emax_half as Hh.
  set (m := (Z.to_nat i - P)%nat) in *. assert (Him : i = Z.of_nat (P + m)) by (unfold m; lia). clearbody m. subst i.
  rewrite Nat2Z.id in *.
  assert (Hall : eo P + ed P I m <= emax) by (apply all_max; auto; lia).
  assert (Hall1 : eo P + ed P I (S m) <= emax) by (apply all_max; auto; lia).
  assert (Heme : em P (S m) <= ed P I m) by (apply em_ed; auto; lia).
  pose proof (em_S P m ltac:(lia)) as HemS. pose proof (em_pos P m ltac:(lia)) as Hem0.
  pose proof (em_pos P (S m) ltac:(lia)) as HemS0. pose proof (eo_pos P ltac:(lia)) as Heo0.
  set (i := (P + m)%nat) in *.
  assert (Hl : 0 <= N * (Bf i - prevloc i)) by (apply lam_nn; lia). destruct dd_pos as [Hd0 Hk0].
  assert (Hk1l : 0 <= k1 * (N * (Bf i - prevloc i))) by (apply Rmult_le_pos; lra).
  destruct (Bf_gb (Z.of_nat i) ltac:(lia)) as (FBi & VBi & RBi). rewrite Nat2Z.id in VBi, RBi.
  destruct (Bf_gb (Z.of_nat I) ltac:(lia)) as (FBI & VBI & RBI). rewrite Nat2Z.id in VBI, RBI.
  apply wp_bind, wp_rd_Bl; [lia|].
  set (x := gb Bl (Z.of_nat i)) in *.
  assert (Hr1 : rate (Bmult mode_NE (b64_of_Z zn) (Bminus mode_NE x (in_prev s))) (N * (Bf i - prevloc i))).
  { pose proof (rate_sub eps Heps n Hn1 Hn x (in_prev s) FBi Fp) as HR. rewrite VBi, Vp, HrN in HR.
    apply HR; [apply prevloc_range; lia|apply Hup; lia|lra]. }
  change (@n_mul BN (b64_of_Z zn) (@n_sub BN x (in_prev s))) with (Bmult mode_NE (b64_of_Z zn) (Bminus mode_NE x (in_prev s))).
  set (lh := Bmult mode_NE (b64_of_Z zn) (Bminus mode_NE x (in_prev s))) in *. clearbody lh.
  apply wp_bind. apply (wp_compute_perr L E eps HL Heps n Hn1 Hn) with (l := N * (Bf i - prevloc i)); auto; [lia|].
  intros pg Hpg Hpois. pose proof Hpg as (_ & _ & _ & Hpsz).
  change (@size (car BN) (get_src (in_mini s))) with (@size f64 (get_src (in_mini s))).
  apply wp_bind, wp_addr; [change (0 <= Z.of_nat i - (Z.of_nat P - 1) - 1 < @size f64 (get_src (in_mini s)))%Z; lia|].
  apply wp_bind, wp_addr; [change (0 <= Z.of_nat i - (Z.of_nat P - 1) - 1 < @size f64 (get_dest (in_mini s)))%Z; lia|].
  replace (Z.of_nat i - (Z.of_nat P - 1) - 1)%Z with (Z.of_nat i - Z.of_nat P)%Z by lia.
  set (o := (Z.of_nat i - Z.of_nat P)%Z) in *.
  set (xs := fun k : nat => B2R (gb (get_src (in_mini s)) (o + Z.of_nat k))).
  assert (Hxs : forall k, (k < I - i + 1)%nat -> Rabs (xs k - V P v m (P + m + k)) <= em P m).
  { intros k Hk. unfold xs. fold i. destruct (Hsrc (i + k)%nat ltac:(lia)) as [_ H].
    replace (o + Z.of_nat k)%Z with (Z.of_nat (i + k) - Z.of_nat P)%Z by (unfold o; lia). exact H. }
  assert (HPn : (P <= n)%nat) by lia.
  destruct (piece_ok P v HPn Hve m xs (I - i + 1) (em P m) ltac:(unfold i in *; lia) ltac:(unfold i in *; lia) Hem0 ltac:(lra) Hxs) as [Hx1 Hx2].
  apply wp_bind. apply wp_conv_step with (sz := (Z.of_nat I - Z.of_nat i + 1)%Z) (l := N * (Bf i - prevloc i)) (x := xs).
  - exact Hfi.
  - lia.
  - split; [exact Hl|]. apply Rle_trans with (N * 1); [|lra]. apply Rmult_le_compat_l; [apply pos_INR|].
    pose proof (prevloc_range i ltac:(lia)). lra.
  - intros _. unfold get_array. change (@size (car BN) (pmf_array pg)) with (@size f64 (pmf_array pg)). lia.
  - intros k Hk. apply Hpois; lia.
  - intros k Hk. unfold xs. rewrite Z2Nat.id by lia. split; [|reflexivity].
    replace (o + k)%Z with (Z.of_nat (Z.to_nat (Z.of_nat i + k)) - Z.of_nat P)%Z by (unfold o; lia). apply Hsrc. lia.
  - intros k Hk. apply Hx1. lia.
  - replace (Z.to_nat (Z.of_nat I - Z.of_nat i + 1)) with (I - i + 1)%nat by lia. exact Hx2.
  - intros f' md Hf' Hsmd Hmd. cbn [fst snd].
    change (@size f64 md = @size f64 (get_dest (in_mini s))) in Hsmd.
    assert (Hmdv : forall j, (i <= j <= I)%nat -> fabs (gb md (Z.of_nat j - Z.of_nat P)) (prev P v m j) (em P (S m))).
    { intros j Hjr. specialize (Hmd (Z.of_nat j - Z.of_nat P)%Z ltac:(unfold o; lia)).
      replace (Z.to_nat (Z.of_nat j - Z.of_nat P - o)) with (j - i)%nat in Hmd by (unfold o; lia).
      rewrite HemS. rewrite (Rplus_comm (em P m)). eapply fabs_trans; [exact Hmd|].
      unfold AccNewMath.prev. fold i. rewrite HrN.
      replace j with (i + (j - i))%nat at 2 by lia. rewrite <- (conv_shift _ (V P v m) i (j - i)).
      2: intros k Hk; apply V_low; auto.
      rewrite <- conv_minus_r. apply conv_sup; [exact Hl|]. intros k Hk. apply Hxs. lia. }
    apply wp_bind, (wp_rd (b64_of_Z 0)); [change (0 <= o < @size f64 md)%Z; unfold o; lia|].
    change (@get (car BN) (b64_of_Z 0) md o) with (gb md o).
    pose proof (Hmdv i ltac:(lia)) as Hc. fold o in Hc. set (c := gb md o) in *.
    apply wp_bind, wp_rd_Bl; [lia|]. set (X := gb Bl (Z.of_nat I)) in *. cbv zeta.
    assert (Hr2 : rate (Bmult mode_NE (b64_of_Z zn) (Bminus mode_NE X x)) (N * (Bf I - Bf i))).
    { pose proof (rate_sub eps Heps n Hn1 Hn X x FBI FBi) as HR. rewrite VBi, VBI, HrN in HR.
      apply HR; [lra|apply Bf_mono; lia|lra]. }
    change (@n_mul BN (b64_of_Z zn) (@n_sub BN X x)) with (Bmult mode_NE (b64_of_Z zn) (Bminus mode_NE X x)).
    set (lh2 := Bmult mode_NE (b64_of_Z zn) (Bminus mode_NE X x)) in *. clearbody lh2.
    apply wp_bind.
    apply (wp_subtract64 L E eps HL Heps n Hn1 Hn pg (Z.of_nat I) (Z.of_nat i) c (prev P v m i) (em P (S m)) lh2 (N * (Bf I - Bf i))
      (in_dest s) (Tv P v m I) (ed P I m)); auto; try lia; try lra.
    { eapply Rle_trans; [apply prev_sup; auto; lia|]. pose proof (ed_pos P I m HP). lra. }
    { intros j Hjr. specialize (Hdst (Z.to_nat j) ltac:(lia)). rewrite Z2Nat.id in Hdst by lia. split; [exact Hdst|].
      eapply Rle_trans; [apply Tv_sup; auto; lia|]. pose proof (ed_pos P I m HP). lra. }
    intros dest Hsdest Hdest.
    apply wp_bind, wp_wr; [change (0 <= o < @size f64 md)%Z; unfold o; lia|].
    apply wp_bind, wp_wr; [change (0 <= o < @size f64 (get_src (in_mini s)))%Z; unfold o; lia|]. apply wp_ok.
    unfold inner64. cbn [in_pmf in_fft in_mini in_dest in_prev].
    rewrite src_flip2, dest_flip2.
    assert (Hi1 : Z.to_nat (Z.of_nat i + 1) = S i) by lia. rewrite Hi1.
    assert (Hm1 : (S i - P)%nat = S m) by (unfold i; lia). rewrite Hm1.
    split; [exact Hpg|]. split; [exact Hf'|].
    split; [change (@size f64 (upd md (Z.to_nat o) (b64_of_Z 0)) = jump); rewrite size_upd; lia|].
    split; [change (@size f64 (upd (get_src (in_mini s)) (Z.to_nat o) (b64_of_Z 0)) = jump); rewrite size_upd; lia|].
    split; [|split; [exact Hsdest|split; [|split; [exact FBi|exact VBi]]]].
    + intros j Hjr. change (fabs (gb (upd md (Z.to_nat o) (b64_of_Z 0)) (Z.of_nat j - Z.of_nat P)) (V P v (S m) j) (em P (S m))).
      rewrite get_upd by (unfold o; lia).
      destruct (Z.eqb_spec o (Z.of_nat j - Z.of_nat P)) as [He|_]; [unfold o in He; lia|].
      rewrite V_S. fold i. destruct (Nat.ltb_spec i j); [|lia]. apply Hmdv. lia.
    + intros j Hjr. specialize (Hdest (Z.of_nat j) ltac:(lia)). rewrite Nat2Z.id in Hdest.
      rewrite Tv_step by (auto; lia). fold i. rewrite HrN.
      replace (Z.to_nat (Z.of_nat j - Z.of_nat i)) with (j - i)%nat in Hdest by lia.
      eapply fabs_weaken; [|exact Hdest].
      (* the error added by one subtraction *)
      assert (Hm2 : INR m + 2 <= J + 1).
      { rewrite INR_IZR_INZ, <- !plus_IZR. apply IZR_le. unfold i in *. lia. }
      unfold ed. rewrite S_INR. unfold em at 1. rewrite S_INR, Nat.add_succ_r. cbn [NewMath.prevloc]. fold i.
      assert (Hdd : (INR m + 2) * dd <= (J + 1) * dd) by (apply Rmult_le_compat_r; lra).
      assert (H8 : 1000 * eps + 8 * u64 <= dd) by (unfold dd; pose proof (eps_pos eps Heps); lra).
      replace (k1 * (N * (Bf I - prevloc P))) with (k1 * (N * (Bf i - prevloc P)) + k1 * (N * (Bf I - Bf i))) by ring.
      unfold k1. lra.
Qed.

(** ** The while loop *)
Definition outer64 (P : nat) (s : outer) : Prop :=
  o_I_prev s = (Z.of_nat P - 1)%Z /\ fft_shape (zn + 1) (o_fft s) /\ pg64 (o_pmf s) /\
  @size f64 (get_src (o_bufs s)) = (zn + 1)%Z /\ @size f64 (get_dest (o_bufs s)) = (zn + 1)%Z /\
  @size f64 (get_src (o_mini s)) = jump /\ @size f64 (get_dest (o_mini s)) = jump /\
  @size f64 (o_tmp s) = (zn + 1)%Z /\
  is_finite (o_prev_loc s : f64) = true /\ B2R (o_prev_loc s : f64) = prevloc P /\
  (forall j, (P <= j <= n)%nat -> fabs (gb (get_src (o_bufs s)) (Z.of_nat j)) (W P j) (eo P)).

Lemma src_flip1 (d : dbuf BN) v : get_src (flip (set_dest d v)) = v.
Proof. unfold get_src, flip, set_dest. destruct (buf0_is_src d); reflexivity. Qed.
Lemma dest_flip1 (d : dbuf BN) v : get_dest (flip (set_dest d v)) = get_src d.
Proof. unfold get_dest, get_src, flip, set_dest. destruct (buf0_is_src d); reflexivity. Qed.
Lemma src_set (d : dbuf BN) v : get_src (set_src d v) = v.
Proof. unfold get_src, set_src. destruct (buf0_is_src d); reflexivity. Qed.
Lemma dest_set (d : dbuf BN) v : get_dest (set_src d v) = get_dest d.
Proof. unfold get_dest, set_src. destruct (buf0_is_src d); reflexivity. Qed.

Lemma outer_ok64 P I s : outer64 P s -> (P <= I < n)%nat -> o_I s = Z.of_nat I -> (Z.of_nat I + 1 - Z.of_nat P <= jump)%Z ->
  WP (outer_step E zn (b64_of_Z zn : car BN) (Bl : list (car BN)) s) (fun s' => outer64 (S I) s' /\ o_I s' = o_I s).
Proof.
  intros (HIp & Hfi & Hpm & Hss & Hsd & Hms & Hmd & Hst & Fp & Vp & Hsrc) HP HI Hw. unfold outer_step.
  rewrite HIp, HI. cbv zeta.
  pose proof emax_half as Hh. pose proof (eo_pos P ltac:(lia)) as Heo0. pose proof (ed_pos P I 0 HP) as Hed0.
  pose proof (all_max P I 0 HP ltac:(lia) Hw) as Hall. destruct dd_pos as [Hd0 Hk0].
  assert (Hl : 0 <= N * (Bf I - prevloc P)) by (apply lam_nn; lia).
  destruct (Bf_gb (Z.of_nat I) ltac:(lia)) as (FBI & VBI & RBI). rewrite Nat2Z.id in VBI, RBI.
  apply wp_bind, wp_rd_Bl; [lia|]. set (X := gb Bl (Z.of_nat I)) in *.
  assert (Hr1 : rate (Bmult mode_NE (b64_of_Z zn) (Bminus mode_NE X (o_prev_loc s))) (N * (Bf I - prevloc P))).
  { pose proof (rate_sub eps Heps n Hn1 Hn X (o_prev_loc s) FBI Fp) as HR. rewrite VBI, Vp, HrN in HR.
    apply HR; [apply prevloc_range; lia|apply prevloc_Bf; lia|lra]. }
  change (@n_mul BN (b64_of_Z zn) (@n_sub BN X (o_prev_loc s))) with (Bmult mode_NE (b64_of_Z zn) (Bminus mode_NE X (o_prev_loc s))).
  set (lh := Bmult mode_NE (b64_of_Z zn) (Bminus mode_NE X (o_prev_loc s))) in *. clearbody lh.
  apply wp_bind. apply (wp_compute_perr L E eps HL Heps n Hn1 Hn) with (l := N * (Bf I - prevloc P)); auto; [lia|].
  intros pg Hpg Hpois. pose proof Hpg as (_ & _ & _ & Hpsz).
  apply wp_bind, wp_addr; [change (0 <= Z.of_nat P - 1 + 1 < @size f64 (get_src (o_bufs s)))%Z; lia|].
  pose (v := fun k : nat => if (k <? P)%nat then 0 else B2R (gb (get_src (o_bufs s)) (Z.of_nat k))).
  assert (Hv0 : forall k, (k < P)%nat -> v k = 0) by (intros k Hk; unfold v; destruct (Nat.ltb_spec k P); [reflexivity|lia]).
  assert (Hvs : forall k, (P <= k)%nat -> v k = B2R (gb (get_src (o_bufs s)) (Z.of_nat k)))
    by (intros k Hk; unfold v; destruct (Nat.ltb_spec k P); [lia|reflexivity]).
  assert (Hve : forall k, (k <= n)%nat -> Rabs (v k - W P k) <= eo P).
  { intros k Hk. destruct (Nat.lt_ge_cases k P) as [Hlt|Hge].
    - rewrite Hv0, W_low, Rminus_diag_eq, Rabs_R0 by auto. exact Heo0.
    - rewrite Hvs by exact Hge. apply Hsrc. lia. }
  clearbody v. assert (HPn : (P <= n)%nat) by lia.
  set (xs := fun k : nat => v (P + k)%nat).
  destruct (piece_ok P v HPn Hve 0 xs (n - P + 1) 0) as [Hx1 Hx2]; try lia; try lra.
  { intros k Hk. unfold xs. cbn [AccNewMath.V]. rewrite Nat.add_0_r, Rminus_diag_eq, Rabs_R0 by reflexivity. lra. }
  apply wp_bind. apply wp_conv_step with (sz := (zn - (Z.of_nat P - 1))%Z) (l := N * (Bf I - prevloc P)) (x := xs).
  - exact Hfi.
  - lia.
  - split; [exact Hl|]. apply Rle_trans with (N * 1); [|lra]. apply Rmult_le_compat_l; [apply pos_INR|].
    pose proof (prevloc_range P ltac:(lia)). lra.
  - intros _. unfold get_array. change (@size (car BN) (pmf_array pg)) with (@size f64 (pmf_array pg)). lia.
  - intros k Hk. apply Hpois; lia.
  - intros k Hk. unfold xs. rewrite Hvs by lia.
    replace (Z.of_nat P - 1 + 1 + k)%Z with (Z.of_nat (P + Z.to_nat k)) by lia. split; [|reflexivity]. apply Hsrc. lia.
  - intros k Hk. apply Hx1. lia.
  - replace (Z.to_nat (zn - (Z.of_nat P - 1))) with (n - P + 1)%nat by lia. exact Hx2.
  - intros f1 tmp Hf1 Hstmp Htmp. cbn [fst snd]. change (@size f64 tmp = @size f64 (o_tmp s)) in Hstmp.
    apply wp_bind, wp_addr; [change (0 <= 0 < @size f64 (get_dest (o_bufs s)))%Z; lia|].
    apply wp_bind, wp_addr; [change (0 <= Z.of_nat I + 1 < @size f64 (get_dest (o_bufs s)))%Z; lia|].
    apply wp_bind. apply (wp_fill (b64_of_Z 0 : f64)); [change (@size (car BN) (get_dest (o_bufs s))) with (@size f64 (get_dest (o_bufs s))); lia|].
    intros d1 Hsd1 _. change (@size f64 d1 = @size f64 (get_dest (o_bufs s))) in Hsd1.
    apply wp_bind. apply (wp_blit (b64_of_Z 0 : f64)); [change (@size (car BN) d1) with (@size f64 d1); change (@size (car BN) tmp) with (@size f64 tmp); lia|].
    intros d2 Hsd2 Hd2. change (@size f64 d2 = @size f64 d1) in Hsd2.
    apply wp_bind, wp_addr; [change (0 <= Z.of_nat I + 1 < @size f64 (get_src (o_bufs s)))%Z; lia|].
    apply wp_bind, wp_addr; [change (0 <= 0 < @size f64 (get_src (o_mini s)))%Z; lia|].
    apply wp_bind. apply (wp_blit (b64_of_Z 0 : f64)); [change (@size (car BN) (get_src (o_bufs s))) with (@size f64 (get_src (o_bufs s))); change (@size (car BN) (get_src (o_mini s))) with (@size f64 (get_src (o_mini s))); lia|].
    intros mini Hsmini Hmini. change (@size f64 mini = @size f64 (get_src (o_mini s))) in Hsmini.
    apply wp_bind. apply wp_for with (P := inner64 P v I).
    + unfold inner64. cbn [in_pmf in_fft in_mini in_dest in_prev].
      rewrite src_set, dest_set.
      replace (Z.to_nat (Z.of_nat P - 1 + 1)) with P by lia. rewrite Nat.sub_diag.
      split; [exact Hpg|]. split; [exact Hf1|]. split; [lia|]. split; [exact Hmd|].
      split; [|split; [lia|split; [|split; [exact Fp|exact Vp]]]].
      * intros j Hjr. specialize (Hmini (Z.of_nat j - Z.of_nat P)%Z ltac:(lia)).
        change (gb mini (Z.of_nat j - Z.of_nat P) = (if (0 <=? Z.of_nat j - Z.of_nat P) && (Z.of_nat j - Z.of_nat P <? 0 + (Z.of_nat I - (Z.of_nat P - 1)))
          then gb (get_src (o_bufs s)) (Z.of_nat P - 1 + 1 + (Z.of_nat j - Z.of_nat P - 0)) else gb (get_src (o_mini s)) (Z.of_nat j - Z.of_nat P)))%Z in Hmini.
        rewrite Hmini.
        destruct (Z.leb_spec 0 (Z.of_nat j - Z.of_nat P)), (Z.ltb_spec (Z.of_nat j - Z.of_nat P) (0 + (Z.of_nat I - (Z.of_nat P - 1)))); cbn [andb]; try lia.
        replace (Z.of_nat P - 1 + 1 + (Z.of_nat j - Z.of_nat P - 0))%Z with (Z.of_nat j) by lia.
        cbn [AccNewMath.V]. rewrite Hvs by lia. apply fabs_exact; [apply Hsrc; lia|reflexivity|apply em_pos; lia].
      * intros j Hjr. specialize (Hd2 (Z.of_nat j) ltac:(lia)).
        change (gb d2 (Z.of_nat j) = (if (Z.of_nat I + 1 <=? Z.of_nat j) && (Z.of_nat j <? Z.of_nat I + 1 + (zn - Z.of_nat I))
          then gb tmp (Z.of_nat I - (Z.of_nat P - 1) + (Z.of_nat j - (Z.of_nat I + 1))) else gb d1 (Z.of_nat j)))%Z in Hd2.
        rewrite Hd2.
        destruct (Z.leb_spec (Z.of_nat I + 1) (Z.of_nat j)), (Z.ltb_spec (Z.of_nat j) (Z.of_nat I + 1 + (zn - Z.of_nat I))); cbn [andb]; try lia.
        replace (Z.of_nat I - (Z.of_nat P - 1) + (Z.of_nat j - (Z.of_nat I + 1)))%Z with (Z.of_nat (j - P)) by lia.
        specialize (Htmp (Z.of_nat (j - P)) ltac:(lia)). rewrite Z.sub_0_r, Nat2Z.id in Htmp.
        unfold AccNewMath.Tv. cbn [AccNewMath.V]. rewrite Nat.add_0_r, HrN.
        replace j with (P + (j - P))%nat at 2 by lia. rewrite <- (conv_shift _ v P (j - P)) by exact Hv0.
        eapply fabs_weaken; [|exact Htmp]. unfold ed. simpl (INR 0). rewrite Rplus_0_l, Rmult_1_l.
        pose proof J1. assert (1 * dd <= (J + 1) * dd) by (apply Rmult_le_compat_r; lra). lra.
    + intros i st Hi Hinv. apply inner_ok64; auto; lia.
    + intros st Hinv. replace (Z.max (Z.of_nat P - 1 + 1) (Z.of_nat I)) with (Z.of_nat I) in Hinv by lia.
      destruct Hinv as (Hpm' & Hfi' & Hss' & Hsd' & _ & Hdsz & Hdst & _ & _). rewrite Nat2Z.id in Hdst.
      apply wp_ok. split; [|reflexivity].
      unfold outer64. cbn [o_bufs o_mini o_fft o_pmf o_tmp o_prev_loc o_I_prev o_I].
      rewrite src_flip1, dest_flip1.
      split; [lia|]. split; [exact Hfi'|]. split; [exact Hpm'|]. split; [exact Hdsz|]. split; [exact Hss|].
      split; [exact Hss'|]. split; [exact Hsd'|]. split; [lia|]. split; [exact FBI|]. split; [exact VBI|].
      intros j Hjr. specialize (Hdst j ltac:(lia)).
      assert (HT : Tv P v (I - P) I j = V P v (S (I - P)) j).
      { rewrite V_S. replace (P + (I - P))%nat with I by lia. destruct (Nat.ltb_spec I j); [|lia].
        unfold AccNewMath.Tv, AccNewMath.prev. replace (P + (I - P))%nat with I by lia. reflexivity. }
      rewrite HT in Hdst. eapply fabs_weaken; [apply (eo_step P I HP Hw)|]. rewrite Rplus_comm.
      eapply fabs_trans; [exact Hdst|].
      pose proof (V_close n B Hup P v (eo P) (S (I - P)) ltac:(lia) Hve j ltac:(lia)) as HC.
      replace (P + S (I - P))%nat with (S I) in HC by lia. exact HC.
Qed.

Lemma outer_loop_ok64 fuel : forall P I s, outer64 P s -> (P <= I < n)%nat -> o_I s = Z.of_nat I ->
  (Z.of_nat I + 1 - Z.of_nat P <= jump)%Z -> (n - 1 - I < fuel)%nat ->
  WP (outer_loop E fuel zn zn jump (b64_of_Z zn : car BN) (Bl : list (car BN)) s) (outer64 n).
Proof.
  induction fuel as [|fuel IH]; intros P I s Hs HP HI Hw Hfuel; [lia|]. cbn [outer_loop].
  apply wp_bind. eapply wp_mono; [apply (outer_ok64 P I); auto|]. cbv beta. intros s' (Hs' & HI').
  rewrite HI', HI. destruct (Z.eqb_spec (Z.of_nat I) (zn - 1)) as [He|Hne].
  - apply wp_ok. replace n with (S I) by lia. exact Hs'.
  - apply (IH (S I) (Z.to_nat (Z.min (Z.of_nat I + jump) (zn - 1)))); cbn [o_I]; try lia. exact Hs'.
Qed.

(** ** The whole of poisson_B_noncrossing_probability_n2 *)
Lemma new_n2_ok64 (Q : list (car BN) -> Prop) : (asserts E = true -> jump <= zn)%Z ->
  (forall probs : list f64, size probs = (zn + 1)%Z ->
     fabs (gb probs zn) (conv (pois (N * (1 - prevloc n))) (W n) n) emax -> Q probs) ->
  WP (poisson_B_noncrossing_probability_n2 E (Z.to_nat (zn + 1)) zn (b64_of_Z zn : car BN) (Bl : list (car BN)) jump) Q.
Proof.
  intros Ha HQ. unfold poisson_B_noncrossing_probability_n2.
  destruct zero_ok as [F0 V0]. destruct one_ok as [F1 V1]. pose proof emax_half as Hh. destruct dd_pos as [Hd0 Hk0].
  apply wp_bind. apply wp_cassert; [intros HE Hc; apply Z.leb_gt in Hc; specialize (Ha HE); lia|]. intros _.
  assert (Hs0 : forall k (x : f64), (0 <= k)%Z -> @size f64 (get_src (dbuf_make (N := BN) k x)) = k)
    by (intros k x Hk; unfold get_src, dbuf_make; cbn [buf0_is_src buf0]; rewrite size_vec; lia).
  assert (Hs1 : forall k (x : f64), (0 <= k)%Z -> @size f64 (get_dest (dbuf_make (N := BN) k x)) = k)
    by (intros k x Hk; unfold get_dest, dbuf_make; cbn [buf0_is_src buf1]; rewrite size_vec; lia).
  apply wp_bind, wp_wr; [change (0 <= 0 < @size f64 (get_src (dbuf_make (N := BN) (zn + 1) (b64_of_Z 0))))%Z; rewrite Hs0; lia|]. cbv zeta.
  apply wp_bind. apply wp_pmfgen64; [lia|]. intros g Hg.
  change (@size (car BN) (Bl : list (car BN))) with zn.
  apply wp_bind. eapply wp_mono.
  { apply (outer_loop_ok64 _ 0 (Z.to_nat (Z.min (-1 + jump) (zn - 1)))); cbn [o_I]; try lia.
    unfold outer64. cbn [o_bufs o_mini o_fft o_pmf o_tmp o_prev_loc o_I_prev o_I].
    rewrite src_set, dest_set.
    split; [reflexivity|]. split; [apply fft_shape_make; lia|]. split; [exact Hg|].
    split; [change (@size f64 (upd (get_src (dbuf_make (N := BN) (zn + 1) (b64_of_Z 0))) (Z.to_nat 0) (b64_of_Z 1)) = zn + 1)%Z; rewrite size_upd; apply Hs0; lia|].
    split; [apply Hs1; lia|]. split; [apply Hs0; lia|]. split; [apply Hs1; lia|]. split; [apply size_alloc64; lia|].
    split; [exact F0|]. split; [exact V0|].
    intros j Hjr.
    change (fabs (gb (upd (get_src (dbuf_make (N := BN) (zn + 1) (b64_of_Z 0))) (Z.to_nat 0) (b64_of_Z 1)) (Z.of_nat j)) (W 0 j) (eo 0)).
    rewrite get_upd by (rewrite ?Hs0; lia). cbn [NewMath.W]. unfold delta.
    assert (He0 : 0 <= eo 0) by (apply eo_pos; lia).
    destruct (Z.eqb_spec 0 (Z.of_nat j)), (Nat.eqb_spec j 0); try lia.
    - apply fabs_exact; auto.
    - unfold get_src, dbuf_make. cbn [buf0_is_src buf0]. change (fabs (gb (vec (zn + 1) (b64_of_Z 0)) (Z.of_nat j)) 0 (eo 0)).
      rewrite get_vec by lia. apply fabs_exact; auto. }
  cbv beta. intros s (HIp & Hfi & Hpm & Hss & Hsd & Hms & Hmd & Hst & Fp & Vp & Hsrc).
  pose proof (prevloc_range n ltac:(lia)) as Hpr. pose proof (N_ge1 n Hn1) as HN.
  assert (Hl : 0 <= N * (1 - prevloc n)) by (apply Rmult_le_pos; lra).
  assert (Hr1 : rate (Bmult mode_NE (b64_of_Z zn) (Bminus mode_NE (b64_of_Z 1) (o_prev_loc s))) (N * (1 - prevloc n))).
  { pose proof (rate_sub eps Heps n Hn1 Hn (b64_of_Z 1) (o_prev_loc s) F1 Fp) as HR. rewrite V1, Vp, HrN in HR. apply HR; lra. }
  change (@n_mul BN (b64_of_Z zn) (@n_sub BN n1 (o_prev_loc s))) with (Bmult mode_NE (b64_of_Z zn) (Bminus mode_NE (b64_of_Z 1) (o_prev_loc s))).
  set (lh := Bmult mode_NE (b64_of_Z zn) (Bminus mode_NE (b64_of_Z 1) (o_prev_loc s))) in *. clearbody lh.
  apply wp_bind. apply (wp_compute_perr L E eps HL Heps n Hn1 Hn) with (l := N * (1 - prevloc n)); auto; [lia|].
  intros pg Hpg Hpois. pose proof Hpg as (_ & _ & _ & Hpsz).
  apply wp_bind, wp_addr; [change (0 <= zn < @size f64 (get_src (o_bufs s)))%Z; lia|].
  apply wp_bind, wp_addr; [change (0 <= zn < @size f64 (get_dest (o_bufs s)))%Z; lia|].
  pose proof (eo_max n ltac:(lia)) as Hmax. pose proof (eo_pos n ltac:(lia)) as Heo0.
  pose (x := B2R (gb (get_src (o_bufs s)) zn)).
  assert (Hx : Rabs (x - W n n) <= eo n) by (apply Hsrc; lia).
  assert (Hkl : 0 <= k1 * (N * (1 - prevloc n))) by (apply Rmult_le_pos; lra).
  assert (Hxa : Rabs x <= 3 / 2).
  { replace x with ((x - W n n) + W n n) by ring. eapply Rle_trans; [apply Rabs_triang|].
    pose proof (W_le1 n B Hup n n ltac:(lia)) as [H0 H1]. rewrite (Rabs_pos_eq (W n n)) by exact H0. lra. }
  apply wp_bind. apply wp_conv_step with (sz := (zn - zn + 1)%Z) (l := N * (1 - prevloc n)) (x := fun _ => x).
  - exact Hfi.
  - lia.
  - split; [exact Hl|]. apply Rle_trans with (N * 1); [|lra]. apply Rmult_le_compat_l; lra.
  - intros _. unfold get_array. change (@size (car BN) (pmf_array pg)) with (@size f64 (pmf_array pg)). lia.
  - intros k Hk. apply Hpois; lia.
  - intros k Hk. assert (k = 0)%Z as -> by lia. rewrite Z.add_0_r. split; [apply Hsrc; lia|reflexivity].
  - intros k Hk. exact Hxa.
  - rewrite Z.sub_diag. change (Z.to_nat (0 + 1)) with 1%nat. rewrite rsum_const. simpl (INR 1). lra.
  - intros f1 d1 Hf1 Hsd1 Hd1. cbn [fst snd]. change (@size f64 d1 = @size f64 (get_dest (o_bufs s))) in Hsd1.
    apply (wp_fill (b64_of_Z 0 : f64)); [change (@size (car BN) d1) with (@size f64 d1); lia|].
    intros d2 Hsd2 Hd2. apply HQ; [change (@size f64 d2 = @size f64 d1) in Hsd2; lia|].
    specialize (Hd2 zn ltac:(lia)). change (gb d2 zn = if ((0 <=? zn) && (zn <? zn))%Z then b64_of_Z 0 else gb d1 zn) in Hd2.
    rewrite Z.ltb_irrefl, andb_false_r in Hd2. rewrite Hd2.
    specialize (Hd1 zn ltac:(lia)). rewrite Z.sub_diag in Hd1. change (Z.to_nat 0) with 0%nat in Hd1.
    eapply fabs_weaken; [exact Hmax|]. rewrite Rplus_comm. eapply fabs_trans; [exact Hd1|].
    assert (Hcs : conv (pois (N * (1 - prevloc n))) (W n) n = conv (pois (N * (1 - prevloc n))) (fun k => W n (n + k)%nat) 0)
      by (rewrite conv_shift by (apply W_low); f_equal; lia).
    rewrite Hcs.
    rewrite <- conv_minus_r. apply conv_sup; [exact Hl|]. intros k Hk. assert (k = 0)%nat as -> by lia.
    rewrite Nat.add_0_r. exact Hx.
Qed.
End Loop.
