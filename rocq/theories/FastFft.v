(** * FastFft: accuracy of FFTWConvolver::convolve_same_size in any arithmetic of FastNum.v. *)
From Coquelicot Require Import Coquelicot.
From Flocq Require Import Core.Core.
From Coq Require Import ZArith Reals List Bool Lia Lra String.
From Verif Require Import Base Num Hoare Common PoissonPmf FFTConv RSum Dft SafeFft.
From Verif Require Import ErrBound FftMath FastNum FastGrow FastPmf FastConv.
Import List.
Local Open Scope R_scope.

Lemma nth_firstn {A} (l : list A) n i d : (i < n)%nat -> nth i (firstn n l) d = nth i l d.
Proof.
  revert n i. induction l as [|a l IH]; intros n i Hi; [rewrite firstn_nil; reflexivity|].
  destruct n as [|n]; [lia|]. destruct i as [|i]; [reflexivity|]. simpl. apply IH. lia.
Qed.

Section Vals.
Context {F : num} (fin : car F -> Prop) (val : car F -> R).
(** value number j of a vector *)
Definition vl (x : list (car F)) (j : nat) : R := val (nth j x n0).
Definition vre (z : list (cplx F)) (k : nat) : R := val (fst (nth k z (n0, n0))).
Definition vim (z : list (cplx F)) (k : nat) : R := val (snd (nth k z (n0, n0))).
(** a finite number within e of x *)
Definition within (v : car F) (x e : R) : Prop := fin v /\ Rabs (val v - x) <= e.

(** What FFTW is assumed to compute: as in fft_accurate (AccFft.v), for the values of the expressions. *)
Definition fft_accurate_in (E : env F) (e : R) : Prop :=
  (forall (h : nat) (x : list (car F)), (0 < h)%nat -> List.length x = (2 * h)%nat ->
     Forall fin x -> rsum (2 * h) (fun j => Rabs (vl x j)) <= 1024 ->
     let z := fft_r2c E x in List.length z = S h /\
     forall k, (k <= h)%nat ->
       within (fst (nth k z (n0, n0))) (dft_re (2 * h) (vl x) k)
            (e * rsum (2 * h) (fun j => Rabs (vl x j)) + bpow radix2 (-1000)) /\
       within (snd (nth k z (n0, n0))) (dft_im (2 * h) (vl x) k)
            (e * rsum (2 * h) (fun j => Rabs (vl x j)) + bpow radix2 (-1000))) /\
  (forall (h : nat) (z : list (cplx F)), (0 < h)%nat -> List.length z = S h ->
     Forall (fun c => fin (fst c) /\ fin (snd c)) z ->
     l1c h (vre z) (vim z) <= 1024 ->
     let y := fft_c2r E (2 * h) z in List.length y = (2 * h)%nat /\
     forall j, (j < 2 * h)%nat ->
       within (nth j y n0) (idft (2 * h) (vre z) (vim z) j)
            (e * (2 * l1c h (vre z) (vim z)) + bpow radix2 (-1000))).

Lemma within_weaken v x e e' : e <= e' -> within v x e -> within v x e'.
Proof. intros He [Fv H]. split; [exact Fv|lra]. Qed.
End Vals.

(** ** One element of the product of the spectra *)
Section One.
Variables (c x y i X Y e u : R).
Hypothesis Hi : 0 < i <= 1.
Hypothesis Hu0 : 0 < u.
Hypothesis Hue : 2 * u <= e.
Hypothesis He : e <= / 4096.
Hypothesis Hc : Rabs (c - i) <= 4 * u * i.
Hypothesis Hx : Rabs (x - X) <= 4 * e.
Hypothesis Hy : Rabs (y - Y) <= 4 * e.
Hypothesis BX : Rabs X <= 3.
Hypothesis BY : Rabs Y <= 3.

Lemma scaled_bounds : Rabs x <= 301 / 100 /\ Rabs y <= 301 / 100 /\ Rabs c <= 101 / 100 * i.
Proof.
  assert (HT : forall a b d, Rabs (a - b) <= d -> Rabs a <= Rabs b + d).
  { intros a b d H. replace a with ((a - b) + b) by ring. eapply Rle_trans; [apply Rabs_triang|]. lra. }
  pose proof (HT _ _ _ Hx). pose proof (HT _ _ _ Hy). pose proof (HT _ _ _ Hc) as H1. rewrite (Rabs_pos_eq i) in H1 by lra.
  assert (u * i <= / 8192 * i) by (apply Rmult_le_compat_r; lra).
  rewrite Rmult_assoc in H1. repeat split; lra.
Qed.
Lemma scaled_abs : Rabs (c * x * y) <= 10 * i.
Proof.
  destruct scaled_bounds as (H1 & H2 & H3). rewrite !Rabs_mult.
  apply Rle_trans with (101 / 100 * i * (301 / 100) * (301 / 100)); [|lra].
  apply Rmult_le_compat; try apply Rabs_pos; [apply Rmult_le_pos; apply Rabs_pos| |exact H2].
  apply Rmult_le_compat; try apply Rabs_pos; assumption.
Qed.
Lemma scaled_err : Rabs (c * x * y - i * (X * Y)) <= 25 * (e * i) + 37 * (u * i).
Proof.
  destruct scaled_bounds as (H1 & H2 & H3).
  replace (c * x * y - i * (X * Y)) with ((c - i) * (x * y) + i * ((x - X) * y + X * (y - Y))) by ring.
  assert (Hxy : Rabs (x * y) <= 91 / 10).
  { rewrite Rabs_mult. apply Rle_trans with (301 / 100 * (301 / 100)); [apply Rmult_le_compat; auto using Rabs_pos|lra]. }
  assert (E1 : Rabs ((c - i) * (x * y)) <= 37 * (u * i)).
  { rewrite Rabs_mult. apply Rle_trans with (4 * u * i * (91 / 10)); [apply Rmult_le_compat; auto using Rabs_pos|].
    assert (0 <= u * i) by (apply Rmult_le_pos; lra). lra. }
  assert (E2 : Rabs ((x - X) * y + X * (y - Y)) <= 25 * e).
  { eapply Rle_trans; [apply Rabs_triang|]. rewrite !Rabs_mult.
    assert (Rabs (x - X) * Rabs y <= 4 * e * (301 / 100)) by (apply Rmult_le_compat; auto using Rabs_pos).
    assert (Rabs X * Rabs (y - Y) <= 3 * (4 * e)) by (apply Rmult_le_compat; auto using Rabs_pos). lra. }
  eapply Rle_trans; [apply Rabs_triang|]. rewrite (Rabs_mult i), (Rabs_pos_eq i) by lra.
  assert (i * Rabs ((x - X) * y + X * (y - Y)) <= i * (25 * e)) by (apply Rmult_le_compat_l; lra). lra.
Qed.
End One.

Section Fft.
Context (F : num) (E : env F) (fin : car F -> Prop) (val : car F -> R) (u eta e : R) {thr : exn -> Prop} {abt : Prop}.
Hypothesis HAF : arith_fft F fin val u eta.
Hypothesis Hz0 : fin n0 /\ val n0 = 0.
Hypothesis HF : fft_accurate_in fin val E e.
Hypothesis Hu : bpow radix2 (-53) <= u.
Hypothesis Hue : 2 * u <= e.
Hypothesis He : e <= / 4096.
Hypothesis Heta : eta <= bpow radix2 (-1010).
Notation WP := (wp thr abt).
Notation g0 := (get n0).
Notation gz := (get ((n0, n0) : cplx F)).
Notation WI := (within fin val).

Lemma fu0 : 0 < u.
Proof. pose proof (bpow_gt_0 radix2 (-53)). lra. Qed.
Lemma ftiny_e : bpow radix2 (-1000) <= e.
Proof. pose proof (bpow_le radix2 (-1000) (-53) ltac:(lia)). pose proof fu0. lra. Qed.

Lemma wp_fcopy (src : list (car F)) so (dest : list (car F)) ss ds (Q : list (car F) -> Prop) :
  (0 < ss -> ss <= ds -> ds <= size dest -> 0 <= so -> so + ss <= size src ->
  (forall dest', size dest' = size dest ->
     (forall i, 0 <= i < ds -> g0 dest' i = if i <? ss then g0 src (so + i) else n0) -> Q dest') ->
  WP (copy_zero_padded src so dest ss ds) Q)%Z.
Proof.
  intros H1 H2 H3 H4 H5 HQ. unfold copy_zero_padded.
  apply wp_bind. apply wp_blit with (d := n0); [lia|].
  intros d1 Hs1 Hd1. apply wp_fill with (d := n0); [lia|].
  intros d2 Hs2 Hd2. apply HQ; [lia|].
  intros i Hi. rewrite Hd2, Hd1 by lia.
  destruct (Z.leb_spec ss i), (Z.ltb_spec i ds), (Z.ltb_spec i ss), (Z.leb_spec 0 i), (Z.ltb_spec i (0 + ss));
    simpl; try lia; auto. f_equal. lia.
Qed.

Lemma wp_fr2c site h (inp : list (car F)) (outp : list (cplx F)) (x : nat -> R)
  (Q : list (car F) * list (cplx F) -> Prop) : (0 < h)%nat ->
  (2 * Z.of_nat h <= size inp)%Z -> (Z.of_nat h + 1 <= size outp)%Z ->
  (forall i, (i < 2 * h)%nat -> fin (g0 inp (Z.of_nat i)) /\ val (g0 inp (Z.of_nat i)) = x i) ->
  rsum (2 * h) (fun j => Rabs (x j)) <= 3 ->
  (forall inp' outp', size inp' = size inp -> size outp' = size outp ->
     (forall k, (k <= h)%nat ->
        WI (fst (gz outp' (Z.of_nat k))) (dft_re (2 * h) x k) (4 * e) /\
        WI (snd (gz outp' (Z.of_nat k))) (dft_im (2 * h) x k) (4 * e)) -> Q (inp', outp')) ->
  WP (execute_r2c E site (2 * Z.of_nat h) inp outp) Q.
Proof.
  intros Hh Hin Hout Hx H3 HQ. unfold execute_r2c.
  destruct (Z.ltb_spec (size inp) (2 * Z.of_nat h)) as [?|_]; [lia|].
  assert (Hq : Z.quot (2 * Z.of_nat h) 2 = Z.of_nat h) by (rewrite Z.mul_comm; apply Z.quot_mul; lia). rewrite Hq.
  replace (Z.to_nat (2 * Z.of_nat h)) with (2 * h)%nat by lia.
  set (v := firstn (2 * h) inp).
  assert (Hlv : List.length v = (2 * h)%nat).
  { unfold v. rewrite firstn_length. unfold size in Hin. lia. }
  assert (Hnth : forall i, (i < 2 * h)%nat -> nth i v n0 = g0 inp (Z.of_nat i)).
  { intros i Hi. unfold get. rewrite Nat2Z.id. apply nth_firstn. exact Hi. }
  assert (Hval : forall i, (i < 2 * h)%nat -> vl val v i = x i).
  { intros i Hi. unfold vl. rewrite Hnth by exact Hi. apply Hx, Hi. }
  assert (Hfin : Forall fin v).
  { apply Forall_nth. intros i d Hi. rewrite (nth_indep _ d n0) by exact Hi.
    rewrite Hnth by lia. apply Hx. lia. }
  assert (Hsum : rsum (2 * h) (fun j => Rabs (vl val v j)) = rsum (2 * h) (fun j => Rabs (x j))).
  { apply rsum_ext. intros i Hi. rewrite Hval by exact Hi. reflexivity. }
  destruct (proj1 HF h v Hh Hlv Hfin ltac:(lra)) as [Hlz Hz]. cbv zeta in Hlz, Hz.
  set (z := fft_r2c E v) in *.
  apply wp_bind. apply wp_blit with (d := (n0, n0) : cplx F).
  { intros _. split; [lia|]. split; [|split; lia]. eapply Z.le_trans; [|apply Z.eq_le_incl; symmetry; exact (f_equal Z.of_nat Hlz)]. lia. }
  intros o Hso Ho. apply wp_ok. apply HQ; auto.
  - apply size_doubles. apply size_nonneg.
  - intros k Hk. specialize (Ho (Z.of_nat k) ltac:(lia)). rewrite Ho.
    destruct (Z.leb_spec 0 (Z.of_nat k)), (Z.ltb_spec (Z.of_nat k) (0 + (Z.of_nat h + 1))); try lia. cbn [andb].
    unfold get. replace (Z.to_nat (0 + (Z.of_nat k - 0))) with k by lia.
    destruct (Hz k Hk) as [H1 H2]. pose proof ftiny_e as Ht. pose proof fu0 as Hu0.
    assert (Hbd : e * rsum (2 * h) (fun j => Rabs (vl val v j)) + bpow radix2 (-1000) <= 4 * e).
    { rewrite Hsum. assert (e * rsum (2 * h) (fun j => Rabs (x j)) <= e * 3) by (apply Rmult_le_compat_l; lra). lra. }
    assert (Hre : dft_re (2 * h) (vl val v) k = dft_re (2 * h) x k).
    { unfold dft_re. apply rsum_ext. intros i Hi. rewrite Hval by exact Hi. reflexivity. }
    assert (Him : dft_im (2 * h) (vl val v) k = dft_im (2 * h) x k).
    { unfold dft_im. f_equal. apply rsum_ext. intros i Hi. rewrite Hval by exact Hi. reflexivity. }
    rewrite <- Hre, <- Him. split; eapply within_weaken; eassumption.
Qed.

(** [out]: any property of the arrays FFTW writes *)
Variable out : car F -> Prop.
Hypothesis Hout' : forall h z j, (j < 2 * h)%nat -> out (nth j (fft_c2r E (2 * h) z) n0).

Lemma wp_fc2r site h (inp : list (cplx F)) (outp : list (car F)) i (re im : nat -> R)
  (Q : list (cplx F) * list (car F) -> Prop) : (0 < h)%nat -> 0 < i -> 40 * INR (S h) * i <= 1024 ->
  (Z.of_nat h + 1 <= size inp)%Z -> (2 * Z.of_nat h <= size outp)%Z ->
  (forall k, (k <= h)%nat -> Rabs (re k) <= 18 * i) -> (forall k, (k <= h)%nat -> Rabs (im k) <= 18 * i) ->
  (forall k, (k <= h)%nat ->
     WI (fst (gz inp (Z.of_nat k))) (re k) (164 * e * i) /\ WI (snd (gz inp (Z.of_nat k))) (im k) (164 * e * i)) ->
  (forall inp' outp', size inp' = size inp -> size outp' = size outp ->
     (forall j, (j < 2 * h)%nat -> fin (g0 outp' (Z.of_nat j)) /\ out (g0 outp' (Z.of_nat j)) /\ exists re' im',
        (forall k, (k <= h)%nat -> Rabs (re' k - re k) <= 164 * e * i) /\
        (forall k, (k <= h)%nat -> Rabs (im' k - im k) <= 164 * e * i) /\
        Rabs (val (g0 outp' (Z.of_nat j)) - idft (2 * h) re' im' j) <= e * (80 * INR (S h) * i) + e) -> Q (inp', outp')) ->
  WP (execute_c2r E site (2 * Z.of_nat h) inp outp) Q.
Proof.
  intros Hh Hi Hbig Hin Hout Bre Bim Hx HQ. unfold execute_c2r.
  assert (Hq : Z.quot (2 * Z.of_nat h) 2 = Z.of_nat h) by (rewrite Z.mul_comm; apply Z.quot_mul; lia). rewrite Hq.
  destruct (Z.ltb_spec (size inp) (Z.of_nat h + 1)) as [?|_]; [lia|].
  replace (Z.to_nat (2 * Z.of_nat h)) with (2 * h)%nat by lia.
  replace (Z.to_nat (Z.of_nat h + 1)) with (S h) by lia.
  set (z := firstn (S h) inp).
  assert (Hlz : List.length z = S h).
  { unfold z. rewrite firstn_length. unfold size in Hin. lia. }
  assert (Hnth : forall k, (k <= h)%nat -> nth k z (n0, n0) = gz inp (Z.of_nat k)).
  { intros k Hk. unfold get. rewrite Nat2Z.id. apply nth_firstn. lia. }
  assert (Hfin : Forall (fun c => fin (fst c) /\ fin (snd c)) z).
  { apply Forall_nth. intros k d Hk. rewrite (nth_indep _ d (n0, n0)) by exact Hk.
    assert (Hk' : (k <= h)%nat) by (apply Nat.lt_succ_r; rewrite <- Hlz; exact Hk).
    rewrite Hnth by exact Hk'. destruct (Hx k Hk') as [[F1 _] [F2 _]]. auto. }
  pose proof fu0 as Hu0. pose proof ftiny_e as Ht.
  assert (Hei : 0 <= e * i <= / 4096 * i) by (split; [apply Rmult_le_pos|apply Rmult_le_compat_r]; lra).
  assert (Hvr : forall k, (k <= h)%nat -> Rabs (vre val z k - re k) <= 164 * e * i /\ Rabs (vim val z k - im k) <= 164 * e * i).
  { intros k Hk. unfold vre, vim. rewrite Hnth by exact Hk. destruct (Hx k Hk) as [[_ H1] [_ H2]]. auto. }
  assert (Hl1 : l1c h (vre val z) (vim val z) <= 40 * INR (S h) * i).
  { unfold l1c. apply Rle_trans with (rsum (S h) (fun _ => 40 * i)); [|rewrite rsum_const; lra].
    apply rsum_le. intros k Hk. destruct (Hvr k ltac:(lia)) as [H1 H2].
    assert (Hsp : forall a b, Rabs a <= Rabs (a - b) + Rabs b).
    { intros a b. replace a with ((a - b) + b) at 1 by ring. apply Rabs_triang. }
    pose proof (Hsp (vre val z k) (re k)). pose proof (Hsp (vim val z k) (im k)).
    pose proof (Bre k ltac:(lia)). pose proof (Bim k ltac:(lia)). lra. }
  destruct (proj2 HF h z Hh Hlz Hfin ltac:(lra)) as [Hly Hy]. cbv zeta in Hly, Hy.
  set (y := fft_c2r E (2 * h) z) in *.
  apply wp_bind. apply wp_blit with (d := n0).
  { intros _. replace (size y) with (Z.of_nat (2 * h)) by (unfold size; rewrite Hly; reflexivity). lia. }
  intros o Hso Ho. apply wp_ok. apply HQ; auto.
  - apply size_complexes. apply size_nonneg.
  - intros j Hj. specialize (Ho (Z.of_nat j) ltac:(lia)). rewrite Ho.
    destruct (Z.leb_spec 0 (Z.of_nat j)), (Z.ltb_spec (Z.of_nat j) (0 + 2 * Z.of_nat h)); try lia. cbn [andb].
    unfold get. replace (Z.to_nat (0 + (Z.of_nat j - 0))) with j by lia.
    destruct (Hy j Hj) as [Fy Ey]. split; [exact Fy|]. split; [apply Hout', Hj|].
    exists (vre val z), (vim val z). split; [intros k Hk; apply Hvr, Hk|]. split; [intros k Hk; apply Hvr, Hk|].
    eapply Rle_trans; [exact Ey|].
    assert (e * (2 * l1c h (vre val z) (vim val z)) <= e * (80 * INR (S h) * i)) by (apply Rmult_le_compat_l; lra). lra.
Qed.

(** the product of the spectra *)
Lemma wp_fproduct h (s0 s1 dest : list (cplx F)) (c : car F) i (a0 b0 a1 b1 : nat -> R) (Q : list (cplx F) -> Prop) :
  0 < i <= 1 -> eta <= u * i -> fin c -> Rabs (val c - i) <= 4 * u * i ->
  (Z.of_nat h + 1 <= size s0)%Z -> (Z.of_nat h + 1 <= size s1)%Z -> (Z.of_nat h + 1 <= size dest)%Z ->
  (forall k, (k <= h)%nat -> Rabs (a0 k) <= 3 /\ Rabs (b0 k) <= 3 /\ Rabs (a1 k) <= 3 /\ Rabs (b1 k) <= 3) ->
  (forall k, (k <= h)%nat -> WI (fst (gz s0 (Z.of_nat k))) (a0 k) (4 * e) /\ WI (snd (gz s0 (Z.of_nat k))) (b0 k) (4 * e)) ->
  (forall k, (k <= h)%nat -> WI (fst (gz s1 (Z.of_nat k))) (a1 k) (4 * e) /\ WI (snd (gz s1 (Z.of_nat k))) (b1 k) (4 * e)) ->
  (forall dest', size dest' = size dest ->
     (forall k, (k <= h)%nat ->
        WI (fst (gz dest' (Z.of_nat k))) (i * (a0 k * a1 k - b0 k * b1 k)) (164 * e * i) /\
        WI (snd (gz dest' (Z.of_nat k))) (i * (a0 k * b1 k + b0 k * a1 k)) (164 * e * i)) -> Q dest') ->
  WP (elementwise_complex_product (Z.of_nat h + 1) s0 s1 dest c) Q.
Proof.
  intros Hi Hetai Fc Hc S0 S1 Sd HB H0 H1 HQ. unfold elementwise_complex_product. pose proof fu0 as Hu0.
  apply wp_for with (P := fun j (d : list (cplx F)) => size d = size dest /\
    forall k, (Z.of_nat k < j)%Z ->
        WI (fst (gz d (Z.of_nat k))) (i * (a0 k * a1 k - b0 k * b1 k)) (164 * e * i) /\
        WI (snd (gz d (Z.of_nat k))) (i * (a0 k * b1 k + b0 k * a1 k)) (164 * e * i)).
  - split; [reflexivity|lia].
  - intros j d Hj [Hs Hk]. apply wp_bind, (wp_rd ((n0, n0) : cplx F)); [lia|].
    apply wp_bind, (wp_rd ((n0, n0) : cplx F)); [lia|].
    apply wp_wr; [lia|].
    rewrite size_upd. split; [exact Hs|]. intros k Hk'. rewrite get_upd by lia.
    destruct (Z.eqb_spec j (Z.of_nat k)) as [->|Hne]; [|apply Hk; lia].
    assert (Hkh : (k <= h)%nat) by lia.
    destruct (HB k Hkh) as (B1 & B2 & B3 & B4). destruct (H0 k Hkh) as [[FX1 X1] [FX2 X2]]. destruct (H1 k Hkh) as [[FY1 Y1] [FY2 Y2]].
    set (x := gz s0 (Z.of_nat k)) in *. set (y := gz s1 (Z.of_nat k)) in *.
    destruct (scaled_bounds (val c) _ _ i _ _ e u Hi Hu0 Hue He Hc X1 Y1 B1 B3) as (G1 & G2 & G3).
    destruct (scaled_bounds (val c) _ _ i _ _ e u Hi Hu0 Hue He Hc X2 Y2 B2 B4) as (G4 & G5 & _).
    pose proof (scaled_err (val c) _ _ i _ _ e u Hi Hu0 Hue He Hc X1 Y1 B1 B3) as P1.
    pose proof (scaled_err (val c) _ _ i _ _ e u Hi Hu0 Hue He Hc X2 Y2 B2 B4) as P2.
    pose proof (scaled_err (val c) _ _ i _ _ e u Hi Hu0 Hue He Hc X1 Y2 B1 B4) as P3.
    pose proof (scaled_err (val c) _ _ i _ _ e u Hi Hu0 Hue He Hc X2 Y1 B2 B3) as P4.
    pose proof (scaled_abs (val c) _ _ i _ _ e u Hi Hu0 Hue He Hc X1 Y1 B1 B3) as A1.
    pose proof (scaled_abs (val c) _ _ i _ _ e u Hi Hu0 Hue He Hc X2 Y2 B2 B4) as A2.
    pose proof (scaled_abs (val c) _ _ i _ _ e u Hi Hu0 Hue He Hc X1 Y2 B1 B4) as A3.
    pose proof (scaled_abs (val c) _ _ i _ _ e u Hi Hu0 Hue He Hc X2 Y1 B2 B3) as A4.
    assert (Hui : 2 * (u * i) <= e * i) by (rewrite <- Rmult_assoc; apply Rmult_le_compat_r; lra).
    assert (Hui0 : 0 <= u * i) by (apply Rmult_le_pos; lra).
    assert (HU : forall a b, a <= 10 * i -> b <= 10 * i -> 6 * u * (a + b) <= 120 * (u * i)).
    { intros a b Ha Hb. apply Rle_trans with (6 * u * (20 * i)); [apply Rmult_le_compat_l; lra|lra]. }
    destruct (af_re _ _ _ _ _ HAF c (fst x) (snd x) (fst y) (snd y)) as [FR ER]; auto; try lra.
    destruct (af_im _ _ _ _ _ HAF c (fst x) (snd x) (fst y) (snd y)) as [FI EI]; auto; try lra.
    pose proof (HU _ _ A1 A2) as U1. pose proof (HU _ _ A3 A4) as U2.
    unfold cmul, cscale. cbn [fst snd].
    split; (split; [assumption|]).
    + set (t := n_sub _ _) in *.
      replace (val t - i * (a0 k * a1 k - b0 k * b1 k)) with
        ((val t - (val c * val (fst x) * val (fst y) - val c * val (snd x) * val (snd y))) +
         ((val c * val (fst x) * val (fst y) - i * (a0 k * a1 k)) - (val c * val (snd x) * val (snd y) - i * (b0 k * b1 k)))) by ring.
      eapply Rle_trans; [apply Rabs_triang|].
      pose proof (Rabs_triang (val c * val (fst x) * val (fst y) - i * (a0 k * a1 k)) (- (val c * val (snd x) * val (snd y) - i * (b0 k * b1 k)))) as HT.
      rewrite Rabs_Ropp in HT.
      match type of HT with Rabs (?a + - ?b) <= _ => change (a + - b) with (a - b) in HT end. rewrite (Rmult_assoc 164). lra.
    + set (t := n_add _ _) in *.
      replace (val t - i * (a0 k * b1 k + b0 k * a1 k)) with
        ((val t - (val c * val (fst x) * val (snd y) + val c * val (snd x) * val (fst y))) +
         ((val c * val (fst x) * val (snd y) - i * (a0 k * b1 k)) + (val c * val (snd x) * val (fst y) - i * (b0 k * a1 k)))) by ring.
      eapply Rle_trans; [apply Rabs_triang|].
      pose proof (Rabs_triang (val c * val (fst x) * val (snd y) - i * (a0 k * b1 k)) (val c * val (snd x) * val (fst y) - i * (b0 k * a1 k))) as HT.
      rewrite (Rmult_assoc 164). lra.
  - intros d [Hs Hk]. apply HQ; [exact Hs|]. intros k Hk'. apply Hk. lia.
Qed.

(** ** The convolution *)
Lemma wp_fbig m f sz (s0 : list (car F)) o0 (s1 : list (car F)) o1 (dest : list (car F)) od (fn gn : nat -> R)
  (Q : fftconv F * list (car F) -> Prop) :
  fft_shape m f -> (MINIMUM_SIZE_FOR_FFTW_CONVOLUTION <= sz <= m)%Z -> (m <= 2 ^ 31)%Z ->
  (0 <= o0 /\ o0 + sz <= size s0 /\ 0 <= o1 /\ o1 + sz <= size s1 /\ 0 <= od /\ od + sz <= size dest)%Z ->
  (forall k, (0 <= k < sz)%Z -> fin (g0 s0 (o0 + k)%Z) /\ val (g0 s0 (o0 + k)%Z) = fn (Z.to_nat k)) ->
  (forall k, (0 <= k < sz)%Z -> fin (g0 s1 (o1 + k)%Z) /\ val (g0 s1 (o1 + k)%Z) = gn (Z.to_nat k)) ->
  rsum (Z.to_nat sz) (fun j => Rabs (fn j)) <= 3 -> rsum (Z.to_nat sz) (fun j => Rabs (gn j)) <= 3 ->
  (forall f' dest', fft_shape m f' -> size dest' = size dest ->
     (forall i, (od <= i < od + sz)%Z -> WI (g0 dest' i) (conv fn gn (Z.to_nat (i - od))) (400 * e) /\ out (g0 dest' i)) ->
     Q (f', dest')) ->
  WP (fft_convolve_same_size E f sz s0 o0 s1 o1 dest od) Q.
Proof.
  intros HI Hsz Hm31 Hb H0 H1 L0 L1 HQ.
  pose proof HI as (Hmax & Hs_in & Hs_out & Hs_cin & Hs_cout & Hs_tmp & Hpl_r & Hpl_c).
  unfold MINIMUM_SIZE_FOR_FFTW_CONVOLUTION in Hsz.
  unfold fft_convolve_same_size. rewrite Hmax.
  destruct (Z.ltb_spec (m + 2047) sz) as [?|_]; [lia|].
  destruct (Z.leb_spec sz 0) as [?|_]; [lia|].
  destruct (Z.ltb_spec sz MINIMUM_SIZE_FOR_FFTW_CONVOLUTION) as [Hc|_]; [unfold MINIMUM_SIZE_FOR_FFTW_CONVOLUTION in Hc; lia|].
  destruct (round_up_shape (2 * sz) ltac:(lia)) as (q & Hq & Hr & Hqs).
  destruct (round_up_shape (2 * m) ltac:(lia)) as (p & Hp & Hrm & Hps).
  assert (Hqp : (0 < q <= p)%Z) by lia.
  rewrite Hrm in *.
  assert (HP : Z.quot (2048 * p) ROUNDING = p) by (unfold ROUNDING; rewrite Z.mul_comm; apply Z.quot_mul; lia).
  rewrite HP in *. cbv zeta. rewrite Hr.
  set (x := fun i => if (i <? Z.to_nat sz)%nat then fn i else 0).
  set (y := fun i => if (i <? Z.to_nat sz)%nat then gn i else 0).
  set (h := Z.to_nat (1024 * q)).
  assert (Hh : (1024 <= h)%nat) by (unfold h; lia).
  assert (Hhsz : (Z.to_nat sz <= h)%nat) by (unfold h; lia).
  replace (2048 * q)%Z with (2 * Z.of_nat h)%Z by (unfold h; lia).
  assert (Hplan : forall pl (Q : list (option Z) * Z -> Prop), plans_shape p pl ->
     (forall pl', plans_shape p pl' -> Q (pl', 2 * Z.of_nat h)%Z) -> WP (memoized_plan E pl (2 * Z.of_nat h)) Q).
  { intros pl Q' Hpl HQ'. replace (2 * Z.of_nat h)%Z with (2048 * q)%Z in * by (unfold h; lia).
    eapply sh_memoized_plan; eauto. }
  assert (Hsx : forall g : nat -> R, rsum (2 * h) (fun j => Rabs (if (j <? Z.to_nat sz)%nat then g j else 0)) =
                 rsum (Z.to_nat sz) (fun j => Rabs (g j))).
  { intros g. rewrite (rsum_extend (Z.to_nat sz) (2 * h)); [|lia|].
    - apply rsum_ext. intros j Hj. destruct (Nat.ltb_spec j (Z.to_nat sz)); [reflexivity|lia].
    - intros j Hj. destruct (Nat.ltb_spec j (Z.to_nat sz)); [lia|apply Rabs_R0]. }
  pose proof (Hsx fn) as Hsx0. pose proof (Hsx gn) as Hsx1. fold x in Hsx0. fold y in Hsx1.
  change (rsum (2 * h) (fun j => Rabs (x j)) = rsum (Z.to_nat sz) (fun j => Rabs (fn j))) in Hsx0.
  change (rsum (2 * h) (fun j => Rabs (y j)) = rsum (Z.to_nat sz) (fun j => Rabs (gn j))) in Hsx1.
  (* first transform *)
  apply wp_bind, wp_fcopy; try lia. intros in1 Hsi1 Hi1.
  apply wp_bind, Hplan; auto. intros plr1 Hplr1. cbn [fst snd].
  apply wp_bind. apply (wp_fr2c 7 h in1 (tmp_complex f) x); try lia.
  { intros i Hi. rewrite Hi1 by lia. unfold x.
    destruct (Z.ltb_spec (Z.of_nat i) sz), (Nat.ltb_spec i (Z.to_nat sz)); try lia; [|auto].
    destruct (H0 (Z.of_nat i) ltac:(lia)) as [G1 G2]. rewrite Nat2Z.id in G2. auto. }
  { lra. }
  intros in1' tmp Hsi1' Hst Htmp. cbn [fst snd].
  (* second transform *)
  apply wp_bind, wp_fcopy; try lia. intros in2 Hsi2 Hi2.
  apply wp_bind, Hplan; auto. intros plr2 Hplr2. cbn [fst snd].
  apply wp_bind. apply (wp_fr2c 8 h in2 (r2c_out f) y); try lia.
  { intros i Hi. rewrite Hi2 by lia. unfold y.
    destruct (Z.ltb_spec (Z.of_nat i) sz), (Nat.ltb_spec i (Z.to_nat sz)); try lia; [|auto].
    destruct (H1 (Z.of_nat i) ltac:(lia)) as [G1 G2]. rewrite Nat2Z.id in G2. auto. }
  { lra. }
  intros in2' outc Hsi2' Hso Hout. cbn [fst snd].
  (* product *)
  assert (Hq2 : Z.quot (2 * Z.of_nat h) 2 = Z.of_nat h) by (rewrite Z.mul_comm; apply Z.quot_mul; lia). rewrite Hq2.
  assert (Hh33 : (1 <= 2 * Z.of_nat h <= 2 ^ 33)%Z) by (unfold h; lia).
  destruct (af_scale _ _ _ _ _ HAF (2 * Z.of_nat h)%Z Hh33) as [Fc Hc].
  set (c := n_div n1 (n_of_Z (2 * Z.of_nat h))) in *.
  set (i := / IZR (2 * Z.of_nat h)) in *.
  assert (HZ1 : 1 <= IZR (2 * Z.of_nat h)) by (apply IZR_le; lia).
  assert (Hi01 : 0 < i <= 1).
  { unfold i. split; [apply Rinv_0_lt_compat; lra|]. rewrite <- Rinv_1. apply Rinv_le; lra. }
  assert (Hetai : eta <= u * i).
  { apply Rle_trans with (bpow radix2 (-53) * bpow radix2 (-33)).
    - eapply Rle_trans; [exact Heta|]. rewrite <- bpow_plus. apply bpow_le. lia.
    - apply Rmult_le_compat; [apply bpow_ge_0|apply bpow_ge_0|exact Hu|].
      change (bpow radix2 (-33)) with (/ IZR (2 ^ 33)). unfold i. apply Rinv_le; [lra|]. apply IZR_le. lia. }
  assert (HiR : i = / INR (2 * h)).
  { unfold i. rewrite INR_IZR_INZ. do 2 f_equal. lia. }
  assert (Hhi : INR (S h) * i <= 1025 / 2048).
  { rewrite HiR, S_INR, mult_INR. change (INR 2) with 2.
    assert (H1024 : 1024 <= INR h) by (apply le_INR in Hh; replace (INR 1024) with 1024 in Hh by (rewrite INR_IZR_INZ; reflexivity); exact Hh).
    apply (Rmult_le_reg_r (2 * INR h)); [lra|]. rewrite Rmult_assoc, Rinv_l by lra. lra. }
  assert (Hxa : forall k, Rabs (dft_re (2 * h) x k) <= 3 /\ Rabs (dft_im (2 * h) x k) <= 3 /\
                          Rabs (dft_re (2 * h) y k) <= 3 /\ Rabs (dft_im (2 * h) y k) <= 3).
  { intros k. pose proof (dft_re_abs (2 * h) x k). pose proof (dft_im_abs (2 * h) x k).
    pose proof (dft_re_abs (2 * h) y k). pose proof (dft_im_abs (2 * h) y k). lra. }
  apply wp_bind. apply (wp_fproduct h tmp outc (c2r_in f) c i (dft_re (2 * h) x) (dft_im (2 * h) x)
     (dft_re (2 * h) y) (dft_im (2 * h) y)); try lia; auto.
  intros cin Hscin Hcin.
  apply wp_bind, Hplan; auto. intros plc Hplc. cbn [fst snd].
  assert (Hprod : forall k, Rabs (i * prod_re (2 * h) x y k) <= 18 * i /\ Rabs (i * prod_im (2 * h) x y k) <= 18 * i).
  { intros k. destruct (Hxa k) as (A1 & A2 & A3 & A4). unfold prod_re, prod_im.
    rewrite !Rabs_mult, !(Rabs_pos_eq i) by lra.
    assert (HM : forall a b, Rabs a <= 3 -> Rabs b <= 3 -> Rabs (a * b) <= 9).
    { intros a b Ha Hb'. rewrite Rabs_mult. pose proof (Rabs_pos a). pose proof (Rabs_pos b).
      replace 9 with (3 * 3) by ring. apply Rmult_le_compat; auto. }
    split; rewrite (Rmult_comm 18); apply Rmult_le_compat_l; try lra.
    - eapply Rle_trans; [apply Rabs_triang|]. rewrite Rabs_Ropp. pose proof (HM _ _ A1 A3). pose proof (HM _ _ A2 A4). lra.
    - eapply Rle_trans; [apply Rabs_triang|]. pose proof (HM _ _ A1 A4). pose proof (HM _ _ A2 A3). lra. }
  apply wp_bind. apply (wp_fc2r 9 h cin (c2r_out f) i (fun k => i * prod_re (2 * h) x y k) (fun k => i * prod_im (2 * h) x y k)); try lia.
  { lra. } { lra. } { intros k _. apply Hprod. } { intros k _. apply Hprod. }
  { intros k Hk. apply Hcin, Hk. }
  intros cin' cout Hscin' Hscout Hcout. cbn [fst snd].
  apply wp_bind. apply wp_blit with (d := n0); [lia|].
  intros dest' Hsd Hd. apply wp_ok, HQ; auto.
  - unfold fft_shape. cbn [maximum_input_size r2c_in r2c_out c2r_in c2r_out tmp_complex r2c_plans c2r_plans].
    rewrite Hrm, HP.
    repeat split; try lia; try apply Hplr2; try apply Hplc.
  - intros k Hk. specialize (Hd k ltac:(lia)). rewrite Hd.
    destruct (Z.leb_spec od k), (Z.ltb_spec k (od + sz)); try lia. cbn [andb].
    set (j := Z.to_nat (k - od)). replace (0 + (k - od))%Z with (Z.of_nat j) by (unfold j; lia).
    destruct (Hcout j ltac:(unfold j, h; lia)) as (Fj & Oj & re' & im' & Hre & Him & Ej).
    split; [|exact Oj]. split; [exact Fj|].
    assert (Hcv : conv fn gn j = conv x y j).
    { apply conv_ext; intros l Hl; unfold x, y; destruct (Nat.ltb_spec l (Z.to_nat sz)); auto; unfold j in Hl; lia. }
    rewrite Hcv. rewrite HiR in Hre, Him.
    pose proof (idft_near h (Z.to_nat sz) x y re' im' (164 * e * / INR (2 * h)) j ltac:(lia) Hhsz ltac:(unfold j; lia)) as HN.
    assert (HN' : Rabs (idft (2 * h) re' im' j - conv x y j) <= 4 * INR (S h) * (164 * e * / INR (2 * h))).
    { apply HN; auto.
      - intros l Hl. unfold x. destruct (Nat.ltb_spec l (Z.to_nat sz)); auto; lia.
      - intros l Hl. unfold y. destruct (Nat.ltb_spec l (Z.to_nat sz)); auto; lia. }
    rewrite <- HiR in HN'.
    replace (val (g0 cout (Z.of_nat j)) - conv x y j) with ((val (g0 cout (Z.of_nat j)) - idft (2 * h) re' im' j) + (idft (2 * h) re' im' j - conv x y j)) by ring.
    eapply Rle_trans; [apply Rabs_triang|]. pose proof fu0 as Hu0.
    assert (G1 : e * (INR (S h) * i) <= e * (1025 / 2048)) by (apply Rmult_le_compat_l; lra).
    replace (4 * INR (S h) * (164 * e * i)) with (656 * (e * (INR (S h) * i))) in HN' by ring.
    replace (e * (80 * INR (S h) * i)) with (80 * (e * (INR (S h) * i))) in Ej by ring. lra.
Qed.
End Fft.

(** ** The FFT convolution of two approximated sequences *)
Lemma frsum_near k f x y A : (forall i, (i < k)%nat -> near f (A i) (x i) (y i)) ->
  near f (rsum k A) (rsum k x) (rsum k y).
Proof.
  induction k as [|k IH]; intros H; cbn [rsum].
  - unfold near. rewrite Rminus_diag_eq, Rabs_R0 by reflexivity. lra.
  - apply near_plus; auto.
Qed.

Section FftConv.
Context (F : num) (E : env F) (fin one raw : car F -> Prop) (val : car F -> R) (u eps eta e : R) {thr : exn -> Prop} {abt : Prop}.
Hypothesis HA : arith F fin one raw val u eps eta.
Hypothesis HAF : arith_fft F fin val u eta.
Hypothesis HF : fft_accurate_in fin val E e.
Hypothesis Hu : bpow radix2 (-53) <= u.
Hypothesis Hue : 2 * u <= e.
Hypothesis He : e <= / 4096.
Hypothesis Heta0 : 0 < eta.
Hypothesis Heta : eta <= bpow radix2 (-1010).
Variables (n : nat) (fa fb a b : R) (p s : nat -> R).
Hypothesis Hfa : 1 <= fa <= 2.
Hypothesis Hfb : 1 <= fb <= 2.
Hypothesis Ha : 0 <= a <= 1.
Hypothesis Hb : 0 <= b <= 1.
Hypothesis Hp0 : forall k, 0 <= p k.
Hypothesis Hs0 : forall k, 0 <= s k.
Hypothesis Hp1 : rsum (S n) p <= 1.
Hypothesis Hs1 : rsum (S n) s <= 1.
Hypothesis Hna : INR (S n) * a <= 1.
Hypothesis Hnb : INR (S n) * b <= 1.
Hypothesis Hn31 : (Z.of_nat n < 2 ^ 31)%Z.
Notation AN := (anear fin val).

Lemma fconv_near x y j : (j <= n)%nat ->
  (forall k, (k <= j)%nat -> near fa a (x k) (p k)) -> (forall k, (k <= j)%nat -> near fb b (y k) (s k)) ->
  near (fconv_fac u n fa fb) (fconv_abs u eta n fa fb a b) (conv x y j) (conv p s j).
Proof.
  intros Hj Hx Hy. pose proof (fu0 u Hu) as Hu0.
  assert (H : near (fa * fb) (rsum (S j) (fun k => b * fa * p k + a * fb * s (j - k)%nat + a * b)) (conv x y j) (conv p s j)).
  { unfold conv. apply frsum_near. intros k Hk. apply near_mult; auto; [apply Hx|apply Hy]; lia. }
  pose proof (pow_ge1 u (n + 2) ltac:(lra)) as HG.
  eapply near_weaken; [apply conv_nonneg; auto| | |exact H].
  - unfold fconv_fac. assert (0 <= fa * fb) by (apply Rmult_le_pos; lra). nra.
  - eapply Rle_trans; [apply (fterm_sum n fa fb a b p s); auto|].
    assert (H1 : 0 <= b * fa) by (apply Rmult_le_pos; lra). assert (H2 : 0 <= a * fb) by (apply Rmult_le_pos; lra).
    assert (H3 : 0 <= a * b) by (apply Rmult_le_pos; lra).
    assert (H7 : 0 <= INR (S n) * (a * b)) by (apply Rmult_le_pos; [apply pos_INR|lra]).
    assert (H8 : 0 <= INR (n + 2) * eta) by (apply Rmult_le_pos; [apply pos_INR|lra]).
    unfold fconv_abs. set (Y := b * fa + a * fb + INR (S n) * (a * b) + INR (n + 2) * eta).
    assert (HY : 0 <= Y) by (unfold Y; lra).
    apply Rle_trans with (1 * Y); [unfold Y; lra|apply Rmult_le_compat_r; lra].
Qed.

Lemma fl1_near (x : nat -> R) q f c m : (m <= S n)%nat -> 1 <= f <= 2 -> 0 <= c -> INR (S n) * c <= 1 ->
  (forall k, 0 <= q k) -> rsum (S n) q <= 1 ->
  (forall k, (k < m)%nat -> near f c (x k) (q k)) -> rsum m (fun k => Rabs (x k)) <= 3.
Proof.
  intros Hm Hf Hc Hnc Hq Hq1 Hx.
  apply Rle_trans with (rsum m (fun k => f * q k + c)).
  { apply rsum_le. intros k Hk. apply near_abs; [apply Hq|apply Hx, Hk]. }
  rewrite rsum_plus, rsum_const, rsum_scal.
  assert (H1 : rsum m q <= 1) by (eapply Rle_trans; [apply rsum_incr; [exact Hm|auto]|exact Hq1]).
  assert (H0 : 0 <= rsum m q) by (apply rsum_nonneg; auto).
  assert (H2 : INR m * c <= INR (S n) * c) by (apply Rmult_le_compat_r; [exact Hc|apply le_INR, Hm]).
  assert (f * rsum m q <= 2) by nra. lra.
Qed.

Lemma wp_ffft_convolve f sz (s0 : list (car F)) o0 (s1 : list (car F)) o1 (dest : list (car F)) od (Q : fftconv F * list (car F) -> Prop) :
  fft_shape (Z.of_nat n + 1) f -> (sz <= Z.of_nat n + 1)%Z ->
  (0 < sz -> 0 <= o0 /\ o0 + sz <= size s0 /\ 0 <= o1 /\ o1 + sz <= size s1 /\ 0 <= od /\ od + sz <= size dest)%Z ->
  (forall k, (0 <= k < sz)%Z -> AN fa a (get n0 s0 (o0 + k)) (p (Z.to_nat k))) ->
  (forall k, (0 <= k < sz)%Z -> AN fb b (get n0 s1 (o1 + k)) (s (Z.to_nat k))) ->
  (forall f' dest', fft_shape (Z.of_nat n + 1) f' -> size dest' = size dest ->
     (forall i, (od <= i < od + sz)%Z ->
        AN (fconv_fac u n fa fb) (fconv_abs u eta n fa fb a b + 400 * e) (get n0 dest' i) (conv p s (Z.to_nat (i - od)))) ->
     Q (f', dest')) ->
  wp thr abt (fft_convolve_same_size E f sz s0 o0 s1 o1 dest od) Q.
Proof.
  intros HI Hsz Hbd H0 H1 HQ. pose proof (fu0 u Hu) as Hu0.
  destruct (Z.ltb_spec sz MINIMUM_SIZE_FOR_FFTW_CONVOLUTION) as [Hs|Hs].
  - unfold fft_convolve_same_size. rewrite (proj1 HI).
    destruct (Z.ltb_spec (Z.of_nat n + 1 + 2047) sz) as [?|_]; [lia|].
    destruct (Z.leb_spec sz 0) as [Hz|Hz]; [apply wp_ok, HQ; auto; lia|].
    destruct (Z.ltb_spec sz MINIMUM_SIZE_FOR_FFTW_CONVOLUTION) as [_|?]; [|lia].
    apply wp_bind. apply (wp_fconvolve F fin one raw val u eps eta HA Hu0 Heta0 n fa fb a b p s); auto.
    intros dest' Hd Hv. apply wp_ok, HQ; auto. intros i Hi.
    eapply anear_weaken; [apply conv_nonneg; auto|apply Rle_refl| |apply Hv, Hi]. lra.
  - assert (Hmin : (0 < MINIMUM_SIZE_FOR_FFTW_CONVOLUTION)%Z) by reflexivity.
    set (fn := fun j => val (get n0 s0 (o0 + Z.of_nat j))). set (gn := fun j => val (get n0 s1 (o1 + Z.of_nat j))).
    assert (Hfn : forall k, (k < Z.to_nat sz)%nat -> near fa a (fn k) (p k)).
    { intros k Hk. destruct (H0 (Z.of_nat k) ltac:(lia)) as [_ G]. rewrite Nat2Z.id in G. exact G. }
    assert (Hgn : forall k, (k < Z.to_nat sz)%nat -> near fb b (gn k) (s k)).
    { intros k Hk. destruct (H1 (Z.of_nat k) ltac:(lia)) as [_ G]. rewrite Nat2Z.id in G. exact G. }
    assert (Hz0 : fin n0 /\ val n0 = 0).
    { destruct (ar_int _ _ _ _ _ _ _ _ HA 0 ltac:(lia)) as (G1 & _ & _ & G2). auto. }
    apply (wp_fbig F E fin val u eta e HAF Hz0 HF Hu Hue He Heta (fun _ => True) (fun _ _ _ _ => I) (Z.of_nat n + 1) f sz s0 o0 s1 o1 dest od fn gn); auto; try lia.
    + intros k Hk. split; [apply H0, Hk|]. unfold fn. rewrite Z2Nat.id by lia. reflexivity.
    + intros k Hk. split; [apply H1, Hk|]. unfold gn. rewrite Z2Nat.id by lia. reflexivity.
    + apply (fl1_near fn p fa a); auto; [lia|lra].
    + apply (fl1_near gn s fb b); auto; [lia|lra].
    + intros f' dest' HI' Hd Hv. apply HQ; auto. intros i Hi. destruct (Hv i Hi) as [[Fv Ev] _].
      split; [exact Fv|]. set (j := Z.to_nat (i - od)) in *.
      pose proof (fconv_near fn gn j ltac:(unfold j; lia) ltac:(intros; apply Hfn; unfold j in *; lia)
        ltac:(intros; apply Hgn; unfold j in *; lia)) as HN.
      unfold near in *. replace (val (get n0 dest' i) - conv p s j) with ((val (get n0 dest' i) - conv fn gn j) + (conv fn gn j - conv p s j)) by ring.
      eapply Rle_trans; [apply Rabs_triang|]. lra.
Qed.
End FftConv.
