(** * AccNewStep: the loops of ecdf1_new in binary64. *)
From Coquelicot Require Import Coquelicot.
From Flocq Require Import Core.Core IEEE754.BinarySingleNaN.
From Coq Require Import ZArith Reals List Bool Lia Lra String Permutation Sorted Factorial.
From Verif Require Import Base Num Hoare Common PoissonPmf FFTConv Ecdf1New RSum Binary64 Binary64Facts.
From Verif Require Import Spec SpecFacts Cells Events XEcdf2 XEcdf1New NewMath SafeFft Binary64Main.
From Verif Require Import ErrBound B64Round AccPmf AccConv FftMath AccProd AccFft AccGrow AccStep AccEcdf2 AccNewPmf AccNewConv AccNewMath.
Import List. Import ListNotations.
Local Open Scope R_scope.

Section Step.
Context (L : libm) (E : env (Bnum L)) (eps : R).
Notation BN := (Bnum L).
Hypothesis HL : libm_accurate L eps.
Hypothesis Heps : u64 <= eps.
Context {thr : exn -> Prop} {abt : Prop}.
Notation WP := (wp thr abt).

Section Table.
Variable n : nat.
Hypothesis Hn1 : (1 <= n)%nat.
Notation N := (INR n).
Hypothesis Hn : 65536 * (N * N) * eps <= 1.
Notation perr := (perr eps).

(** a computed rate *)
Definition rate (lh : f64) (l : R) : Prop :=
  is_finite lh = true /\ Rabs (B2R lh - l) <= 3 * u64 * l /\ 0 <= l <= N /\ (0 < l -> 0 < B2R lh) /\ (l = 0 -> B2R lh = 0).

Lemma rate_sub (x p : f64) : is_finite x = true -> is_finite p = true -> 0 <= B2R p -> B2R p <= B2R x -> B2R x <= 1 ->
  rate (Bmult mode_NE (b64_of_Z (Z.of_nat n)) (Bminus mode_NE x p)) (rn n * (B2R x - B2R p)).
Proof.
  intros Fx Fp H0 H1 H2. destruct (lam64 n x p Hn1 (n_small eps Heps n Hn1 Hn) Fx Fp H0 H1 H2) as (F & Er & Hp & Hz).
  pose proof (N_ge1 n Hn1) as HN. assert (HrN : rn n = N) by (unfold rn; rewrite <- INR_IZR_INZ; reflexivity).
  split; [exact F|]. split; [exact Er|]. rewrite HrN.
  split; [split; [apply Rmult_le_pos; lra|]|split].
  - rewrite <- (Rmult_1_r N) at 2. apply Rmult_le_compat_l; lra.
  - intros Hl. apply Hp. apply Rnot_le_lt. intros Hle. assert (B2R x - B2R p = 0) by lra. rewrite H, Rmult_0_r in Hl. lra.
  - intros Hl. apply Hz. apply Rmult_integral in Hl. destruct Hl; lra.
Qed.

Lemma rate_eq lh l : rate lh l -> @n_eq BN lh n0 = true <-> l = 0.
Proof.
  intros (F & _ & Hl & Hp & Hz). change (@n_eq BN lh n0) with (Beqb lh (b64_of_Z 0)). destruct zero_ok as [F0 V0].
  rewrite Beqb_correct, V0 by auto. split.
  - intros H. destruct (Rle_lt_or_eq_dec 0 l (proj1 Hl)) as [H0|H0]; [|auto]. specialize (Hp H0).
    rewrite Req_bool_false in H by lra. discriminate.
  - intros H. rewrite (Hz H). apply Req_bool_true. reflexivity.
Qed.
Lemma rate_nonneg lh l : rate lh l -> 0 <= B2R lh.
Proof.
  intros (F & _ & Hl & Hp & Hz). destruct (Rle_lt_or_eq_dec 0 l (proj1 Hl)) as [H0|H0]; [specialize (Hp H0); lra|].
  rewrite Hz by auto. lra.
Qed.

Lemma formula_perr lh l k : rate lh l -> 0 < l -> (k <= n)%nat ->
  let r := @pmf_formula BN lh (lm_log L lh) (lm_lgamma L (Z.of_nat k + 1)) (Z.of_nat k) in
  fabs r (pois l k) (perr l k).
Proof.
  intros (F & Er & Hl & Hp & Hz) H0 Hk. cbv zeta. split.
  - apply (pmf_formula_near L eps HL Heps n Hn1 Hn lh l k F (Hp H0) ltac:(lra) Er Hk).
  - apply (pmf_formula_wt L eps HL Heps n Hn1 Hn lh l k F (Hp H0) ltac:(lra) Er Hk).
Qed.

Lemma fabs_exact (v : f64) x e : is_finite v = true -> B2R v = x -> 0 <= e -> fabs v x e.
Proof. intros F V He. split; [exact F|]. rewrite V, Rminus_diag_eq, Rabs_R0 by reflexivity. exact He. Qed.

Lemma wp_compute_perr g k (lh : f64) l (Q : pmfgen BN -> Prop) :
  pmfgen64 L (Z.of_nat n + 1) g -> (0 <= k <= Z.of_nat n + 1)%Z -> rate lh l ->
  (forall g', pmfgen64 L (Z.of_nat n + 1) g' ->
     (forall i, (0 <= i <= k)%Z -> (i <= Z.of_nat n)%Z -> fabs (gb (get_array g') i) (pois l (Z.to_nat i)) (perr l (Z.to_nat i))) -> Q g') ->
  WP (compute_array E g k (lh : car BN)) Q.
Proof.
  intros (Hg1 & Hg2 & Hg3 & Hg4) Hk Hr HQ. unfold compute_array. pose proof Hr as (Fl & _ & Hl & _ & _).
  apply wp_bind, wp_cassert_true; [apply Z.leb_le; lia|].
  apply wp_bind, wp_cassert_true; [rewrite Hg1; apply Z.leb_le; lia|].
  pose proof (fin_neg L lh Fl (rate_nonneg lh l Hr)) as Hneg. rewrite Hneg.
  destruct (@n_eq BN lh n0) eqn:Heq.
  - apply (rate_eq lh l Hr) in Heq. subst l.
    apply wp_bind, wp_wr; [change (@size (car BN) (pmf_array g)) with (@size f64 (pmf_array g)); lia|].
    apply wp_bind. destruct zero_ok as [F0 V0]. destruct one_ok as [F1 V1].
    apply wp_for with (P := fun i (a : list f64) => size a = (Z.of_nat n + 2)%Z /\
       forall j, (0 <= j < i)%Z -> fabs (gb a j) (pois 0 (Z.to_nat j)) (perr 0 (Z.to_nat j))).
    + split; [rewrite size_upd; change (@size f64 (pmf_array g) = Z.of_nat n + 2)%Z; lia|].
      intros j Hj. assert (j = 0)%Z as -> by lia.
      change (fabs (gb (upd (pmf_array g) (Z.to_nat 0) (b64_of_Z 1)) 0) (pois 0 (Z.to_nat 0)) (perr 0 (Z.to_nat 0))).
      rewrite get_upd by (try lia; change (@size f64 (pmf_array g)) with (@size (car BN) (pmf_array g)); change (@size (car BN) (pmf_array g)) with (@size f64 (pmf_array g)); lia).
      simpl (0 =? 0)%Z. cbv iota. apply fabs_exact; [exact F1| |apply (perr_pos eps Heps n Hn1); lra].
      rewrite V1, pois_zero. reflexivity.
    + intros i a Hi [Hs Ha]. apply wp_wr; [change (@size (car BN) a) with (@size f64 a); lia|]. rewrite size_upd. split; auto.
      intros j Hj. change (fabs (gb (upd a (Z.to_nat i) (b64_of_Z 0)) j) (pois 0 (Z.to_nat j)) (perr 0 (Z.to_nat j))).
      rewrite get_upd by lia. destruct (Z.eqb_spec i j) as [->|]; [|apply Ha; lia].
      apply fabs_exact; [exact F0| |apply (perr_pos eps Heps n Hn1); lra].
      rewrite V0, pois_zero. destruct (Nat.eqb_spec (Z.to_nat j) 0); [lia|reflexivity].
    + intros a [Hs Ha]. apply wp_ok, HQ.
      * split; [exact Hg1|]. split; [exact Hg2|]. split; [exact Hg3|]. cbn [pmf_array]. lia.
      * intros i Hi Hin. unfold get_array. cbn [pmf_array]. apply Ha; lia.
  - assert (Hl0 : 0 < l).
    { destruct (Rle_lt_or_eq_dec 0 l (proj1 Hl)) as [H0|H0]; [exact H0|]. symmetry in H0.
      apply (rate_eq lh l Hr) in H0. congruence. }
    apply wp_bind.
    apply wp_for with (P := fun i (a : list f64) => size a = (Z.of_nat n + 2)%Z /\
       forall j, (0 <= j < i)%Z -> (j <= Z.of_nat n)%Z -> fabs (gb a j) (pois l (Z.to_nat j)) (perr l (Z.to_nat j))).
    + split; [|lia]. change (@size f64 (pmf_array g) = Z.of_nat n + 2)%Z. lia.
    + intros i a Hi [Hs Ha]. apply wp_bind.
      apply (wp_rd (b64_of_Z 0)); [change (@size (car BN) (log_gamma_LUT g)) with (@size f64 (log_gamma_LUT g)); lia|].
      apply wp_wr; [change (@size (car BN) a) with (@size f64 a); lia|]. rewrite size_upd. split; auto. intros j Hj Hjn.
      rewrite get_upd by lia. destruct (Z.eqb_spec i j) as [->|].
      * change (@get (car BN) (b64_of_Z 0) (log_gamma_LUT g) (j + 1)) with (gb (log_gamma_LUT g) (j + 1)).
        rewrite Hg3 by lia. pose proof (formula_perr lh l (Z.to_nat j) Hr Hl0 ltac:(lia)) as HP.
        cbv zeta in HP. rewrite Z2Nat.id in HP by lia. exact HP.
      * apply Ha; lia.
    + intros a [Hs Ha]. apply wp_ok, HQ.
      * split; [exact Hg1|]. split; [exact Hg2|]. split; [exact Hg3|]. cbn [pmf_array]. lia.
      * intros i Hi Hin. unfold get_array. cbn [pmf_array]. apply Ha; lia.
Qed.

Lemma wp_evaluate_perr g k (lh : f64) l (Q : car BN -> Prop) :
  pmfgen64 L (Z.of_nat n + 1) g -> (0 <= k <= Z.of_nat n)%Z -> rate lh l ->
  (forall v : f64, fabs v (pois l (Z.to_nat k)) (perr l (Z.to_nat k)) -> Q v) ->
  WP (evaluate_pmf E g (lh : car BN) k) Q.
Proof.
  intros (Hg1 & Hg2 & Hg3 & Hg4) Hk Hr HQ. unfold evaluate_pmf. pose proof Hr as (Fl & _ & Hl & _ & _).
  apply wp_bind, wp_cassert_true; [exact (fin_le L lh Fl (rate_nonneg lh l Hr))|].
  apply wp_bind, wp_cassert_true; [apply Z.leb_le; lia|].
  destruct (@n_eq BN lh n0) eqn:Heq.
  - apply (rate_eq lh l Hr) in Heq. subst l. apply wp_ok, HQ.
    destruct zero_ok as [F0 V0]. destruct one_ok as [F1 V1].
    destruct (Z.eqb_spec k 0) as [->|Hk0].
    + apply fabs_exact; [exact F1| |apply (perr_pos eps Heps n Hn1); lra]. rewrite pois_zero. exact V1.
    + apply fabs_exact; [exact F0| |apply (perr_pos eps Heps n Hn1); lra]. rewrite pois_zero.
      destruct (Nat.eqb_spec (Z.to_nat k) 0); [lia|exact V0].
  - assert (Hl0 : 0 < l).
    { destruct (Rle_lt_or_eq_dec 0 l (proj1 Hl)) as [H0|H0]; [exact H0|]. symmetry in H0.
      apply (rate_eq lh l Hr) in H0. congruence. }
    apply wp_bind. apply (wp_rd (b64_of_Z 0)); [change (@size (car BN) (log_gamma_LUT g)) with (@size f64 (log_gamma_LUT g)); lia|].
    apply wp_ok, HQ.
    change (@get (car BN) (b64_of_Z 0) (log_gamma_LUT g) (k + 1)) with (gb (log_gamma_LUT g) (k + 1)).
    rewrite Hg3 by lia. pose proof (formula_perr lh l (Z.to_nat k) Hr Hl0 ltac:(lia)) as HP.
    cbv zeta in HP. rewrite Z2Nat.id in HP by lia. exact HP.
Qed.

Lemma N_eps2 : 500 * eps * (1 + N) <= 2 / 100.
Proof.
  pose proof (Neps eps Heps n Hn1 Hn) as [H0 H1]. pose proof (eps_small eps Heps n Hn1 Hn). lra.
Qed.
Lemma perr_small l k : 0 <= l <= N -> (k <= n)%nat -> 0 <= perr l k <= 500 * eps * (1 + l) /\ 500 * eps * (1 + l) <= 2 / 100.
Proof.
  intros Hl Hk. pose proof N_eps2 as H2. pose proof (eps_pos eps Heps) as He. split; [split; [apply (perr_pos eps Heps n Hn1); lra|]|].
  - eapply Rle_trans; [|apply (perr_sum eps Heps n Hn1 Hn l (S k) Hl); lia].
    apply (rsum_term (S k) (perr l) k); [lia|]. intros; apply (perr_pos eps Heps n Hn1); lra.
  - assert (eps * l <= eps * N) by (apply Rmult_le_compat_l; lra). lra.
Qed.

(** ** The loop over j *)
Lemma sub_err (d c p : f64) x y q ex ey ep : fabs d x ex -> fabs c y ey -> fabs p q ep ->
  Rabs x <= 3 / 2 -> ex <= 1 / 2 -> Rabs y <= 3 / 2 -> ey <= 1 / 2 -> 0 <= q <= 1 -> ep <= 2 / 100 ->
  fabs (Bminus mode_NE d (Bmult mode_NE c p)) (x - y * q) (ex + ey + 2 * ep + 8 * u64).
Proof.
  intros [Fd Hd] [Fc Hc] [Fp Hp] Hx Hex Hy Hey Hq Hep.
  pose proof u64_pos as Hu. pose proof eta64_pos as He. pose proof (eta_u n Hn1) as Heu.
  assert (Hus : u64 <= / 65536) by (unfold u64; change (/ 65536) with (bpow radix2 (-16)); apply bpow_le; lia).
  assert (H60 : bpow radix2 60 = 1152921504606846976) by (simpl; lra).
  assert (Hca : Rabs (B2R c) <= 2).
  { replace (B2R c) with ((B2R c - y) + y) by ring. eapply Rle_trans; [apply Rabs_triang|]. lra. }
  assert (Hpa : Rabs (B2R p) <= 102 / 100).
  { replace (B2R p) with ((B2R p - q) + q) by ring. eapply Rle_trans; [apply Rabs_triang|]. rewrite (Rabs_pos_eq q) by lra. lra. }
  assert (Hcp : Rabs (B2R c * B2R p) <= 204 / 100).
  { rewrite Rabs_mult. apply Rle_trans with (2 * (102 / 100)); [|lra]. apply Rmult_le_compat; try apply Rabs_pos; assumption. }
  destruct (mult_err c p Fc Fp) as [Fm Em]; [lra|]. set (z := Bmult mode_NE c p) in *.
  assert (Euz : u64 * Rabs (B2R c * B2R p) <= u64 * (204 / 100)) by (apply Rmult_le_compat_l; lra).
  assert (Hz : Rabs (B2R z - y * q) <= ey + 2 * ep + u64 * (204 / 100) + eta64).
  { replace (B2R z - y * q) with ((B2R z - B2R c * B2R p) + (B2R c * (B2R p - q) + (B2R c - y) * q)) by ring.
    eapply Rle_trans; [apply Rabs_triang|]. pose proof (Rabs_triang (B2R c * (B2R p - q)) ((B2R c - y) * q)) as Ht.
    rewrite (Rabs_mult (B2R c)), (Rabs_mult (B2R c - y)), (Rabs_pos_eq q) in Ht by lra.
    assert (Rabs (B2R c) * Rabs (B2R p - q) <= 2 * ep) by (apply Rmult_le_compat; try apply Rabs_pos; lra).
    assert (Rabs (B2R c - y) * q <= ey * 1) by (apply Rmult_le_compat; try apply Rabs_pos; lra). lra. }
  assert (Hyq : Rabs (y * q) <= 3 / 2).
  { rewrite Rabs_mult, (Rabs_pos_eq q) by lra. apply Rle_trans with (3 / 2 * 1); [|lra]. apply Rmult_le_compat; try apply Rabs_pos; lra. }
  assert (Hdz : Rabs (B2R d - B2R z) <= 45 / 10).
  { replace (B2R d - B2R z) with ((B2R d - x) + (x + - (y * q)) + - (B2R z - y * q)) by ring.
    eapply Rle_trans; [apply Rabs_triang|]. pose proof (Rabs_triang (B2R d - x) (x + - (y * q))) as T1. pose proof (Rabs_triang x (- (y * q))) as T2.
    rewrite Rabs_Ropp in T2. rewrite (Rabs_Ropp (B2R z - y * q)). lra. }
  destruct (minus_err d z Fd Fm) as [Fr Er]; [lra|]. split; [exact Fr|].
  assert (u64 * Rabs (B2R d - B2R z) <= u64 * (45 / 10)) by (apply Rmult_le_compat_l; lra).
  replace (B2R (Bminus mode_NE d z) - (x - y * q)) with ((B2R (Bminus mode_NE d z) - (B2R d - B2R z)) + ((B2R d - x) + - (B2R z - y * q))) by ring.
  eapply Rle_trans; [apply Rabs_triang|]. pose proof (Rabs_triang (B2R d - x) (- (B2R z - y * q))) as T1. rewrite Rabs_Ropp in T1. lra.
Qed.

Lemma wp_subtract64 pg I i (c : f64) y ey lh l (dest : list f64) (f : nat -> R) er (Q : list (car BN) -> Prop) :
  pmfgen64 L (Z.of_nat n + 1) pg -> (0 <= i <= I)%Z -> (I < Z.of_nat n)%Z -> rate lh l -> size dest = (Z.of_nat n + 1)%Z ->
  fabs c y ey -> Rabs y <= 3 / 2 -> ey <= 1 / 2 -> er <= 1 / 2 ->
  (forall j, (I < j <= Z.of_nat n)%Z -> fabs (gb dest j) (f (Z.to_nat j)) er /\ Rabs (f (Z.to_nat j)) <= 3 / 2) ->
  (forall dest' : list f64, size dest' = (Z.of_nat n + 1)%Z ->
     (forall j, (I < j <= Z.of_nat n)%Z ->
        fabs (gb dest' j) (f (Z.to_nat j) - y * pois l (Z.to_nat (j - i))) (er + ey + 1000 * eps * (1 + l) + 8 * u64)) -> Q dest') ->
  WP (subtract_exits E (Z.of_nat n) pg I i (c : car BN) (lh : car BN) (dest : list (car BN))) Q.
Proof.
  intros Hpg Hi HI Hr Hs Hc Hy Hey Her Hd HQ. unfold subtract_exits. pose proof Hr as (_ & _ & Hl & _ & _).
  apply wp_for with (P := fun k (d : list f64) => size d = (Z.of_nat n + 1)%Z /\
    forall j, (I < j <= Z.of_nat n)%Z -> if (j <? k)%Z
      then fabs (gb d j) (f (Z.to_nat j) - y * pois l (Z.to_nat (j - i))) (er + ey + 1000 * eps * (1 + l) + 8 * u64)
      else gb d j = gb dest j).
  - split; auto. intros j Hj. destruct (Z.ltb_spec j (I + 1)); [lia|reflexivity].
  - intros k d Hk [Hsd Hdj]. apply wp_bind. apply (wp_rd (b64_of_Z 0)); [change (@size (car BN) d) with (@size f64 d); lia|].
    apply wp_bind. apply (wp_evaluate_perr pg (k - i) lh l); auto; [lia|]. intros p Hp.
    apply wp_wr; [change (@size (car BN) d) with (@size f64 d); lia|]. rewrite size_upd. split; auto. intros j Hj.
    rewrite get_upd by lia. specialize (Hdj j Hj).
    destruct (Z.eqb_spec k j) as [->|Hne].
    + destruct (Z.ltb_spec j j); [lia|]. destruct (Z.ltb_spec j (j + 1)); [|lia].
      destruct (Hd j Hj) as [Hdd Hfj].
      destruct (perr_small l (Z.to_nat (j - i)) Hl ltac:(lia)) as [[Hp0 Hp1] Hp2].
      pose proof (pois_pos l (Z.to_nat (j - i)) (proj1 Hl)). pose proof (pois_le1 l (Z.to_nat (j - i)) (proj1 Hl)).
      change (fabs (Bminus mode_NE (gb d j) (Bmult mode_NE c p)) (f (Z.to_nat j) - y * pois l (Z.to_nat (j - i)))
        (er + ey + 1000 * eps * (1 + l) + 8 * u64)).
      rewrite Hdj. eapply fabs_weaken; [|apply (sub_err _ _ _ _ _ _ _ _ _ Hdd Hc Hp); auto; lra]. lra.
    + destruct (Z.ltb_spec j k), (Z.ltb_spec j (k + 1)); try lia; exact Hdj.
  - intros d [Hsd Hdj]. apply HQ; auto. intros j Hj. specialize (Hdj j Hj).
    destruct (Z.ltb_spec j (Z.max (I + 1) (Z.of_nat n + 1))); [exact Hdj|lia].
Qed.
End Table.
End Step.
