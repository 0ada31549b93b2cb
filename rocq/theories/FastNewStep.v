(** * FastNewStep: the loops of ecdf1_new in any arithmetic of FastNum.v and FastNewNum.v. *)
From Coquelicot Require Import Coquelicot.
From Flocq Require Import Core.Core.
From Coq Require Import ZArith Reals List Bool Lia Lra String Permutation Sorted Factorial.
From Verif Require Import Base Num Hoare Common PoissonPmf FFTConv Ecdf1New RSum.
From Verif Require Import Spec SpecFacts Cells Events XEcdf2 XEcdf1New NewMath SafeFft.
From Verif Require Import ErrBound AccPmf AccStep AccNewPmf AccNewMath FastNum FastGrow FastPmf FastConv FastFft FastStep.
From Verif Require Import FastNewNum FastNewPmf FastNewConv.
Import List. Import ListNotations.
Local Open Scope R_scope.

Section Step.
Context (F : num) (E : env F) (fin one raw : car F -> Prop) (val : car F -> R) (u eps eta : R)
  (acc : car F -> R -> R -> nat -> Prop).
Hypothesis HA : arith F fin one raw val u eps eta.
Hypothesis HAN : arith_new F fin raw val u eta acc.
Hypothesis Hu : bpow radix2 (-53) <= u.
Hypothesis Heps : u <= eps.
Hypothesis Heta0 : 0 < eta.
Hypothesis Heta : eta <= bpow radix2 (-1010).
Variable n : nat.
Hypothesis Hn1 : (1 <= n)%nat.
Notation N := (INR n).
Hypothesis Hn : 65536 * (N * N) * eps <= 1.
Context {thr : exn -> Prop} {abt : Prop}.
Notation WP := (wp thr abt).
Notation WI := (within fin val).
Notation g0 := (get (@n0 F)).
Notation perr := (fperr eps eta).
Notation pg := (fpmfgen F (Z.of_nat n + 1)).
Notation hd := (held F acc).

Definition frate (lh : car F) (l : R) : Prop :=
  fin lh /\ one lh /\ Rabs (val lh - l) <= 3 * u * l /\ 0 <= l <= N /\ (0 < l -> bpow radix2 (-1000) <= val lh).

Lemma frate_sub (x p : car F) : fin x -> fin p -> raw x -> raw p -> plain (val x) -> plain (val p) ->
  0 <= val p -> val p <= val x -> val x <= 1 ->
  frate (n_mul (n_of_Z (Z.of_nat n)) (n_sub x p)) (N * (val x - val p)).
Proof.
  intros Fx Fp Rx Rp Px Pp H0 H1 H2. pose proof (fN_ge1 n Hn1) as HN.
  pose proof (fn_small u eps Hu Heps n Hn1 Hn) as Hns.
  destruct (ar_rate _ _ _ _ _ _ _ _ HA (Z.of_nat n) x p ltac:(lia) Fx Fp Rx Rp Px Pp (conj H1 H2)) as (F1 & O1 & E1 & L1).
  rewrite <- INR_IZR_INZ in E1. split; [exact F1|]. split; [exact O1|]. split; [exact E1|].
  split; [split; [apply Rmult_le_pos; lra|]|].
  - rewrite <- (Rmult_1_r N) at 2. apply Rmult_le_compat_l; lra.
  - intros Hl. apply L1. apply Rnot_le_lt. intros Hle. assert (val x - val p = 0) as He by lra. rewrite He, Rmult_0_r in Hl. lra.
Qed.

Lemma frate_zero lh l : frate lh l -> l = 0 -> val lh = 0.
Proof.
  intros (_ & _ & He & _) ->. rewrite Rmult_0_r in He. pose proof (Rabs_pos (val lh - 0)).
  assert (Rabs (val lh - 0) = 0) as Hz by lra. destruct (Req_dec (val lh - 0) 0) as [G|G]; [lra|]. apply Rabs_no_R0 in G. lra.
Qed.
Lemma frate_nonneg lh l : frate lh l -> 0 <= val lh.
Proof.
  intros Hr. pose proof Hr as (_ & _ & _ & Hl & Hp). destruct (Rle_lt_or_eq_dec 0 l (proj1 Hl)) as [H0|H0].
  - specialize (Hp H0). pose proof (bpow_gt_0 radix2 (-1000)). lra.
  - rewrite (frate_zero lh l Hr) by auto. lra.
Qed.
Lemma frate_eq lh l : frate lh l -> n_eq lh n0 = true <-> l = 0.
Proof.
  intros Hr. pose proof Hr as (F1 & _ & _ & Hl & Hp). destruct (f0_ok F fin one raw val u eps eta HA) as [F0 V0].
  rewrite (ar_eq _ _ _ _ _ _ _ _ HA lh n0 F1 F0), V0. split.
  - intros H. destruct (Rle_lt_or_eq_dec 0 l (proj1 Hl)) as [H0|H0]; [|auto]. specialize (Hp H0).
    pose proof (bpow_gt_0 radix2 (-1000)). rewrite Req_bool_false in H by lra. discriminate.
  - intros H. rewrite (frate_zero lh l Hr H). apply Req_bool_true. reflexivity.
Qed.

Lemma fformula_perr lh l k : frate lh l -> 0 < l -> (k <= n)%nat ->
  WI (pmf_formula lh (n_log lh) (n_lgamma (Z.of_nat k + 1)) (Z.of_nat k)) (pois l k) (perr l k).
Proof.
  intros (F1 & O1 & Er & Hl & Hp) H0 Hk.
  destruct (fpmf_wt F fin one raw val u eps eta HA Hu Heps Heta0 Heta n Hn1 Hn lh l k F1 O1 (Hp H0) ltac:(lra) Er Hk) as [G1 G2].
  split; [exact G1|exact G2].
Qed.

Lemma within_exact (v : car F) x e : fin v -> val v = x -> 0 <= e -> WI v x e.
Proof. intros Fv V He. split; [exact Fv|]. rewrite V, Rminus_diag_eq, Rabs_R0 by reflexivity. exact He. Qed.

Notation ppos := (fperr_pos u eps eta Hu Heps Heta0 n Hn1).

Lemma wp_fcompute_perr g k (lh : car F) l (Q : pmfgen F -> Prop) :
  pg g -> (0 <= k <= Z.of_nat n + 1)%Z -> frate lh l ->
  (forall g', pg g' ->
     (forall i, (0 <= i <= k)%Z -> (i <= Z.of_nat n)%Z -> WI (g0 (get_array g') i) (pois l (Z.to_nat i)) (perr l (Z.to_nat i))) -> Q g') ->
  WP (compute_array E g k lh) Q.
Proof.
  intros (Hg1 & Hg2 & Hg3 & Hg4) Hk Hr HQ. unfold compute_array. pose proof Hr as (Fl & _ & _ & Hl & _).
  destruct (f0_ok F fin one raw val u eps eta HA) as [F0 V0]. destruct (f1_ok F fin one raw val u eps eta HA) as [F1 V1].
  apply wp_bind, wp_cassert_true; [apply Z.leb_le; lia|].
  apply wp_bind, wp_cassert_true; [rewrite Hg1; apply Z.leb_le; lia|].
  pose proof (frate_nonneg lh l Hr) as Hnn.
  rewrite (ar_lt _ _ _ _ _ _ _ _ HA lh n0 Fl F0), V0, Rlt_bool_false by lra.
  destruct (n_eq lh n0) eqn:Heq.
  - apply (frate_eq lh l Hr) in Heq. subst l.
    apply wp_bind, wp_wr; [lia|]. apply wp_bind.
    apply wp_for with (P := fun i (a : list (car F)) => size a = (Z.of_nat n + 2)%Z /\
       forall j, (0 <= j < i)%Z -> WI (g0 a j) (pois 0 (Z.to_nat j)) (perr 0 (Z.to_nat j))).
    + split; [rewrite size_upd; lia|].
      intros j Hj. assert (j = 0)%Z as -> by lia.
      rewrite get_upd by lia. simpl (0 =? 0)%Z. cbv iota. apply within_exact; [exact F1| |apply ppos; lra].
      rewrite V1, pois_zero. reflexivity.
    + intros i a Hi [Hs Ha]. apply wp_wr; [lia|]. rewrite size_upd. split; auto.
      intros j Hj. rewrite get_upd by lia. destruct (Z.eqb_spec i j) as [->|]; [|apply Ha; lia].
      apply within_exact; [exact F0| |apply ppos; lra].
      rewrite V0, pois_zero. destruct (Nat.eqb_spec (Z.to_nat j) 0); [lia|reflexivity].
    + intros a [Hs Ha]. apply wp_ok, HQ.
      * split; [exact Hg1|]. split; [exact Hg2|]. split; [exact Hg3|]. cbn [pmf_array]. lia.
      * intros i Hi Hin. unfold get_array. cbn [pmf_array]. apply Ha; lia.
  - assert (Hl0 : 0 < l).
    { destruct (Rle_lt_or_eq_dec 0 l (proj1 Hl)) as [H0|H0]; [exact H0|]. symmetry in H0.
      apply (frate_eq lh l Hr) in H0. congruence. }
    apply wp_bind.
    apply wp_for with (P := fun i (a : list (car F)) => size a = (Z.of_nat n + 2)%Z /\
       forall j, (0 <= j < i)%Z -> (j <= Z.of_nat n)%Z -> WI (g0 a j) (pois l (Z.to_nat j)) (perr l (Z.to_nat j))).
    + split; [|lia]. lia.
    + intros i a Hi [Hs Ha]. apply wp_bind. apply (wp_rd n0); [lia|].
      apply wp_wr; [lia|]. rewrite size_upd. split; auto. intros j Hj Hjn.
      rewrite get_upd by lia. destruct (Z.eqb_spec i j) as [->|].
      * rewrite Hg3 by lia. pose proof (fformula_perr lh l (Z.to_nat j) Hr Hl0 ltac:(lia)) as HP.
        rewrite Z2Nat.id in HP by lia. exact HP.
      * apply Ha; lia.
    + intros a [Hs Ha]. apply wp_ok, HQ.
      * split; [exact Hg1|]. split; [exact Hg2|]. split; [exact Hg3|]. cbn [pmf_array]. lia.
      * intros i Hi Hin. unfold get_array. cbn [pmf_array]. apply Ha; lia.
Qed.

Lemma wp_fevaluate_perr g k (lh : car F) l (Q : car F -> Prop) :
  pg g -> (0 <= k <= Z.of_nat n)%Z -> frate lh l ->
  (forall v, WI v (pois l (Z.to_nat k)) (perr l (Z.to_nat k)) -> Q v) ->
  WP (evaluate_pmf E g lh k) Q.
Proof.
  intros (Hg1 & Hg2 & Hg3 & Hg4) Hk Hr HQ. unfold evaluate_pmf. pose proof Hr as (Fl & _ & _ & Hl & _).
  destruct (f0_ok F fin one raw val u eps eta HA) as [F0 V0]. destruct (f1_ok F fin one raw val u eps eta HA) as [F1 V1].
  pose proof (frate_nonneg lh l Hr) as Hnn.
  apply wp_bind, wp_cassert_true; [rewrite (ar_le _ _ _ _ _ _ _ _ HA n0 lh F0 Fl), V0; apply Rle_bool_true; exact Hnn|].
  apply wp_bind, wp_cassert_true; [apply Z.leb_le; lia|].
  destruct (n_eq lh n0) eqn:Heq.
  - apply (frate_eq lh l Hr) in Heq. subst l. apply wp_ok, HQ.
    destruct (Z.eqb_spec k 0) as [->|Hk0].
    + apply within_exact; [exact F1| |apply ppos; lra]. rewrite pois_zero. exact V1.
    + apply within_exact; [exact F0| |apply ppos; lra]. rewrite pois_zero.
      destruct (Nat.eqb_spec (Z.to_nat k) 0); [lia|exact V0].
  - assert (Hl0 : 0 < l).
    { destruct (Rle_lt_or_eq_dec 0 l (proj1 Hl)) as [H0|H0]; [exact H0|]. symmetry in H0.
      apply (frate_eq lh l Hr) in H0. congruence. }
    apply wp_bind. apply (wp_rd n0); [lia|]. apply wp_ok, HQ.
    rewrite Hg3 by lia. pose proof (fformula_perr lh l (Z.to_nat k) Hr Hl0 ltac:(lia)) as HP.
    rewrite Z2Nat.id in HP by lia. exact HP.
Qed.

Lemma fN_eps2 : 500 * eps * (1 + N) <= 2 / 100.
Proof.
  pose proof (fNeps u eps Hu Heps n Hn1 Hn) as [H0 H1]. pose proof (feps_small u eps Hu Heps n Hn1 Hn). lra.
Qed.
Lemma fperr_small l k : 0 <= l <= N -> (k <= n)%nat -> 0 <= perr l k <= 500 * eps * (1 + l) /\ 500 * eps * (1 + l) <= 2 / 100.
Proof.
  intros Hl Hk. pose proof fN_eps2 as H2. pose proof (feps_pos u eps Hu Heps) as He. split; [split; [apply ppos; lra|]|].
  - eapply Rle_trans; [|apply (fperr_sum u eps eta Hu Heps Heta0 Heta n Hn1 Hn l (S k) Hl); lia].
    apply (rsum_term (S k) (perr l) k); [lia|]. intros; apply ppos; lra.
  - assert (eps * l <= eps * N) by (apply Rmult_le_compat_l; lra). lra.
Qed.

(** ** The loop over j *)
Lemma fsub_held (d c p : car F) x y q ex ey ep A K : hd d x ex A K -> WI c y ey -> WI p q ep ->
  Rabs y <= 3 / 2 -> ey <= 1 / 2 -> 0 <= q <= 1 -> ep <= 2 / 100 ->
  hd (n_sub d (n_mul c p)) (x - y * q) (ex + ey + 2 * ep) (A + 3) (K + 1).
Proof.
  intros (s & a & k & Hac & Hs & Ha & Hk) [Fc Hc] [Fp Hp] Hy Hey Hq Hep.
  assert (Hca : Rabs (val c) <= 2).
  { replace (val c) with ((val c - y) + y) by ring. eapply Rle_trans; [apply Rabs_triang|]. lra. }
  assert (Hpa : Rabs (val p) <= 102 / 100).
  { replace (val p) with ((val p - q) + q) by ring. eapply Rle_trans; [apply Rabs_triang|]. rewrite (Rabs_pos_eq q) by lra. lra. }
  assert (Hcp : Rabs (val c * val p) <= 204 / 100).
  { rewrite Rabs_mult. apply Rle_trans with (2 * (102 / 100)); [|lra]. apply Rmult_le_compat; try apply Rabs_pos; assumption. }
  exists (s - val c * val p), (a + Rabs (val c * val p)), (S k).
  split; [apply (an_sub _ _ _ _ _ _ _ HAN); auto|]. split; [|split; [lra|lia]].
  replace (s - val c * val p - (x - y * q)) with ((s - x) + - (val c * (val p - q) + (val c - y) * q)) by ring.
  eapply Rle_trans; [apply Rabs_triang|]. rewrite Rabs_Ropp.
  pose proof (Rabs_triang (val c * (val p - q)) ((val c - y) * q)) as Ht.
  rewrite (Rabs_mult (val c)), (Rabs_mult (val c - y)), (Rabs_pos_eq q) in Ht by lra.
  assert (Rabs (val c) * Rabs (val p - q) <= 2 * ep) by (apply Rmult_le_compat; try apply Rabs_pos; lra).
  assert (Rabs (val c - y) * q <= ey * 1) by (apply Rmult_le_compat; try apply Rabs_pos; lra). lra.
Qed.

Lemma wp_fsubtract g I i (c : car F) y ey lh l (dest : list (car F)) (f : nat -> R) er A K (Q : list (car F) -> Prop) :
  pg g -> (0 <= i <= I)%Z -> (I < Z.of_nat n)%Z -> frate lh l -> size dest = (Z.of_nat n + 1)%Z ->
  WI c y ey -> Rabs y <= 3 / 2 -> ey <= 1 / 2 ->
  (forall j, (I < j <= Z.of_nat n)%Z -> hd (g0 dest j) (f (Z.to_nat j)) er A K) ->
  (forall dest', size dest' = (Z.of_nat n + 1)%Z ->
     (forall j, (I < j <= Z.of_nat n)%Z ->
        hd (g0 dest' j) (f (Z.to_nat j) - y * pois l (Z.to_nat (j - i))) (er + ey + 1000 * eps * (1 + l)) (A + 3) (K + 1)) -> Q dest') ->
  WP (subtract_exits E (Z.of_nat n) g I i c lh dest) Q.
Proof.
  intros Hpg Hi HI Hr Hs Hc Hy Hey Hd HQ. unfold subtract_exits. pose proof Hr as (_ & _ & _ & Hl & _).
  apply wp_for with (P := fun k (d : list (car F)) => size d = (Z.of_nat n + 1)%Z /\
    forall j, (I < j <= Z.of_nat n)%Z -> if (j <? k)%Z
      then hd (g0 d j) (f (Z.to_nat j) - y * pois l (Z.to_nat (j - i))) (er + ey + 1000 * eps * (1 + l)) (A + 3) (K + 1)
      else g0 d j = g0 dest j).
  - split; auto. intros j Hj. destruct (Z.ltb_spec j (I + 1)); [lia|reflexivity].
  - intros k d Hk [Hsd Hdj]. apply wp_bind. apply (wp_rd n0); [lia|].
    apply wp_bind. apply (wp_fevaluate_perr g (k - i) lh l); auto; [lia|]. intros p Hp.
    apply wp_wr; [lia|]. rewrite size_upd. split; auto. intros j Hj.
    rewrite get_upd by lia. specialize (Hdj j Hj).
    destruct (Z.eqb_spec k j) as [->|Hne].
    + destruct (Z.ltb_spec j j); [lia|]. destruct (Z.ltb_spec j (j + 1)); [|lia].
      destruct (fperr_small l (Z.to_nat (j - i)) Hl ltac:(lia)) as [[Hp0 Hp1] Hp2].
      pose proof (pois_pos l (Z.to_nat (j - i)) (proj1 Hl)). pose proof (pois_le1 l (Z.to_nat (j - i)) (proj1 Hl)).
      rewrite Hdj. eapply (held_weaken F acc); [apply (fsub_held _ _ _ _ _ _ _ _ _ _ _ (Hd j Hj) Hc Hp); auto; lra|lra|lra|lia].
    + destruct (Z.ltb_spec j k), (Z.ltb_spec j (k + 1)); try lia; exact Hdj.
  - intros d [Hsd Hdj]. apply HQ; auto. intros j Hj. specialize (Hdj j Hj).
    destruct (Z.ltb_spec j (Z.max (I + 1) (Z.of_nat n + 1))); [exact Hdj|lia].
Qed.
End Step.
