(** * FastNewInst: arithmetic under -ffast-math meets the requirements of FastNewNum.v. *)
From Coquelicot Require Import Coquelicot.
From Flocq Require Import Core.Core IEEE754.BinarySingleNaN Relative.
From Coq Require Import ZArith Reals List Bool Lia Lra Permutation.
From Verif Require Import Base Num RSum Ecdf1New Binary64 Binary64Facts Binary64Main ErrBound B64Round AccNewMain FastNum FastMath FastInst FastNewNum.
Import List. Import ListNotations.
Local Open Scope R_scope.

Section Inst.
Context (C : compiler) (L : libm).
Notation flush := (cp_flush C).
Notation FN := (Fnum C L).
Notation pick := (cp_sum C).
Notation sv := (sv flush).

Definition facc (x : list term) (s a : R) (k : nat) : Prop :=
  x <> [] /\ Forall tfin x /\ lsum flush x = s /\ labs flush x <= a /\ (List.length x <= k)%nat.

Lemma facc_raw x : ffin C x -> fraw x -> facc x (fval C x) (Rabs (fval C x)) 1.
Proof.
  intros [_ Fx] [v ->]. rewrite pick_lit in Fx. rewrite fval_lit. unfold facc, lit.
  split; [discriminate|]. split; [constructor; [exact Fx|constructor]|].
  cbn [lsum labs fold_right tval sg List.length]. split; [ring|]. split; [lra|lia].
Qed.

Lemma facc_dot m (x y : nat -> car FN) :
  (forall k, (k < m)%nat -> ffin C (x k)) -> (forall k, (k < m)%nat -> ffin C (y k)) ->
  facc (@dot FN x y m) (rsum m (fun k => fval C (x k) * fval C (y k))) (rsum m (fun k => Rabs (fval C (x k) * fval C (y k)))) (m + 1).
Proof.
  intros Hx Hy. rewrite dot_terms. destruct (sv_of_Z C 0 ltac:(lia)) as [F0 V0].
  split; [discriminate|]. split; [|split; [|split]].
  - constructor; [exact F0|]. apply Forall_map, Forall_forall. intros k Hk. apply in_seq in Hk.
    split; [apply Hx; lia|apply Hy; lia].
  - cbn [lsum fold_right]. fold (lsum flush (map (fun k => TProd false (pick (x k)) (pick (y k))) (seq 0 m))).
    rewrite lsum_map. cbn [tval sg]. rewrite V0, Rplus_0_l. reflexivity.
  - apply Req_le. cbn [labs fold_right]. fold (labs flush (map (fun k => TProd false (pick (x k)) (pick (y k))) (seq 0 m))).
    rewrite labs_map. cbn [tval sg]. rewrite V0, Rabs_R0, Rplus_0_l. reflexivity.
  - simpl. rewrite map_length, seq_length. lia.
Qed.

Lemma facc_sub d s a k c p : facc d s a k -> ffin C c -> ffin C p ->
  facc (@n_sub FN d (@n_mul FN c p)) (s - fval C c * fval C p) (a + Rabs (fval C c * fval C p)) (S k).
Proof.
  intros (Hne & HF & HS & HA & HK) [_ Fc] [_ Fp].
  change (@n_sub FN d (@n_mul FN c p)) with (d ++ [TProd true (pick c) (pick p)]).
  split; [destruct d; discriminate|]. split; [apply Forall_app; split; [exact HF|]; constructor; [split; auto|constructor]|].
  rewrite lsum_app, labs_app, app_length. cbn [lsum labs fold_right tval sg List.length]. rewrite HS, Rabs_Ropp.
  unfold fval. split; [ring|]. split; [lra|lia].
Qed.

Lemma facc_val x s a k : facc x s a k -> a <= bpow radix2 36 -> (Z.of_nat k <= 2 ^ 36)%Z ->
  ffin C x /\ Rabs (fval C x - s) <= ((1 + fu) ^ k - 1) * a + (1 + fu) ^ k * (INR k * feta).
Proof.
  intros (Hne & HF & HS & HA & HK) Ha Hk.
  assert (H1 : (1 <= List.length x)%nat) by (destruct x; [congruence|simpl; lia]).
  pose proof (labs_pos flush x) as Hl0.
  destruct (pick_err C x Hne HF) as [FT HE].
  - lia.
  - eapply Rle_trans; [exact HA|]. eapply Rle_trans; [exact Ha|]. apply bpow_le. lia.
  - split; [exact FT|]. rewrite HS in HE. eapply Rle_trans; [exact HE|].
    pose proof u64_pos as Hu. pose proof eta0_pos as He. pose proof fu_u64 as Hfu.
    destruct (eb_mono (List.length x) k (labs flush x) HK Hl0 H1) as [_ HM]. eapply Rle_trans; [exact HM|].
    assert (HPP : (1 + u64) ^ k <= (1 + fu) ^ k) by (apply pow_incr; lra).
    assert (HP1 : 1 <= (1 + u64) ^ k) by (apply pow_R1_Rle; lra).
    assert (HI : INR (List.length x) <= INR k) by (apply le_INR, HK).
    assert (HI1 : 1 <= INR (List.length x)) by (apply (le_INR 1), H1).
    apply Rplus_le_compat; [apply Rmult_le_compat; lra|].
    rewrite feta_eta0. apply Rmult_le_compat; [lra|apply Rmult_le_pos; lra|exact HPP|].
    replace (INR k * (32 * eta0)) with (32 * INR k * eta0) by ring. apply Rmult_le_compat_r; lra.
Qed.

(** ** sqrt(n) + 1 *)
Lemma sum2 (x y : f64) : is_finite x = true -> is_finite y = true ->
  op_result flush (sv x + sv y) (pick [TVal false x; TVal false y]).
Proof.
  intros Fx Fy. pose proof (cp_sum_ok C [TVal false x; TVal false y] ltac:(discriminate)) as H.
  set (d := pick _) in *. remember [TVal false x; TVal false y] as l0 eqn:El.
  destruct H as [s' x'|s' x' y' w Hw|l l1 l2 a c w HP H1 H2 Hw|l l1 s' x' y' a w HP H1 Hw].
  - discriminate.
  - discriminate.
  - subst l. pose proof (ev_nonempty _ _ _ H1) as N1. pose proof (ev_nonempty _ _ _ H2) as N2.
    pose proof (Permutation_length HP) as HPL. rewrite app_length in HPL. simpl in HPL.
    destruct l1 as [|t1 [|? ?]]; [simpl in N1; lia| |simpl in HPL, N2; lia].
    destruct l2 as [|t2 [|? ?]]; [simpl in N2; lia| |simpl in HPL; lia].
    apply Permutation_length_2_inv in HP. destruct HP as [HP|HP]; injection HP as -> ->;
      pose proof (single_val _ _ _ H1 _ _ eq_refl) as Ea; pose proof (single_val _ _ _ H2 _ _ eq_refl) as Ec; cbv iota in Ea, Ec; subst a c.
    + exact (Hw Fx Fy).
    + rewrite Rplus_comm. exact (Hw Fy Fx).
  - exfalso. subst l. assert (HI : In (TProd s' x' y') [TVal false x; TVal false y]) by (eapply Permutation_in; [symmetry; exact HP|left; reflexivity]).
    destruct HI as [HI|[HI|[]]]; discriminate.
Qed.

Lemma fast_jump n : (1 <= n <= INT_MAX)%Z -> @jump_size_for FN n = @jump_size_for (Bnum L) n.
Proof.
  intros Hn. destruct (jump_bounds n Hn) as (s & Fs & H2 & H1 & Hlt & Hs).
  destruct (sqrt_ok n Hn) as [Fq Vq]. destruct one_ok as [F1 V1].
  assert (Hn1 : 1 <= IZR n) by (apply IZR_le; lia).
  set (q := Bsqrt mode_NE (b64_of_Z n)) in *.
  assert (Hq1 : 1 <= B2R q).
  { rewrite Vq, <- rnd_1. apply rnd_le. rewrite <- sqrt_1. apply sqrt_le_1_alt. exact Hn1. }
  assert (Hqn : B2R q <= IZR n).
  { rewrite Vq. rewrite <- (rnd_int n) at 2 by (unfold INT_MAX in Hn; lia). apply rnd_le.
    apply Rsqr_incr_0_var; [|lra]. rewrite Rsqr_sqrt by lra. unfold Rsqr. nra. }
  assert (H1022 : bpow radix2 (-1022) <= 1) by (change 1 with (bpow radix2 0); apply bpow_le; lia).
  assert (Sq : sv q = B2R q) by (apply sv_normal; left; rewrite Rabs_pos_eq; lra).
  assert (S1 : sv (b64_of_Z 1) = 1) by (rewrite <- V1; apply sv_normal; left; rewrite V1, Rabs_pos_eq; lra).
  pose proof (sum2 q (b64_of_Z 1) Fq F1) as HO. rewrite Sq, S1 in HO.
  set (w := pick [TVal false q; TVal false (b64_of_Z 1)]) in *.
  pose proof (Bplus_correct 53 1024 prec_ok emax_ok mode_NE q (b64_of_Z 1) Fq F1) as H.
  cbn [round_mode] in H. rewrite V1 in H.
  destruct (of_Z_ok (n + 1)) as [Fm Vm]; [unfold INT_MAX in Hn; lia|].
  rewrite (no_overflow (b64_of_Z (n + 1))) in H by (rewrite Vm, plus_IZR; lra).
  destruct H as (HP & _ & _). rewrite <- Hs in HP.
  assert (Hlt' : Rabs (rnd64 (B2R q + 1)) < bpow radix2 1024).
  { unfold rnd64. rewrite <- HP. apply abs_B2R_lt_emax. }
  destruct (HO Hlt') as [Fw [Ew|(_ & Hsm & _)]].
  2:{ rewrite Rabs_pos_eq in Hsm by lra. lra. }
  unfold rnd64 in Ew. rewrite <- HP in Ew.
  assert (HT : Btrunc w = Btrunc s).
  { apply eq_IZR. rewrite !(Btrunc_correct 53 1024 emax_ok), Ew. reflexivity. }
  unfold jump_size_for.
  change (@n_trunc (Bnum L) (@n_add (Bnum L) (@n_sqrt (Bnum L) (n_of_Z n)) n1)) with (b64_trunc (Bplus mode_NE (Bsqrt mode_NE (b64_of_Z n)) (b64_of_Z 1))).
  change (@n_trunc FN (@n_add FN (@n_sqrt FN (n_of_Z n)) n1))
    with (b64_trunc (pick [TVal false (Bsqrt mode_NE (pick (lit (b64_of_Z n)))); TVal false (b64_of_Z 1)])).
  rewrite pick_lit. fold q. fold w. rewrite <- Hs. unfold b64_trunc. rewrite Fw, Fs, HT. reflexivity.
Qed.

Lemma fast_arith_new : arith_new FN (ffin C) fraw (fval C) fu feta facc.
Proof.
  constructor.
  - exact facc_raw.
  - intros m x y _ Hx Hy. apply facc_dot; [intros k Hk; apply (Hx k Hk)|intros k Hk; apply (Hy k Hk)].
  - exact facc_sub.
  - exact facc_val.
  - intros n Hn. rewrite (fast_jump n Hn). destruct (jump_ok L n Hn) as (k & Hk & H2 & H1 & H3).
    exists k. pose proof (jump_le L n k Hn Hk). auto.
Qed.
End Inst.
