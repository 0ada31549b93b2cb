(** * CostJump: the block length of ecdf1_new, and the exact work of a convolution. *)
From Coquelicot Require Import Coquelicot.
From Flocq Require Import Core.Core IEEE754.BinarySingleNaN.
From Coq Require Import ZArith Reals List Bool Lia Lra String.
From Verif Require Import Base Num Hoare XReal Common PoissonPmf FFTConv Ecdf2 Ecdf1New Binary64 Binary64Facts Binary64Main.
From Verif Require Import XEcdf1NewMain ErrBound B64Round AccNewMain SafeFft ExactEnv Cases Cost CostFacts CostMain CostNew.
Import List. Import ListNotations.
Local Open Scope Z_scope.

(** ** int k = sqrt(n) + 1 *)
Lemma sqrt_floor n : 0 <= n -> (IZR (Z.sqrt n) <= sqrt (IZR n) < IZR (Z.sqrt n) + 1)%R.
Proof.
  intros Hn. pose proof (Z.sqrt_spec n Hn) as Hs. cbv zeta in Hs. pose proof (Z.sqrt_nonneg n) as H0.
  assert (R0 : (0 <= IZR (Z.sqrt n))%R) by (apply IZR_le; lia).
  assert (H1 : (IZR (Z.sqrt n) * IZR (Z.sqrt n) <= IZR n)%R) by (rewrite <- mult_IZR; apply IZR_le; lia).
  assert (H2 : (IZR n < (IZR (Z.sqrt n) + 1) * (IZR (Z.sqrt n) + 1))%R).
  { rewrite <- plus_IZR, <- mult_IZR. apply IZR_lt. lia. }
  assert (Rn : (0 <= IZR n)%R) by (apply IZR_le; lia).
  pose proof (sqrt_pos (IZR n)) as Hp. pose proof (sqrt_sqrt (IZR n) Rn) as Hss. split; nra.
Qed.

Lemma exact_root_jump frexp n : 0 <= n -> root_jump (N := Xnum frexp) n.
Proof.
  intros Hn k Hk. destruct (sqrt_floor n Hn) as [H1 H2]. pose proof (Z.sqrt_nonneg n) as H0.
  assert (R0 : (0 <= IZR (Z.sqrt n))%R) by (apply IZR_le; lia).
  assert (Rn : (0 <= IZR n)%R) by (apply IZR_le; lia).
  set (x := (sqrt (IZR n) + 1)%R).
  assert (Htr : n_trunc (n_add (n_sqrt (n_of_Z n)) n1 : car (Xnum frexp)) = Some (Zfloor x)).
  { unfold n1. cbn [n_of_Z n_sqrt Xnum xsqrt]. rewrite Rlt_bool_false by lra.
    change (Some (Ztrunc x) = Some (Zfloor x)). f_equal. apply Ztrunc_floor. unfold x. lra. }
  unfold jump_size_for in Hk. rewrite Htr in Hk. destruct (_ && _); [|discriminate]. injection Hk as <-.
  assert (Hf : Zfloor x = Z.sqrt n + 1) by (apply Zfloor_imp; unfold x; rewrite !plus_IZR; lra).
  rewrite Hf. lia.
Qed.

Lemma binary64_root_jump L n : 1 <= n <= INT_MAX -> root_jump (N := Bnum L) n.
Proof.
  intros Hn k Hk. destruct (sqrt_floor n ltac:(lia)) as [H1 H2]. pose proof (Z.sqrt_nonneg n) as H0.
  pose proof (jump_le L n k Hn Hk) as Hup.
  split.
  2:{ apply le_IZR. rewrite mult_IZR, plus_IZR. assert (0 <= IZR (Z.sqrt n))%R by (apply IZR_le; lia). lra. }
  destruct (jump_bounds n Hn) as (s & Fs & Hs2 & _ & _ & Hs).
  unfold jump_size_for in Hk.
  change (@n_trunc (Bnum L) (@n_add (Bnum L) (@n_sqrt (Bnum L) (n_of_Z n)) n1)) with (b64_trunc (Bplus mode_NE (Bsqrt mode_NE (b64_of_Z n)) (b64_of_Z 1))) in Hk.
  rewrite <- Hs in Hk. unfold b64_trunc in Hk. rewrite Fs in Hk.
  destruct (_ && _); [|discriminate]. injection Hk as <-.
  assert (HT : Btrunc s = Zfloor (B2R s)).
  { apply eq_IZR. rewrite (Btrunc_correct 53 1024 emax_ok), round_FIX_IZR, Ztrunc_floor by lra. reflexivity. }
  rewrite HT. apply Zfloor_lub.
  destruct (sqrt_ok n Hn) as [Fq Vq]. destruct one_ok as [F1 V1]. set (q := Bsqrt mode_NE (b64_of_Z n)) in *.
  pose proof (size64 n (proj2 Hn)) as Hsz.
  assert (Hsn : Z.sqrt n <= n) by (apply Z.sqrt_le_lin; lia).
  assert (Hq : (IZR (Z.sqrt n) <= B2R q)%R).
  { rewrite Vq. rewrite <- (rnd_int (Z.sqrt n)) by lia. apply rnd_le. exact H1. }
  assert (Hqn : (B2R q <= IZR n)%R).
  { rewrite Vq. rewrite <- (rnd_int n) at 2 by lia. apply rnd_le.
    assert (1 <= IZR n)%R by (apply IZR_le; lia).
    apply Rsqr_incr_0_var; [|lra]. rewrite Rsqr_sqrt by lra. unfold Rsqr. nra. }
  destruct (of_Z_ok (n + 1)) as [Fm Vm]; [lia|].
  pose proof (Bplus_correct 53 1024 prec_ok emax_ok mode_NE q (b64_of_Z 1) Fq F1) as H.
  cbn [round_mode] in H. rewrite V1 in H.
  assert (Hq0 : (0 <= B2R q)%R) by (eapply Rle_trans; [|exact Hq]; apply IZR_le; lia).
  rewrite (no_overflow (b64_of_Z (n + 1))) in H by (rewrite Vm, plus_IZR; lra).
  destruct H as (H3 & _). rewrite Hs, H3.
  rewrite <- (rnd_int (Z.sqrt n + 1)) by lia. apply rnd_le. rewrite plus_IZR. lra.
Qed.

(** ** A convolution takes exactly 1 + 3m + 5 m(m+1)/2 steps *)
Lemma loop_exact {S} (body : Z -> S -> costed S) (G : Z -> Z) : forall k i s r,
  (forall j t u, i <= j -> snd (body j t) = Ok u -> G (j + 1) = G j + 1 + fst (body j t)) ->
  loop k i (fun i s => snd (body i s)) s = Ok r -> loop_steps k i body s = G (i + Z.of_nat k) - G i.
Proof.
  induction k as [|k IH]; intros i s r HG H; cbn [loop loop_steps] in *.
  - rewrite Z.add_0_r. lia.
  - apply bind_ok in H. destruct H as (t & Ht & H). rewrite Ht.
    rewrite (IH (i + 1) t r); [|intros j t' u Hj; apply HG; lia|exact H].
    specialize (HG i s t ltac:(lia) Ht). replace (i + Z.of_nat (Datatypes.S k)) with (i + 1 + Z.of_nat k) by lia. lia.
Qed.

Lemma convolve_exact {N : num} sz (s0 : list (car N)) o0 s1 o1 dest od r : 0 <= sz ->
  convolve_same_size sz s0 o0 s1 o1 dest od = Ok r ->
  2 * steps (c_convolve sz s0 o0 s1 o1 dest od) = 2 + 6 * sz + 5 * (sz * (sz + 1)).
Proof.
  intros Hsz H. unfold steps, c_convolve, cfor. cbn [fst].
  assert (Hdiv : forall j, exists h, j * (j + 1) = 2 * h).
  { intros j. destruct (Z.Even_or_Odd j) as [[h Hh]|[h Hh]]; subst j; eexists; [instantiate (1 := h * (2 * h + 1))|instantiate (1 := (2 * h + 1) * (h + 1))]; ring. }
  rewrite (loop_exact _ (fun j => 3 * j + 5 * (j * (j + 1) / 2))) with (r := r).
  - destruct (Hdiv sz) as [h Hh]. replace (0 + Z.of_nat (Z.to_nat (sz - 0))) with sz by lia. rewrite Hh.
    replace (2 * h / 2) with h by (rewrite Z.mul_comm, Z.div_mul; lia). change (0 * (0 + 1) / 2) with 0. lia.
  - intros j t u Hj Hu. cbn [cbind fst snd] in Hu |- *. apply bind_ok in Hu. destruct Hu as (acc & Ha & Hw).
    rewrite Ha. cbn [fst op].
    assert (Hin : loop_steps (Z.to_nat (j + 1 - 0)) 0 (fun k acc0 =>
        x <== op 1 (rd s0 (o0 + k)) ;; y <== op 1 (rd s1 (o1 + (j - k))) ;; op 2 (Ok (n_add acc0 (n_mul x y)))) n0
        = 5 * (j + 1)).
    { rewrite (loop_exact _ (fun k => 5 * k)) with (r := acc).
      - lia.
      - intros k t' u' _ Hu'. cbn [cbind fst snd op] in Hu' |- *. apply bind_ok in Hu'. destruct Hu' as (x & Hx & Hu').
        apply bind_ok in Hu'. destruct Hu' as (y & Hy & _). rewrite Hx, Hy. lia.
      - exact Ha. }
    unfold cfor. cbn [fst]. rewrite Hin.
    destruct (Hdiv j) as [h Hh]. rewrite Hh.
    replace ((j + 1) * (j + 1 + 1)) with ((h + j + 1) * 2) by (replace ((j + 1) * (j + 1 + 1)) with (j * (j + 1) + 2 * (j + 1)) by ring; lia).
    rewrite Z.div_mul by lia. rewrite (Z.mul_comm 2 h), Z.div_mul by lia. lia.
  - exact H.
Qed.

(** Prices that meet the requirement. *)
Definition some_prices : prices := mkPrices nlogn nlogn nlogn.
Lemma some_fair : fair 1 some_prices.
Proof. intros m _. cbn [p_fft p_plan p_sort some_prices]. lia. Qed.

(** ** The statements *)
Section Statements.
Context {N : num} (E : env N) (P : prices) (K : Z).
Hypothesis HK : 1 <= K.
Hypothesis HP : fair K P.

Lemma ks2001_work (b B : list (car N)) : sort_ok E ->
  result (c_ecdf2 E P b B false) = ecdf2 E b B false /\
  steps (c_ecdf2 E P b B false) <= 500 * K * (Z.of_nat (length b) + 1) ^ 3.
Proof. intros HS. split; [reflexivity|]. apply (ecdf2_direct_cost E P K HK HP b B HS). Qed.

Lemma mn2017_work (b B : list (car N)) : sort_ok E ->
  result (c_ecdf2 E P b B true) = ecdf2 E b B true /\
  steps (c_ecdf2 E P b B true) <= 2500 * K * (Z.of_nat (length b) + 1) ^ 2 * (Z.log2 (Z.of_nat (length b) + 1) + 1).
Proof. intros HS. split; [reflexivity|]. apply (ecdf2_fft_cost E P K HK HP b B HS). Qed.

Lemma new_work (v : list (car N)) : (1 <= length v)%nat ->
  (forall k, jump_size_for (N := N) (Z.of_nat (length v)) = Ok k ->
     Z.sqrt (Z.of_nat (length v)) + 1 <= k <= 3 * (Z.sqrt (Z.of_nat (length v)) + 1)) ->
  result (c_new_B E P v) = Ecdf1New.ecdf1_new_B E v /\ result (c_new_b E P v) = Ecdf1New.ecdf1_new_b E v /\
  steps (c_new_B E P v) <= 30000 * K * (Z.of_nat (length v) + 1) ^ 2 /\
  steps (c_new_b E P v) <= 30000 * K * (Z.of_nat (length v) + 1) ^ 2.
Proof.
  intros Hn HR. split; [reflexivity|]. split; [reflexivity|].
  assert (Hs : 1 <= size v) by (unfold size; lia).
  split; [exact (new_B_cost E P K HK HP v Hs HR)|exact (new_b_cost E P K HK HP v Hs HR)].
Qed.
End Statements.

Lemma new_work_exact frexp (E : env (Xnum frexp)) P K (v : list xr) : 1 <= K -> fair K P -> (1 <= length v)%nat ->
  steps (c_new_B E P v) <= 30000 * K * (Z.of_nat (length v) + 1) ^ 2 /\
  steps (c_new_b E P v) <= 30000 * K * (Z.of_nat (length v) + 1) ^ 2.
Proof.
  intros HK HP Hn. apply (new_work E P K HK HP v Hn). apply exact_root_jump. apply Nat2Z.is_nonneg.
Qed.

Lemma new_work_binary64 L (E : env (Bnum L)) P K (v : list f64) : 1 <= K -> fair K P -> (1 <= length v)%nat ->
  Z.of_nat (length v) <= INT_MAX ->
  steps (c_new_B E P v) <= 30000 * K * (Z.of_nat (length v) + 1) ^ 2 /\
  steps (c_new_b E P v) <= 30000 * K * (Z.of_nat (length v) + 1) ^ 2.
Proof.
  intros HK HP Hn Hm. apply (new_work E P K HK HP v Hn). apply binary64_root_jump.
  split; [|exact Hm]. apply (inj_le 1). exact Hn.
Qed.

Lemma mns_work {N : num} (E : env N) (v : list (car N)) :
  result (c_mns2016_b E v) = Ecdf1Mns.ecdf1_mns2016_b E v /\ result (c_mns2016_B E v) = Ecdf1Mns.ecdf1_mns2016_B E v /\
  steps (c_mns2016_b E v) <= 200 * (Z.of_nat (length v) + 1) ^ 2 /\
  steps (c_mns2016_B E v) <= 200 * (Z.of_nat (length v) + 1) ^ 2.
Proof.
  split; [reflexivity|]. split; [reflexivity|]. split; [exact (mns_b_cost E v)|exact (mns_B_cost E v)].
Qed.

Lemma cost_case : (1 <= 1 /\ fair 1 some_prices) /\ sort_ok (some_env true) /\
  convolve_same_size (N := Xnum some_frexp) 2 [Fin 1%R; Fin 2%R] 0 [Fin 3%R; Fin 4%R] 0 [Fin 0%R; Fin 0%R] 0
    = Ok [Fin (0 + 1 * 3)%R; Fin (0 + 1 * 4 + 2 * 3)%R].
Proof. split; [split; [lia|exact some_fair]|]. split; [apply exact_env_sort|]. reflexivity. Qed.
