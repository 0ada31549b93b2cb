(** * AccEcdf2: accuracy of ecdf2 in binary64. *)
From Coquelicot Require Import Coquelicot.
From Flocq Require Import Core.Core IEEE754.BinarySingleNaN.
From Coq Require Import ZArith Reals List Bool Lia Lra String Permutation Sorted Factorial.
From Verif Require Import Base Num Hoare Common PoissonPmf FFTConv Ecdf2 RSum Binary64 Binary64Facts.
From Verif Require Import Spec SpecFacts Cells Events XEcdf2 XEcdf2Main SafeFft SafeEcdf2 Binary64Main.
From Verif Require Import ErrBound B64Round AccPmf AccConv AccFft AccGrow AccStep.
Import List. Import ListNotations.
Local Open Scope R_scope.

(** ** The final quotient *)
Section Quotient.
Context (eps : R).
Hypothesis Heps : u64 <= eps.
Variable n : nat.
Hypothesis Hn1 : (1 <= n)%nat.
Notation N := (INR n).
Hypothesis Hn : 65536 * (N * N) * eps <= 1.
Notation X := (N * N * eps).

Lemma N_19 : N <= bpow radix2 19.
Proof.
  destruct (Rle_or_lt N (bpow radix2 19)) as [H|H]; [exact H|exfalso].
  pose proof (N2_bound eps Heps n Hn1 Hn) as H2. pose proof (bpow_gt_0 radix2 19) as H0.
  assert (bpow radix2 19 * bpow radix2 19 < N * N) by (apply Rmult_le_0_lt_compat; lra).
  rewrite <- bpow_plus in H1. pose proof (bpow_lt radix2 37 (19 + 19) ltac:(lia)). lra.
Qed.

Lemma tiny_abs : (250 * (N * (N * N))) * eta64 <= bpow radix2 (-1000).
Proof.
  pose proof N_19 as H1. pose proof (N2_bound eps Heps n Hn1 Hn) as H2. pose proof (N_ge1 n Hn1) as HN.
  apply Rle_trans with (bpow radix2 8 * (bpow radix2 19 * bpow radix2 37) * eta64).
  - apply Rmult_le_compat_r; [apply Rlt_le, eta64_pos|].
    apply Rmult_le_compat; [lra|nra|change (bpow radix2 8) with 256; lra|].
    apply Rmult_le_compat; nra.
  - unfold eta64. rewrite <- !bpow_plus. apply bpow_le. lia.
Qed.

Lemma quotient64 (vh dh : f64) (d p m dl : R) : / (3 * N) <= d -> 0 <= p -> d * p <= 1 ->
  0 <= dl -> 32 * (N * N) * dl <= 1 ->
  fnear (1 + 27200 * X) m vh (d * p) -> 0 <= m <= 72 * (N * N) * eta64 + 6 * N * dl ->
  fnear (f1 eps n) eta64 dh d ->
  is_finite (Bdiv mode_NE vh dh) = true /\
  Rabs (B2R (Bdiv mode_NE vh dh) - p) <= 40000 * X * p + 21 * (N * N * dl) + bpow radix2 (-1000).
Proof.
  intros Hd Hp Hdp Hdl Hdl32 [Fv Hv] Hm [Fd Hdh].
  pose proof (N_ge1 n Hn1) as HN. pose proof (eps_pos eps Heps) as He. pose proof u64_pos as Hu. pose proof eta64_pos as Hz.
  pose proof (X_range eps Heps n Hn1 Hn) as HX. pose proof (Neps_X eps Heps n Hn1) as HNX.
  assert (HuX : u64 <= X).
  { eapply Rle_trans; [exact Heps|]. eapply Rle_trans; [|exact HNX]. nra. }
  assert (Hd0 : 0 < d) by (eapply Rlt_le_trans; [apply Rinv_0_lt_compat|exact Hd]; lra).
  assert (Hd3 : 1 <= 3 * N * d).
  { apply (Rmult_le_compat_l (3 * N)) in Hd; [|lra]. rewrite Rinv_r in Hd by lra. exact Hd. }
  (* the denominator *)
  assert (Hetad : eta64 <= X * d).
  { assert (H3 : 3 * eta64 <= eps).
    { apply Rle_trans with (bpow radix2 2 * eta64); [change (bpow radix2 2) with 4; lra|].
      eapply Rle_trans; [|exact Heps]. unfold eta64, u64. rewrite <- bpow_plus. apply bpow_le. lia. }
    apply Rle_trans with (3 * eta64 * (N * d)).
    - replace (3 * eta64 * (N * d)) with (eta64 * (3 * N * d)) by ring. rewrite <- (Rmult_1_r eta64) at 1.
      apply Rmult_le_compat_l; lra.
    - apply Rle_trans with (N * eps * d); [|apply Rmult_le_compat_r; lra].
      replace (N * eps * d) with (eps * (N * d)) by ring. apply Rmult_le_compat_r; [|exact H3]. apply Rmult_le_pos; lra. }
  assert (Hden : Rabs (B2R dh - d) <= 6401 * (X * d)).
  { unfold near, f1 in Hdh. eapply Rle_trans; [exact Hdh|].
    assert (6400 * (N * eps) * d <= 6400 * (X * d)).
    { rewrite Rmult_assoc. apply Rmult_le_compat_l; [lra|]. apply Rmult_le_compat_r; lra. }
    replace (1 + 6400 * (N * eps) - 1) with (6400 * (N * eps)) by ring. lra. }
  assert (HXd : 0 <= X * d <= / 65536 * d) by (split; [apply Rmult_le_pos; lra|apply Rmult_le_compat_r; lra]).
  assert (Hlo : 9 / 10 * d <= B2R dh) by (apply Rabs_le_inv in Hden; lra).
  assert (Hdh0 : 0 < B2R dh) by lra.
  (* the exact quotient of the two computed numbers *)
  set (z := B2R vh / B2R dh).
  assert (Hzd : z * B2R dh = B2R vh) by (unfold z; field; lra).
  assert (Hdp0 : 0 <= d * p) by (apply Rmult_le_pos; lra).
  assert (Hnum : Rabs ((z - p) * B2R dh) <= 33601 * X * (d * p) + m).
  { replace ((z - p) * B2R dh) with ((B2R vh - d * p) + p * (d - B2R dh)) by (rewrite Rmult_minus_distr_r, Hzd; ring).
    eapply Rle_trans; [apply Rabs_triang|]. rewrite Rabs_mult, (Rabs_pos_eq p Hp), Rabs_minus_sym with (x := d).
    assert (p * Rabs (B2R dh - d) <= p * (6401 * (X * d))) by (apply Rmult_le_compat_l; lra).
    unfold near in Hv. replace (1 + 27200 * X - 1) with (27200 * X) in Hv by ring.
    replace (p * (6401 * (X * d))) with (6401 * X * (d * p)) in H by ring. lra. }
  assert (HNdl : 0 <= N * N * dl) by (apply Rmult_le_pos; [apply Rmult_le_pos|]; lra).
  assert (Hmd : m <= (240 * (N * (N * N)) * eta64 + 20 * (N * N * dl)) * (9 / 10 * d)).
  { apply Rle_trans with ((72 * (N * N) * eta64 + 6 * N * dl) * (3 * N * d)); [|apply Req_le; field].
    rewrite <- (Rmult_1_r m). apply Rmult_le_compat; lra. }
  assert (Hzp : Rabs (z - p) <= 37335 * X * p + (240 * (N * (N * N)) * eta64 + 20 * (N * N * dl))).
  { apply (Rmult_le_reg_r (9 / 10 * d)); [lra|].
    apply Rle_trans with (Rabs ((z - p) * B2R dh)).
    - rewrite Rabs_mult, (Rabs_pos_eq (B2R dh)) by lra. apply Rmult_le_compat_l; [apply Rabs_pos|exact Hlo].
    - eapply Rle_trans; [exact Hnum|]. rewrite Rmult_plus_distr_r. apply Rplus_le_compat; [|exact Hmd].
      replace (37335 * X * p * (9 / 10 * d)) with (336015 / 10 * X * (d * p)) by field.
      apply Rmult_le_compat_r; [exact Hdp0|]. lra. }
  assert (HXp : 0 <= X * p <= / 65536 * p) by (split; [apply Rmult_le_pos; lra|apply Rmult_le_compat_r; lra]).
  pose proof tiny_abs as Ht. pose proof N_19 as H19. pose proof (N2_bound eps Heps n Hn1 Hn) as H37.
  assert (HT0 : 0 <= N * (N * N) * eta64) by (apply Rmult_le_pos; [|lra]; apply Rmult_le_pos; [lra|apply Rmult_le_pos; lra]).
  assert (Hsm : 250 * (N * (N * N) * eta64) <= 1).
  { rewrite <- Rmult_assoc. eapply Rle_trans; [exact Ht|]. change 1 with (bpow radix2 0). apply bpow_le. lia. }
  assert (Hp3 : p <= 3 * N).
  { apply (Rmult_le_reg_l d); [exact Hd0|]. eapply Rle_trans; [exact Hdp|]. lra. }
  assert (Hza : Rabs z <= 2 * p + 2).
  { replace z with ((z - p) + p) by ring. eapply Rle_trans; [apply Rabs_triang|]. rewrite (Rabs_pos_eq p Hp). rewrite (Rmult_assoc 37335), (Rmult_assoc 240) in Hzp. lra. }
  destruct (div_err vh dh Fv ltac:(lra)) as [Fq Eq].
  { fold z. eapply Rle_trans; [exact Hza|]. apply Rle_trans with (bpow radix2 19 * 8); [pose proof (bpow_ge_0 radix2 19); change 1 with (bpow radix2 0); pose proof (bpow_le radix2 0 19 ltac:(lia)); lra|].
    apply Rle_trans with (bpow radix2 19 * bpow radix2 3); [change (bpow radix2 3) with 8; pose proof (bpow_ge_0 radix2 19); lra|].
    rewrite <- bpow_plus. apply bpow_le. lia. }
  fold z in Eq. split; [exact Fq|]. set (r := Bdiv mode_NE vh dh) in *.
  assert (Hrz : Rabs (B2R r - z) <= u64 * Rabs z + eta64) by exact Eq.
  assert (HZ2 : u64 * Rabs z <= u64 * (Rabs (z - p)) + u64 * p).
  { rewrite <- Rmult_plus_distr_l. apply Rmult_le_compat_l; [lra|]. replace z with ((z - p) + p) at 1 by ring.
    eapply Rle_trans; [apply Rabs_triang|]. rewrite (Rabs_pos_eq p Hp). lra. }
  assert (Hup : u64 * p <= X * p) by (apply Rmult_le_compat_r; lra).
  assert (Huz : u64 * Rabs (z - p) <= / 65536 * Rabs (z - p)) by (apply Rmult_le_compat_r; [apply Rabs_pos|lra]).
  replace (B2R r - p) with ((B2R r - z) + (z - p)) by ring. eapply Rle_trans; [apply Rabs_triang|].
  assert (HNNN : 1 <= N * (N * N)) by nra.
  assert (Heta1 : eta64 <= N * (N * N) * eta64) by (rewrite <- (Rmult_1_l eta64) at 1; apply Rmult_le_compat_r; lra).
  rewrite (Rmult_assoc 37335), (Rmult_assoc 240) in Hzp. rewrite (Rmult_assoc 250) in Ht.
  rewrite (Rmult_assoc 40000). lra.
Qed.
End Quotient.

Section Main.
Context (L : libm) (E : env (Bnum L)) (eps : R).
Notation BN := (Bnum L).
Hypothesis HL : libm_accurate L eps.
Hypothesis Heps : u64 <= eps.
Variables b B : list f64.
Hypothesis Hb : accepted64 b.
Hypothesis HB : accepted64 B.
Hypothesis Hlen : List.length b = List.length B.
Hypothesis Hsort : sort_ok E.
Notation n := (List.length b).
Notation N := (INR (List.length b)).
Hypothesis Hn : 65536 * (N * N) * eps <= 1.
Notation vb := (map (@B2R 53 1024) b).
Notation vB := (map (@B2R 53 1024) B).
Variables (uf : bool) (dl : R).
Hypothesis Hdl : 0 <= dl.
Hypothesis Hdl32 : 32 * (N * N) * dl <= 1.
Hypothesis Hfft : uf = true -> exists e, fft_accurate E e /\ u64 <= e /\ e <= / 4096 /\ 400 * e <= dl.
Hypothesis Hnobad : asserts E = true -> ~ bad_pair vb vB.
Notation bs := (map (tor64 L) (sort_bounds E (@joined BN b B))).

Lemma acc_pos : (1 <= n)%nat ->
  exists p r, is_noncrossing_probability vb vB p /\ @ecdf2 BN E b B uf = Ok r /\ is_finite (r : f64) = true /\
    Rabs (B2R (r : f64) - p) <= 40000 * (N * N * eps) * p + 21 * (N * N * dl) + bpow radix2 (-1000).
Proof.
  intros Hn1. pose proof (n_small eps Heps n Hn1 Hn) as Hn31.
  assert (HnI : (Z.of_nat n <= INT_MAX)%Z) by (unfold INT_MAX; lia).
  destruct (of_Z_ok (Z.of_nat n)) as [Fn Vn]; [lia|].
  pose proof (swept_arranged L E b B Hb HB Hsort) as HA.
  pose proof (swept_tor L E b B) as Hmt.
  pose proof (split_range L E b B Hb HB Hsort) as HR.
  set (D0 := D 0 0 0 0 (bs ++ [(1, END)]) n).
  assert (Hlv : List.length vb = n) by apply map_length.
  assert (HlV : List.length vB = n) by (rewrite map_length; auto).
  pose proof (prob_is_D vb vB bs (proj2 Hb) (proj2 HB) (eq_trans Hlv (eq_sym HlV)) HA) as Hprob.
  rewrite Hlv in Hprob. fold D0 in Hprob.
  exists (INR (fact n) * D0).
  pose proof (arranged_sorted_end _ _ _ HA (proj2 Hb) (proj2 HB)) as HS.
  pose proof (count_b_arranged _ _ _ HA) as Hcb. pose proof (count_B_arranged _ _ _ HA) as HcB.
  rewrite Hlv in Hcb. rewrite HlV in HcB.
  assert (Hswl : List.length (@swept BN E b B) = (2 * n + 1)%nat).
  { unfold swept. rewrite app_length. cbn [List.length].
    destruct (Hsort _ (swo64 L _ (joined_fin L b B Hb HB))) as [HP _]. apply Permutation_length in HP.
    rewrite <- HP. unfold joined. rewrite app_length, !map_length.
    change (@List.length (car BN) b) with n. change (@List.length (car BN) B) with (List.length B). lia. }
  enough (HT : total (@ecdf2 BN E b B uf) (fun r => is_finite (r : f64) = true /\
     Rabs (B2R (r : f64) - INR (fact n) * D0) <= 40000 * (N * N * eps) * (INR (fact n) * D0) + 21 * (N * N * dl) + bpow radix2 (-1000))).
  { apply total_iff in HT. destruct HT as (r & Hr & H1 & H2). exists r. auto. }
  unfold total, ecdf2. change (@size (car BN) b) with (Z.of_nat n).
  assert (Hc1 : @check_boundary_vector BN "b" (Z.of_nat n) b = Ok tt) by exact (check_accepted L "b" b Hb).
  rewrite Hc1. cbn [bind].
  assert (Hc2 : @check_boundary_vector BN "B" (Z.of_nat n) B = Ok tt).
  { rewrite Hlen. exact (check_accepted L "B" B HB). }
  rewrite Hc2. cbn [bind].
  apply wp_bind. unfold poisson_process_noncrossing_probability, join_all_bounds, std_sort.
  fold (@joined BN b B). rewrite (swo64 L _ (joined_fin L b B Hb HB)). cbn [bind]. fold (@swept BN E b B).
  rewrite get_src_make. apply wp_bind, wp_wr; [rewrite size_vec; lia|].
  apply wp_bind, wp_pmfgen64; [lia|]. intros g Hg.
  change (@n_of_Z BN (Z.of_nat n)) with (b64_of_Z (Z.of_nat n)).
  apply wp_bind. apply wp_for_each with (P := fun pre s =>
     forall post, @swept BN E b B = pre ++ post -> inv64 L eps n dl D0 pre post s).
  - (* initially *)
    intros post Hpost. simpl in Hpost. subst post.
    constructor; cbn [e2_b e2_B e2_prev e2_pmf e2_fft e2_buffers map]; auto.
    + apply fft_shape_make. lia.
    + rewrite get_src_set_src. change (@size f64 (upd (vec (Z.of_nat n + 1) (b64_of_Z 0)) (Z.to_nat 0) (b64_of_Z 1)) = Z.of_nat n + 1)%Z.
      rewrite size_upd, size_vec. lia.
    + rewrite get_dest_set_src, get_dest_make. change (@size f64 (vec (Z.of_nat n + 1) (b64_of_Z 0)) = Z.of_nat n + 1)%Z.
      rewrite size_vec. lia.
    + exists (fun o => if (o =? 0)%nat then 1 else 0). unfold count_b, count_B; cbn [map filter List.length end_of].
      assert (Hsc : scale n 0 0 = 1) by (unfold scale; simpl; rewrite Rmult_0_r, Ropp_0, exp_0; ring).
      split; [intros o; destruct (o =? 0)%nat; lra|].
      split; [intros o Ho; destruct (Nat.eqb_spec o 0); auto; lia|].
      split.
      { rewrite (rsum_single (S n) 0); [|lia|].
        - simpl (0 =? 0)%nat. cbv iota. rewrite Hsc. lra.
        - intros i Hi Hne. destruct (Nat.eqb_spec i 0); [congruence|ring]. }
      split.
      * intros o Ho. assert (o = 0)%nat as -> by lia. rewrite get_src_set_src. change (0 =? 0)%nat with true. cbv iota. rewrite Hsc.
        change (fnear (hf eps n ^ 0) (av eps n dl 0) (gb (upd (vec (Z.of_nat n + 1) (b64_of_Z 0)) (Z.to_nat 0) (b64_of_Z 1)) 0) (1 * 1)).
        rewrite get_upd by (rewrite ?size_vec; lia). simpl (0 =? 0)%Z. cbv iota.
        destruct one_ok as [F1 V1]. split; [exact F1|]. unfold near, av. rewrite V1. simpl.
        rewrite Rminus_diag_eq, Rabs_R0 by ring. lra.
      * rewrite (rsum_single (S n) 0); [|lia|].
        -- rewrite Hmt, Nat.sub_0_r. simpl. rewrite Rmult_1_l. reflexivity.
        -- intros i Hi Hne. destruct (Nat.eqb_spec i 0); [congruence|ring].
  - (* step *)
    intros pre x post s Hsp Hinv. eapply wp_mono.
    + apply (step64 L E eps HL Heps n Hn1 Hn uf dl Hdl Hdl32 Hfft) with (D0 := D0) (pre := pre) (post := post).
      * rewrite <- Hsp. exact HR.
      * rewrite <- Hsp, Hmt. exact HS.
      * rewrite <- Hsp, Hmt. lia.
      * rewrite <- Hsp, Hmt. lia.
      * rewrite <- Hswl, Hsp, app_length. simpl. lia.
      * intros HE Hgap Hcnt. apply (Hnobad HE).
        eapply (gap_bad vb vB bs (proj2 Hb) (proj2 HB) (eq_trans Hlv (eq_sym HlV)) HA (map (tor64 L) pre) (tor64 L x) (map (tor64 L) post)); eauto.
        rewrite <- Hmt, Hsp, map_app. reflexivity.
      * apply Hinv. exact Hsp.
    + cbv beta. intros t Ht post' Hpost'.
      assert (post' = post) as ->; [|exact Ht].
      rewrite Hsp, <- app_assoc in Hpost'. apply app_inv_head in Hpost'. simpl in Hpost'. congruence.
  - (* end *)
    intros s Hs. specialize (Hs [] (eq_sym (app_nil_r _))).
    destruct Hs as [Hb' HB' _ _ _ Hsrc _ (u & Hu0 & Hout & Hmass & Hu & Hsum)].
    rewrite Hmt in *. rewrite Hcb, HcB, Hswl in *. rewrite end_of_app in *.
    assert (Hun : u n = D0).
    { rewrite <- Hsum, (rsum_single (S n) n); [|lia|].
      - simpl. rewrite Nat.sub_diag. simpl. ring.
      - intros i Hi Hne. rewrite (Hout i) by lia. ring. }
    assert (HrN : rn n = N) by (unfold rn; rewrite <- INR_IZR_INZ; reflexivity).
    assert (Hsc : scale n 1 n = pois N n * INR (fact n)).
    { rewrite pois_mono, <- HrN. unfold scale, mono. rewrite Rmult_1_r. field. apply fact_neq. }
    specialize (Hu n ltac:(lia)).
    assert (Hm1 : scale n 1 n * u n <= 1).
    { eapply Rle_trans; [|exact Hmass]. apply (rsum_term (S n) (fun o => scale n 1 o * u o) n); [lia|].
      intros i Hi. apply Rmult_le_pos; [apply scale_pos|apply Hu0]. }
    rewrite Hun, Hsc, Rmult_assoc in Hu, Hm1.
    set (p := INR (fact n) * D0) in *.
    assert (Hp : 0 <= p).
    { unfold p. rewrite <- Hun. apply Rmult_le_pos; [apply pos_INR|apply Hu0]. }
    apply wp_ok. apply wp_bind, (wp_rd (b64_of_Z 0)); [change (0 <= Z.of_nat n < @size f64 (get_src (e2_buffers s)))%Z; lia|].
    change (@get (car BN) (b64_of_Z 0) (get_src (e2_buffers s)) (Z.of_nat n)) with (gb (get_src (e2_buffers s)) (Z.of_nat n)).
    set (vh := gb (get_src (e2_buffers s)) (Z.of_nat n)) in *.
    apply wp_bind. unfold poisson_pmf. apply wp_bind, wp_cassert_true; [apply Z.leb_le; lia|].
    assert (HN0 : 0 < B2R (b64_of_Z (Z.of_nat n))) by (rewrite Vn; apply IZR_lt; lia).
    apply wp_bind, wp_cassert_true; [exact (fin_le L _ Fn (Rlt_le _ _ HN0))|].
    assert (Heq : @n_eq BN (b64_of_Z (Z.of_nat n)) n0 = false).
    { change (@n_eq BN (b64_of_Z (Z.of_nat n)) n0) with (Beqb (b64_of_Z (Z.of_nat n)) (b64_of_Z 0)). destruct zero_ok as [F0 V0].
      rewrite Beqb_correct, V0 by auto. apply Req_bool_false. lra. }
    rewrite Heq. apply wp_ok, wp_ok.
    pose proof (N_ge1 n Hn1) as HNg.
    apply (quotient64 eps Heps n Hn1 Hn vh _ (pois N n) p (av eps n dl (2 * n + 1)) dl).
    + apply pois_nn_ge, Hn1.
    + exact Hp.
    + exact Hm1.
    + exact Hdl.
    + exact Hdl32.
    + eapply fnear_weaken; [| |apply Rle_refl|exact Hu].
      * apply Rmult_le_pos; [apply pois_pos; lra|exact Hp].
      * apply hf_pow; auto.
    + apply av_bound; auto.
    + apply (pmf_formula_near L eps HL Heps n Hn1 Hn (b64_of_Z (Z.of_nat n)) N n Fn HN0); [lra| |lia].
      rewrite Vn, <- INR_IZR_INZ, Rminus_diag_eq, Rabs_R0 by reflexivity. pose proof u64_pos.
      apply Rmult_le_pos; lra.
Qed.
End Main.
