(** * FastEcdf2: accuracy of ecdf2 in any arithmetic of FastNum.v. *)
From Coquelicot Require Import Coquelicot.
From Flocq Require Import Core.Core.
From Coq Require Import ZArith Reals List Bool Lia Lra String Permutation Sorted Factorial.
From Verif Require Import Base Num Hoare Common PoissonPmf FFTConv Ecdf2 RSum.
From Verif Require Import Spec SpecFacts Cells Events XEcdf2 XEcdf2Main SafeFft SafeEcdf2.
From Verif Require Import ErrBound AccStep FastNum FastGrow FastPmf FastConv FastFft FastStep.
Import List. Import ListNotations.
Local Open Scope R_scope.

Section Main.
Context (F : num) (E : env F) (fin one raw : car F -> Prop) (val : car F -> R) (u eps eta : R).
Hypothesis HA : arith F fin one raw val u eps eta.
Hypothesis Hu : bpow radix2 (-53) <= u.
Hypothesis Heps : u <= eps.
Hypothesis Heta0 : 0 < eta.
Hypothesis Heta : eta <= bpow radix2 (-1010).

(** ** The final quotient *)
Section Quotient.
Variable n : nat.
Hypothesis Hn1 : (1 <= n)%nat.
Notation N := (INR n).
Hypothesis Hn : 65536 * (N * N) * eps <= 1.
Notation X := (N * N * eps).

Lemma fquotient (vh dh : car F) (d p m dl : R) : / (3 * N) <= d <= 1 -> 0 <= p -> d * p <= 1 ->
  0 <= dl -> 32 * (N * N) * dl <= 1 ->
  anear fin val (1 + 27200 * X) m vh (d * p) -> 0 <= m <= 84 * (N * N) * eta + 6 * N * dl ->
  anear fin val (ff1 eps n) eta dh d ->
  fin (n_div vh dh) /\ Rabs (val (n_div vh dh) - p) <= 40000 * X * p + 21 * (N * N * dl) + bpow radix2 (-910).
Proof.
  intros [Hd Hd1] Hp Hdp Hdl Hdl32 [Fv Hv] Hm [Fd Hdh].
  pose proof (fN_ge1 n Hn1) as HN. pose proof (feps_pos u eps Hu Heps) as He. pose proof (fu_pos u Hu) as Hu0.
  pose proof (fX_range u eps Hu Heps n Hn1 Hn) as HX. pose proof (fNeps_X u eps Hu Heps n Hn1) as HNX.
  pose proof (feta_u u eta Hu Heta) as Heu.
  assert (HuX : u <= X).
  { eapply Rle_trans; [exact Heps|]. eapply Rle_trans; [|exact HNX]. nra. }
  assert (Hd0 : 0 < d) by (eapply Rlt_le_trans; [apply Rinv_0_lt_compat|exact Hd]; lra).
  assert (Hd3 : 1 <= 3 * N * d).
  { apply (Rmult_le_compat_l (3 * N)) in Hd; [|lra]. rewrite Rinv_r in Hd by lra. exact Hd. }
  (* the denominator *)
  assert (Hetad : eta <= X * d).
  { assert (H3 : 3 * eta <= eps).
    { apply Rle_trans with (bpow radix2 2 * bpow radix2 (-1010)); [change (bpow radix2 2) with 4; pose proof (bpow_gt_0 radix2 (-1010)); lra|].
      eapply Rle_trans; [|exact Heps]. eapply Rle_trans; [|exact Hu]. rewrite <- bpow_plus. apply bpow_le. lia. }
    apply Rle_trans with (3 * eta * (N * d)).
    - replace (3 * eta * (N * d)) with (eta * (3 * N * d)) by ring. rewrite <- (Rmult_1_r eta) at 1.
      apply Rmult_le_compat_l; lra.
    - apply Rle_trans with (N * eps * d); [|apply Rmult_le_compat_r; lra].
      replace (N * eps * d) with (eps * (N * d)) by ring. apply Rmult_le_compat_r; [|exact H3]. apply Rmult_le_pos; lra. }
  assert (Hden : Rabs (val dh - d) <= 6401 * (X * d)).
  { unfold near, ff1 in Hdh. eapply Rle_trans; [exact Hdh|].
    assert (6400 * (N * eps) * d <= 6400 * (X * d)).
    { rewrite Rmult_assoc. apply Rmult_le_compat_l; [lra|]. apply Rmult_le_compat_r; lra. }
    replace (1 + 6400 * (N * eps) - 1) with (6400 * (N * eps)) by ring. lra. }
  assert (HXd : 0 <= X * d <= / 65536 * d) by (split; [apply Rmult_le_pos; lra|apply Rmult_le_compat_r; lra]).
  assert (Hlo : 9 / 10 * d <= val dh <= 2) by (apply Rabs_le_inv in Hden; lra).
  assert (Hdh0 : 0 < val dh) by lra.
  (* the exact quotient of the two computed numbers *)
  set (z := val vh / val dh).
  assert (Hzd : z * val dh = val vh) by (unfold z; field; lra).
  assert (Hdp0 : 0 <= d * p) by (apply Rmult_le_pos; lra).
  unfold near in Hv. replace (1 + 27200 * X - 1) with (27200 * X) in Hv by ring.
  pose proof (ftiny u eps eta Hu Heps Heta0 Heta n Hn1 Hn) as Ht.
  assert (HT0 : 0 <= N * (N * N) * eta) by (apply Rmult_le_pos; [|lra]; apply Rmult_le_pos; [lra|apply Rmult_le_pos; lra]).
  assert (Hsm : 300 * (N * (N * N) * eta) <= bpow radix2 (-910)).
  { apply Rle_trans with (bpow radix2 9 * bpow radix2 (-950)).
    - apply Rmult_le_compat; [lra|exact HT0|change (bpow radix2 9) with 512; lra|exact Ht].
    - rewrite <- bpow_plus. apply bpow_le. lia. }
  assert (H900 : bpow radix2 (-910) <= / 4) by (change (/ 4) with (bpow radix2 (-2)); apply bpow_le; lia).
  assert (HNN : 1 <= N * N) by nra.
  assert (Hm4 : m <= 1).
  { assert (N * N * eta <= N * (N * N) * eta) by (apply Rmult_le_compat_r; [lra|]; rewrite <- (Rmult_1_l (N * N)) at 1; apply Rmult_le_compat_r; lra).
    assert (N * dl <= N * N * dl) by (apply Rmult_le_compat_r; [lra|]; rewrite <- (Rmult_1_l N) at 1; apply Rmult_le_compat_r; lra).
    rewrite (Rmult_assoc 84), (Rmult_assoc 6) in Hm. rewrite (Rmult_assoc 32) in Hdl32. lra. }
  assert (HNdl : 0 <= N * N * dl) by (apply Rmult_le_pos; [apply Rmult_le_pos|]; lra).
  assert (Hv4 : Rabs (val vh) <= 4).
  { replace (val vh) with ((val vh - d * p) + d * p) by ring. eapply Rle_trans; [apply Rabs_triang|].
    rewrite (Rabs_pos_eq (d * p)) by exact Hdp0.
    assert (27200 * X * (d * p) <= 1 * 1) by (apply Rmult_le_compat; lra). lra. }
  assert (Hdlo : bpow radix2 (-30) <= val dh).
  { pose proof (fN_19 u eps Hu Heps n Hn1 Hn) as H19.
    apply Rle_trans with (9 / 10 * d); [|lra]. apply Rle_trans with (9 / 10 * / (3 * N)); [|lra].
    apply Rle_trans with (9 / 10 * / (3 * bpow radix2 19)).
    - change (bpow radix2 (-30)) with (/ 1073741824). change (bpow radix2 19) with 524288. lra.
    - apply Rmult_le_compat_l; [lra|]. apply Rinv_le_contravar; lra. }
  assert (Hnum : Rabs ((z - p) * val dh) <= 33601 * X * (d * p) + m).
  { replace ((z - p) * val dh) with ((val vh - d * p) + p * (d - val dh)) by (rewrite Rmult_minus_distr_r, Hzd; ring).
    eapply Rle_trans; [apply Rabs_triang|]. rewrite Rabs_mult, (Rabs_pos_eq p Hp), Rabs_minus_sym with (x := d).
    assert (p * Rabs (val dh - d) <= p * (6401 * (X * d))) by (apply Rmult_le_compat_l; lra).
    replace (p * (6401 * (X * d))) with (6401 * X * (d * p)) in H by ring. lra. }
  assert (Hmd : m <= (280 * (N * (N * N) * eta) + 20 * (N * N * dl)) * (9 / 10 * d)).
  { apply Rle_trans with ((84 * (N * N) * eta + 6 * N * dl) * (3 * N * d)); [|apply Req_le; field].
    rewrite <- (Rmult_1_r m). apply Rmult_le_compat; lra. }
  assert (Hzp : Rabs (z - p) <= 37335 * (X * p) + (280 * (N * (N * N) * eta) + 20 * (N * N * dl))).
  { apply (Rmult_le_reg_r (9 / 10 * d)); [lra|].
    apply Rle_trans with (Rabs ((z - p) * val dh)).
    - rewrite Rabs_mult, (Rabs_pos_eq (val dh)) by lra. apply Rmult_le_compat_l; [apply Rabs_pos|lra].
    - eapply Rle_trans; [exact Hnum|]. rewrite Rmult_plus_distr_r. apply Rplus_le_compat; [|exact Hmd].
      replace (37335 * (X * p) * (9 / 10 * d)) with (336015 / 10 * X * (d * p)) by field.
      apply Rmult_le_compat_r; [exact Hdp0|]. lra. }
  assert (HXp : 0 <= X * p <= / 65536 * p) by (split; [apply Rmult_le_pos; lra|apply Rmult_le_compat_r; lra]).
  destruct (ar_div _ _ _ _ _ _ _ _ HA vh dh Fv Fd Hv4 ltac:(split; [exact Hdlo|lra])) as [Fq Eq].
  fold z in Eq. split; [exact Fq|]. set (r := n_div vh dh) in *.
  assert (HZ2 : u * Rabs z <= u * (Rabs (z - p)) + u * p).
  { rewrite <- Rmult_plus_distr_l. apply Rmult_le_compat_l; [lra|]. replace z with ((z - p) + p) at 1 by ring.
    eapply Rle_trans; [apply Rabs_triang|]. rewrite (Rabs_pos_eq p Hp). lra. }
  assert (Hup : u * p <= X * p) by (apply Rmult_le_compat_r; lra).
  assert (Huz : u * Rabs (z - p) <= / 65536 * Rabs (z - p)) by (apply Rmult_le_compat_r; [apply Rabs_pos|lra]).
  replace (val r - p) with ((val r - z) + (z - p)) by ring. eapply Rle_trans; [apply Rabs_triang|].
  assert (Heta1 : eta <= N * (N * N) * eta).
  { rewrite <- (Rmult_1_l eta) at 1; apply Rmult_le_compat_r; [lra|nra]. }
  rewrite (Rmult_assoc 3) in Eq. rewrite (Rmult_assoc 40000). lra.
Qed.
End Quotient.

Variables b B : list (car F).
Hypothesis Hb : accepted_in fin val b.
Hypothesis HB : accepted_in fin val B.
Hypothesis Hpb : Forall (fun x => raw x /\ plain (val x)) b.
Hypothesis HpB : Forall (fun x => raw x /\ plain (val x)) B.
Hypothesis Hlen : List.length b = List.length B.
Hypothesis Hsort : sort_ok E.
Notation n := (List.length b).
Notation N := (INR (List.length b)).
Hypothesis Hn1 : (1 <= n)%nat.
Hypothesis Hn : 65536 * (N * N) * eps <= 1.
Notation vb := (map val b).
Notation vB := (map val B).
Variable dl : R.
Hypothesis Hdl : 0 <= dl.
Hypothesis Hdl32 : 32 * (N * N) * dl <= 1.
Variable uf : bool.
Hypothesis Huf : uf = true -> (n <= 126)%nat \/
  exists e, arith_fft F fin val u eta /\ fft_accurate_in fin val E e /\ 2 * u <= e /\ e <= / 4096 /\ 400 * e <= dl.
Hypothesis Hnobad : asserts E = true -> ~ bad_pair vb vB.
Notation tovF := (tov F val).
Notation bs := (map tovF (sort_bounds E (joined b B))).

Lemma facc :
  exists p r, is_noncrossing_probability vb vB p /\ ecdf2 E b B uf = Ok r /\ fin r /\
    Rabs (val r - p) <= 40000 * (N * N * eps) * p + 21 * (N * N * dl) + bpow radix2 (-910).
Proof.
  pose proof (fn_small u eps Hu Heps n Hn1 Hn) as Hn31.
  destruct (ar_int _ _ _ _ _ _ _ _ HA (Z.of_nat n) ltac:(lia)) as (Fn & On & _ & Vn).
  destruct (f0_ok F fin one raw val u eps eta HA) as [F0 V0].
  destruct (f1_ok F fin one raw val u eps eta HA) as [F1 V1].
  pose proof (proj1 (proj2 (proj2 (ar_int _ _ _ _ _ _ _ _ HA 0 ltac:(lia))))) as R0.
  pose proof (fswept_arranged F E fin one raw val u eps eta HA b B Hb HB Hsort) as HAr.
  pose proof (fswept_tov F E fin one raw val u eps eta HA b B) as Hmt.
  pose proof (fswept_range F E fin one raw val u eps eta HA b B Hb HB Hpb HpB Hsort) as HR.
  set (D0 := D 0 0 0 0 (bs ++ [(1, END)]) n).
  assert (Hlv : List.length vb = n) by apply map_length.
  assert (HlV : List.length vB = n) by (rewrite map_length; auto).
  pose proof (prob_is_D vb vB bs (proj2 Hb) (proj2 HB) (eq_trans Hlv (eq_sym HlV)) HAr) as Hprob.
  rewrite Hlv in Hprob. fold D0 in Hprob.
  exists (INR (fact n) * D0).
  pose proof (arranged_sorted_end _ _ _ HAr (proj2 Hb) (proj2 HB)) as HS.
  pose proof (count_b_arranged _ _ _ HAr) as Hcb. pose proof (count_B_arranged _ _ _ HAr) as HcB.
  rewrite Hlv in Hcb. rewrite HlV in HcB.
  pose proof (fswo F fin one raw val u eps eta HA _ (fjoined F fin val b B Hb HB)) as Hswo.
  assert (Hswl : List.length (swept E b B) = (2 * n + 1)%nat).
  { unfold swept. rewrite app_length. cbn [List.length].
    destruct (Hsort _ Hswo) as [HP _]. apply Permutation_length in HP.
    rewrite <- HP. unfold joined. rewrite app_length, !map_length. lia. }
  enough (HT : total (ecdf2 E b B uf) (fun r => fin r /\
     Rabs (val r - INR (fact n) * D0) <= 40000 * (N * N * eps) * (INR (fact n) * D0) + 21 * (N * N * dl) + bpow radix2 (-910))).
  { apply total_iff in HT. destruct HT as (r & Hr & H1 & H2). exists r. auto. }
  unfold total, ecdf2. change (size b) with (Z.of_nat n).
  assert (Hc1 : check_boundary_vector "b" (Z.of_nat n) b = Ok tt) by exact (fcheck F fin one raw val u eps eta HA "b" b Hb).
  rewrite Hc1. cbn [bind].
  assert (Hc2 : check_boundary_vector "B" (Z.of_nat n) B = Ok tt).
  { rewrite Hlen. exact (fcheck F fin one raw val u eps eta HA "B" B HB). }
  rewrite Hc2. cbn [bind].
  apply wp_bind. unfold poisson_process_noncrossing_probability, join_all_bounds, std_sort.
  fold (joined b B). rewrite Hswo. cbn [bind]. fold (swept E b B).
  rewrite get_src_make. apply wp_bind, wp_wr; [rewrite size_vec; lia|].
  apply wp_bind, wp_fpmfgen; [lia|]. intros g Hg.
  apply wp_bind. apply wp_for_each with (P := fun pre s =>
     forall post, swept E b B = pre ++ post -> finv F fin raw val u eps eta n dl D0 pre post s).
  - (* initially *)
    intros post Hpost. simpl in Hpost. subst post.
    constructor; cbn [e2_b e2_B e2_prev e2_pmf e2_fft e2_buffers map]; auto.
    + apply fft_shape_make. lia.
    + rewrite get_src_set_src. rewrite size_upd, size_vec. lia.
    + rewrite get_dest_set_src, get_dest_make, size_vec. lia.
    + exists (fun o => if (o =? 0)%nat then 1 else 0). unfold count_b, count_B; cbn [map filter List.length end_of].
      assert (Hsc : scale n 0 0 = 1) by (unfold scale; simpl; rewrite Rmult_0_r, Ropp_0, exp_0; ring).
      split; [intros o; destruct (o =? 0)%nat; lra|].
      split; [intros o Ho; destruct (Nat.eqb_spec o 0); auto; lia|].
      split.
      { rewrite (rsum_single (S n) 0); [|lia|].
        - simpl (0 =? 0)%nat. cbv iota. rewrite Hsc. lra.
        - intros i Hi Hne. destruct (Nat.eqb_spec i 0); [congruence|ring]. }
      split.
      * intros o Ho. assert (o = 0)%nat as -> by lia. rewrite get_src_set_src. change (0 =? 0)%nat with true. cbv iota. rewrite Hsc.
        change (Z.of_nat 0) with 0%Z.
        rewrite get_upd by (rewrite ?size_vec; lia). simpl (0 =? 0)%Z. cbv iota.
        split; [exact F1|]. unfold near, fav. rewrite V1. simpl.
        rewrite Rminus_diag_eq, Rabs_R0 by ring. lra.
      * rewrite (rsum_single (S n) 0); [|lia|].
        -- rewrite Hmt, Nat.sub_0_r. simpl. rewrite Rmult_1_l. reflexivity.
        -- intros i Hi Hne. destruct (Nat.eqb_spec i 0); [congruence|ring].
  - (* step *)
    intros pre x post s Hsp Hinv. eapply wp_mono.
    + apply (fstep F E fin one raw val u eps eta HA Hu Heps Heta0 Heta n Hn1 Hn dl Hdl Hdl32 uf Huf) with (D0 := D0) (pre := pre) (post := post).
      * rewrite <- Hsp. exact HR.
      * rewrite <- Hsp, Hmt. exact HS.
      * rewrite <- Hsp, Hmt. lia.
      * rewrite <- Hsp, Hmt. lia.
      * rewrite <- Hswl, Hsp, app_length. simpl. lia.
      * intros HE Hgap Hcnt. apply (Hnobad HE).
        eapply (gap_bad vb vB bs (proj2 Hb) (proj2 HB) (eq_trans Hlv (eq_sym HlV)) HAr (map tovF pre) (tovF x) (map tovF post)); eauto.
        rewrite <- Hmt, Hsp, map_app. reflexivity.
      * apply Hinv. exact Hsp.
    + cbv beta. intros t Ht post' Hpost'.
      assert (post' = post) as ->; [|exact Ht].
      rewrite Hsp, <- app_assoc in Hpost'. apply app_inv_head in Hpost'. simpl in Hpost'. congruence.
  - (* end *)
    intros s Hs. specialize (Hs [] (eq_sym (app_nil_r _))).
    destruct Hs as [Hb' HB' _ _ _ Hsrc _ (w & Hw0 & Hout & Hmass & Hw & Hsum)].
    rewrite Hmt in *. rewrite Hcb, HcB, Hswl in *. rewrite end_of_app in *.
    assert (Hun : w n = D0).
    { rewrite <- Hsum, (rsum_single (S n) n); [|lia|].
      - simpl. rewrite Nat.sub_diag. simpl. ring.
      - intros i Hi Hne. rewrite (Hout i) by lia. ring. }
    assert (HrN : rn n = N) by (unfold rn; rewrite <- INR_IZR_INZ; reflexivity).
    assert (Hsc : scale n 1 n = pois N n * INR (fact n)).
    { rewrite pois_mono, <- HrN. unfold scale, mono. rewrite Rmult_1_r. field. apply fact_neq. }
    specialize (Hw n ltac:(lia)).
    assert (Hm1 : scale n 1 n * w n <= 1).
    { eapply Rle_trans; [|exact Hmass]. apply (rsum_term (S n) (fun o => scale n 1 o * w o) n); [lia|].
      intros i Hi. apply Rmult_le_pos; [apply scale_pos|apply Hw0]. }
    rewrite Hun, Hsc, Rmult_assoc in Hw, Hm1.
    set (p := INR (fact n) * D0) in *.
    assert (Hp : 0 <= p).
    { unfold p. rewrite <- Hun. apply Rmult_le_pos; [apply pos_INR|apply Hw0]. }
    apply wp_ok. apply wp_bind, (wp_rd n0); [lia|].
    set (vh := get n0 (get_src (e2_buffers s)) (Z.of_nat n)) in *.
    apply wp_bind. unfold poisson_pmf. apply wp_bind, wp_cassert_true; [apply Z.leb_le; lia|].
    assert (HN1 : 1 <= val (n_of_Z (Z.of_nat n))) by (rewrite Vn; apply IZR_le; lia).
    apply wp_bind, wp_cassert_true.
    { rewrite (ar_le _ _ _ _ _ _ _ _ HA n0 (n_of_Z (Z.of_nat n)) F0 Fn), V0. apply Rle_bool_true. lra. }
    rewrite (ar_eq _ _ _ _ _ _ _ _ HA (n_of_Z (Z.of_nat n)) n0 Fn F0), V0, Req_bool_false by lra.
    apply wp_ok, wp_ok.
    pose proof (fN_ge1 n Hn1) as HNg.
    apply (fquotient n Hn1 Hn vh _ (pois N n) p (fav u eps eta n dl (2 * n + 1)) dl).
    + split; [apply pois_nn_ge, Hn1|].
      eapply Rle_trans; [|apply (pois_sum N (S n)); lra].
      apply (rsum_term (S n) (pois N) n); [lia|]. intros i Hi. apply pois_pos. lra.
    + exact Hp.
    + exact Hm1.
    + exact Hdl.
    + exact Hdl32.
    + eapply anear_weaken; [| |apply Rle_refl|exact Hw].
      * apply Rmult_le_pos; [apply pois_pos; lra|exact Hp].
      * apply (fh_pow u eps Hu Heps); auto.
    + apply (fav_bound u eps eta Hu Heps Heta0); auto.
    + apply (fpmf_near F fin one raw val u eps eta HA Hu Heps Heta n Hn1 Hn (n_of_Z (Z.of_nat n)) N n Fn On); [|lra| |lia].
      * eapply Rle_trans; [|exact HN1]. change 1 with (bpow radix2 0). apply bpow_le. lia.
      * rewrite Vn, <- INR_IZR_INZ, Rminus_diag_eq, Rabs_R0 by reflexivity. pose proof (fu_pos u Hu).
        apply Rmult_le_pos; lra.
Qed.
End Main.
