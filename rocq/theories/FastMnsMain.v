(** * FastMnsMain: accuracy of ecdf1_mns2016_b and ecdf1_mns2016_B under -ffast-math, FLOAT being the x87 long double. *)
From Coquelicot Require Import Coquelicot.
From Flocq Require Import Core.Core IEEE754.BinarySingleNaN.
From Coq Require Import ZArith Reals List Bool Lia Lra Factorial String Permutation Sorted.
From Verif Require Import Base Num Hoare Common RSum Binary64 Binary64Facts B64Round LongDouble LdRound Ecdf1Mns NewMath MnsMath MnsErr MnsRun AccPmf AccMnsEval AccMnsStep AccMnsTail AccMns AccMnsMain.
From Verif Require Import Spec SpecFacts Reflect SafeNew SafeMns ProbLipschitz AccNewFinal.
From Verif Require Import FastMath FastInst FastNewLower FastLong FastMnsSum FastMnsEval FastMnsStep FastMnsTail.
Import List. Import ListNotations.
Local Open Scope R_scope.

(** ** The input check *)
Section Check.
Context (C : compiler) (L : libm).
Notation FN := (Fnum C L).
Notation flush := (cp_flush C).
Notation pick := (cp_sum C).

Lemma sv_value (x y : f64) : is_finite x = true -> is_finite y = true -> B2R x = B2R y -> sv flush x = sv flush y.
Proof.
  intros Fx Fy H. unfold sv, seen. rewrite Fx, Fy, H. destruct (flush && true && Rlt_bool (Rabs (B2R y)) (bpow radix2 (-1022)))%bool; auto.
Qed.
Lemma sv_mono (x y : f64) : is_finite x = true -> is_finite y = true -> 0 <= B2R x <= B2R y -> sv flush x <= sv flush y.
Proof.
  intros Fx Fy H. unfold sv, seen. rewrite Fx, Fy, !Rabs_pos_eq by lra. destruct flush; cbn [andb]; [|lra].
  change (B2R (B754_zero false : f64)) with 0.
  destruct (Rlt_bool_spec (B2R x) (bpow radix2 (-1022))), (Rlt_bool_spec (B2R y) (bpow radix2 (-1022)));
    change (B2R (B754_zero false : f64)) with 0; lra.
Qed.
Lemma flt (x y : car FN) : is_finite (pick x) = true -> is_finite (pick y) = true ->
  n_lt x y = Rlt_bool (sv flush (pick x)) (sv flush (pick y)).
Proof. intros Fx Fy. change (n_lt x y) with (Bltb (seen flush (pick x)) (seen flush (pick y))). apply Bltb_correct; apply seen_fin; assumption. Qed.
Lemma fninf (x : car FN) : is_finite (pick x) = true -> n_lt x n_ninf = false.
Proof.
  intros Fx. change (n_lt x n_ninf) with (Bltb (seen flush (pick x)) (seen flush (pick (lit (B754_infinity true))))). rewrite pick_lit.
  pose proof (seen_fin flush (pick x) Fx) as F. destruct (seen_cases flush (B754_infinity true)) as [-> |(H & _)]; [|discriminate].
  destruct (seen flush (pick x)); try discriminate F; reflexivity.
Qed.

Lemma fmono (bl : list (car FN)) : forall (b : list f64) (prev : car FN) (p : f64),
  Forall2 (fun (x : car FN) (v : f64) => is_finite (pick x) = true /\ B2R (pick x) = B2R v) bl b ->
  is_finite (pick prev) = true -> B2R (pick prev) = B2R p -> 0 <= B2R p ->
  Forall (fun v : f64 => 0 <= B2R v) b -> StronglySorted Rle (B2R p :: map B2R b) -> is_monotone_from prev bl = true.
Proof.
  induction bl as [|x bl IH]; intros b prev p H2 Fp Vp H0 HF HS; [reflexivity|].
  inversion H2 as [|? v ? b' [Fx Vx] H2']; subst. inversion HF; subst. inversion HS as [|? ? HS' HA]; subst. cbn [map] in HA.
  inversion HA; subst. cbn [is_monotone_from]. rewrite flt by assumption. rewrite Rlt_bool_false by (apply sv_mono; [assumption..|rewrite Vp, Vx; lra]).
  apply (IH b' x v); auto.
Qed.

Lemma check_stands name (bl : list (car FN)) (b : list f64) : accepted64 b -> List.length bl = List.length b ->
  (forall i, (i < List.length b)%nat -> stands C (nth i bl (lit (b64_of_Z 0))) (nth i b (B754_zero false))) ->
  check_boundary_vector name (size bl) bl = Ok tt.
Proof.
  intros [HF [HS HR]] Hlen Hst.
  assert (H2 : Forall2 (fun (x : car FN) (v : f64) => is_finite (pick x) = true /\ B2R (pick x) = B2R v) bl b).
  { clear HF HS HR. revert b Hlen Hst. induction bl as [|x bl IH]; intros [|v b] Hlen Hst; try discriminate; constructor.
    - apply (Hst O). cbn. lia.
    - apply IH; [injection Hlen; auto|]. intros i Hi. apply (Hst (S i)). cbn. lia. }
  unfold check_boundary_vector. rewrite Z.eqb_refl. cbn [negb].
  destruct bl as [|x bl]; [reflexivity|]. destruct b as [|v b]; [discriminate|].
  inversion H2 as [|? ? ? ? [Fx Vx] H2']; subst. apply Sorted_StronglySorted in HS; [|intros ? ? ?; apply Rle_trans].
  inversion HR as [|? ? Hr HR']; subst.
  unfold is_monotone_increasing. cbn [is_monotone_from]. rewrite fninf by assumption.
  assert (H0 : Forall (fun v : f64 => 0 <= B2R v) b).
  { rewrite Forall_forall in HR' |- *. intros y Hy. apply (HR' (B2R y)), in_map, Hy. }
  rewrite (fmono bl b x v H2' Fx Vx (proj1 Hr) H0 HS). cbn [negb].
  rewrite (proj2 (Z.ltb_lt 0 _)) by (unfold size; cbn [List.length]; lia).
  change (front (x :: bl)) with (Ok x). cbn [bind].
  destruct (sv_of_Z C 0 ltac:(lia)) as [F0 V0]. destruct (sv_of_Z C 1 ltac:(lia)) as [F1 V1].
  assert (P0 : pick (@n0 FN) = b64_of_Z 0) by (apply pick_lit). assert (P1 : pick (@n1 FN) = b64_of_Z 1) by (apply pick_lit).
  rewrite flt by (rewrite ?P0; assumption). rewrite P0, V0.
  assert (Z0 : B2R (b64_of_Z 0) = 0) by reflexivity.
  rewrite Rlt_bool_false by (rewrite <- V0; apply sv_mono; [assumption..|rewrite Z0, Vx; lra]).
  set (k := List.length b).
  assert (HB : @back FN (x :: bl) = Ok (nth k (x :: bl) (@n0 FN))).
  { unfold back. rewrite (rd_get (@n0 FN)).
    - f_equal. unfold get. f_equal. unfold size. cbn [List.length] in *. unfold k. lia.
    - unfold size. cbn [List.length]. lia. }
  rewrite HB. cbn [bind].
  destruct (Hst k) as [[Fk Vk] _]; [cbn; unfold k; lia|].
  rewrite flt by (rewrite ?P1; assumption). rewrite P1.
  destruct (of_Z_ok 1 ltac:(lia)) as [_ W1].
  assert (Hk : 0 <= B2R (nth k (v :: b) (B754_zero false)) <= 1).
  { rewrite Forall_forall in HR. apply HR, in_map, nth_In. cbn. unfold k. lia. }
  rewrite Rlt_bool_false; [reflexivity|]. apply sv_mono; [exact Fk|exact F1|]. 
  change (@n0 FN) with (lit (b64_of_Z 0)). rewrite W1, Vk. exact Hk.
Qed.
End Check.

Section Acc.
Context (C : compiler) (L : libm) (D : lcompiler) (M : libml) (eps : R) (E : env (Fnum C L)).
Notation FN := (Fnum C L).
Notation LD := (fast87 C L D M).
Notation ls := (lc_sum D).
Notation pick := (cp_sum C).
Hypothesis HM : libml_accurate M eps.
Hypothesis Heps : u80 <= eps.
Hypothesis Heps1 : eps <= bpow radix2 (-40).
Hypothesis HLD : long_dbl E = fast87 C L D M.

Section Fixed.
Variables (bl : list (car FN)) (b : list f64).
Hypothesis Hb : accepted64 b.
Notation n := (List.length b).
Hypothesis Hn : (n <= 4096)%nat.
Hypothesis Hlen : List.length bl = n.
Hypothesis Hst : forall i, (i < n)%nat -> stands C (nth i bl (lit (b64_of_Z 0))) (nth i b (B754_zero false)).
Notation bx := (bx b).

Lemma loop_fast : exists (I : f80) (delta : Z),
  is_finite I = true /\ (0 <= delta)%Z /\ bpow radix2 delta <= 2 * INR (fact n) /\
  Rabs (INR (fact n) * B2R I / bpow radix2 delta - INR (fact n) * h (map B2R b) n 1) <= err_bound eps b /\
  @ecdf1_mns2016_b FN E bl = Ok (lit (mns_tail_fast D M n I delta)).
Proof.
  enough (HT : total (@ecdf1_mns2016_b FN E bl) (fun r => exists (I : f80) (delta : Z),
    is_finite I = true /\ (0 <= delta)%Z /\ bpow radix2 delta <= 2 * INR (fact n) /\
    Rabs (INR (fact n) * B2R I / bpow radix2 delta - INR (fact n) * h (map B2R b) n 1) <= err_bound eps b /\
    r = lit (mns_tail_fast D M n I delta))).
  { apply total_iff in HT. destruct HT as (r & Hr & I & delta & H1 & H2 & H3 & H4 & ->). exists I, delta. auto. }
  unfold total, ecdf1_mns2016_b. rewrite HLD. unfold mns_b.
  rewrite (check_stands C L "b"%string bl b Hb Hlen Hst). cbn [bind].
  replace (@size (car FN) bl) with (Z.of_nat n) by (unfold size; f_equal; symmetry; exact Hlen).
  unfold ptm_make. apply wp_bind. apply wp_bind, wp_cassert_true; [apply Z.leb_le; lia|]. apply wp_ok.
  assert (Hr0 : @repr FN LD n (@mkPtm (ld LD) 0 (vec (Z.of_nat n + 1 + 1) n0) (vec (Z.of_nat n + 1 + 1) n0)) 0 (fun _ => n0) (fun _ => n0)).
  { unfold repr. cbn [degree mult addc]. rewrite !size_vec. split; [reflexivity|]. split; [lia|]. split; [lia|].
    intros i Hi. rewrite !get_vec by lia. split; reflexivity. }
  apply wp_bind. eapply (run_set_mult0 E LD n); [exact Hr0|lia|]. intros p0 Hp0.
  apply wp_bind. apply wp_for with (P := fun j s => Inv3 C L D M eps b (Z.to_nat j) s).
  - exists (fun _ => 1), (@m_set FN LD (fun _ => @n0 (ld LD)) (@n1 (ld LD)) : nat -> list f80), (fun _ => f80_of_Z 0). cbn [fst snd].
    split; [exact Hp0|]. split; [|split; [|split; [reflexivity|split; [|split; [lia|split]]]]].
    + intros i Hi. destruct i; [|simpl in Hi; lia]. split; reflexivity.
    + intros i Hi. destruct i; [|simpl in Hi; lia].
      change (ls (@m_set FN LD (fun _ => @n0 (ld LD)) (@n1 (ld LD)) 0)) with (ls [f80_of_Z 1]). rewrite ls_one.
      destruct (ofZ80 1) as [F1 V1]; [lia|]. split; [exact F1|]. rewrite V1. unfold ideal. simpl.
      replace (1 - 1 * 1 / 1) with 0 by lra. rewrite Rabs_R0. lra.
    + intros k Hk. simpl in Hk. lia.
    + unfold lead. simpl. lra.
    + unfold lead, floor_lead. replace (bpow radix2 0 / INR (fact (Z.to_nat 0))) with (bpow radix2 0) by (simpl; lra).
      apply bpow_le. change ((Z.to_nat 0 - 1) mod 16)%nat with O. lia.
  - intros j s Hj Hs. replace (Z.to_nat (j + 1)) with (S (Z.to_nat j)) by lia.
    replace j with (Z.of_nat (Z.to_nat j)) at 1 by lia. apply (step_ok3 C L D M eps E HM Heps Heps1 bl b Hb Hn Hlen Hst); [lia|exact Hs].
  - replace (Z.to_nat (Z.max 0 (Z.of_nat n))) with n by lia.
    intros [p delta] (c & m & a & Hr & Ha & Hc & H0 & He & HD & Hhi & Hfl). cbn [fst snd] in *.
    apply wp_bind. eapply (run_evaluate LD n); [exact Hr|lia|]. apply wp_ok.
    set (sig := bpow radix2 delta) in *. assert (Hs : 0 < sig) by apply bpow_gt_0.
    assert (Hlo : lo <= lead sig n).
    { eapply Rle_trans; [|exact Hfl]. unfold lo, floor_lead. apply bpow_le.
      pose proof (Nat.mod_upper_bound (n - 1) 16 ltac:(lia)). lia. }
    destruct (ofZ80 1) as [F1 V1]; [lia|].
    pose proof (bx_01 b Hb Hn) as H01.
    destruct (eval_fast C L D M eps HM Heps Heps1 m a (f80_of_Z 1) (ideal c sig n) (slack sig n) n) as (Fr & Vr & _ & _).
    + exact F1.
    + intros i Hi. apply Hc, Hi.
    + intros i Hi. apply Ha, Hi.
    + intros i Hi. destruct (Ha i Hi) as [_ V]. rewrite V, V1. destruct i as [|i]; [lra|]. pose proof (H01 (n - S i)%nat). lra.
    + exact Hn.
    + intros i Hi. apply Hc, Hi.
    + intros i Hi. apply (eta_ideal eps Heps Heps1 b Hb Hn); auto.
    + intros i Hi. pose proof (eta_slack b Hn sig n i Hs Hlo Hi). pose proof eta80_pos. lra.
    + apply (slack_sum_le b Hn); auto.
    + eapply Rle_trans; [apply (ideal_sum eps Heps Heps1 b Hb Hn); auto|]. apply bpow_le. lia.
    + unfold within, target in Vr. change (@n1 (ld LD)) with [f80_of_Z 1].
      set (I := ls (@evalf FN LD m (fun i => [a i]) [f80_of_Z 1] (S n))) in *.
      exists I, delta. fold sig.
      split; [exact Fr|]. split; [exact HD|]. pose proof (INR_fact_lt_0 n) as Hf.
      split; [|split; [|unfold mns_tail_fast; change (lit (f64_of_f80 (ls [lm_expl M (ls [lm_lgammal M (Z.of_nat n + 1); lm_logl M I; Bopp (Bmult mode_NE (ls [f80_of_Z delta]) (ls [lm_logl M (ls [f80_of_Z 2])]))])]))
        = lit (f64_of_f80 (lm_expl M (ls [lm_lgammal M (Z.of_nat n + 1); lm_logl M I; Bopp (Bmult mode_NE (f80_of_Z delta) (lm_logl M (f80_of_Z 2)))])))); rewrite !ls_one; reflexivity]].
      { unfold lead in Hhi. apply (Rmult_le_compat_r (INR (fact n))) in Hhi; [|lra]. unfold Rdiv in Hhi.
        rewrite Rmult_assoc, Rinv_l in Hhi by lra. lra. }
      assert (HA : forall i, (i <= n)%nat -> (B2R (f80_of_Z 1) + B2R (a i)) ^ i = (1 - bx (n - i)) ^ i).
      { intros i Hi. destruct (Ha i Hi) as [_ V]. rewrite V, V1. destruct i as [|i]; [reflexivity|]. reflexivity. }
      assert (S1 : rsum (S n) (fun i => ideal c sig n i * (B2R (f80_of_Z 1) + B2R (a i)) ^ i) = sig * G bx c n 0 1).
      { unfold G. rewrite rsum_rev, <- rsum_scal. apply rsum_ext. intros j Hj. replace (S n - 1 - j)%nat with (n - j)%nat by lia.
        rewrite HA by lia. unfold ideal. replace (n - (n - j))%nat with j by lia. rewrite Nat.add_0_r. unfold mono. field. apply fact_neq. }
      assert (S2 : rsum (S n) (fun i => Rabs (ideal c sig n i) * (B2R (f80_of_Z 1) + B2R (a i)) ^ i) = sig * Gabs bx c n 0 1).
      { unfold Gabs. rewrite rsum_rev, <- rsum_scal. apply rsum_ext. intros j Hj. replace (S n - 1 - j)%nat with (n - j)%nat by lia.
        rewrite HA by lia. unfold ideal. replace (n - (n - j))%nat with j by lia. rewrite Nat.add_0_r. unfold mono, Rdiv.
        rewrite !Rabs_mult, (Rabs_pos_eq sig) by lra. rewrite (Rabs_pos_eq (/ INR (fact (n - j)))) by apply Rlt_le, inv_fact_pos. ring. }
      rewrite S1, S2, slack_sum in Vr.
      assert (Hg0 : 0 <= gam eps b) by (apply gam_pos; assumption).
      assert (HgN : 4 * gam eps b * INR (S n) <= 1) by (pose proof (gam_n eps Heps Heps1 b Hn); lra).
      assert (Hw0 : 0 < wabs) by apply wabs_pos.
      assert (Hbn : bx n <= 1 <= 1) by (split; [apply H01|lra]).
      pose proof (Gabs_size bx (bx_mono b Hb Hn) c (gam eps b) wabs n Hg0 HgN (Rlt_le _ _ Hw0) (w_n1 b Hn n (le_n n)) H01 H0 He n 1 (le_n n) Hbn) as HGs.
      pose proof (final_error bx (bx_mono b Hb Hn) c (gam eps b) wabs n Hg0 HgN (Rlt_le _ _ Hw0) (w_n1 b Hn n (le_n n)) H01 H0 He 1 Hbn) as HGf.
      rewrite (h_G b Hn) by lia.
      set (g := G bx c n 0 1) in *. set (g0 := G bx (coef bx) n 0 1) in *. set (ga := Gabs bx c n 0 1) in *.
      set (f := INR (fact n)) in *. set (N := INR (S n)) in *.
      fold (gam eps b) in Vr. set (gm := gam eps b) in *.
      assert (HgmE : gm = 7 * N * eps) by reflexivity.
      assert (K1 : f * ga <= 8).
      { apply (Rmult_le_compat_l f) in HGs; [|lra]. replace (f * (8 / f)) with 8 in HGs by (field; lra). exact HGs. }
      assert (K2 : f * Rabs (g - g0) <= wabs * 2 ^ n + 8 * gm * N).
      { apply (Rmult_le_compat_l f) in HGf; [|lra]. replace (f * ((wabs * 2 ^ n + 8 * gm * N) / f)) with (wabs * 2 ^ n + 8 * gm * N) in HGf by (field; lra). exact HGf. }
      assert (K3 : f / sig * Rabs (B2R I - sig * g) <= gm * (f * ga) + wabs).
      { assert (Hfs : 0 < f / sig) by (unfold Rdiv; apply Rmult_lt_0_compat; [lra|apply Rinv_0_lt_compat; exact Hs]).
        apply (Rmult_le_compat_l (f / sig)) in Vr; [|lra]. eapply Rle_trans; [exact Vr|].
        unfold lead. fold f. rewrite <- HgmE.
        replace (f / sig * (gm * (sig * ga) + (3 * INR n + 7) * (zeta * 2 ^ n * (sig / f)))) with (gm * (f * ga) + (3 * INR n + 7) * (zeta * 2 ^ n)) by (field; lra).
        apply Rplus_le_compat_l. apply (zeta_w b Hn n (le_n n)). }
      replace (f * B2R I / sig - f * g0) with (f / sig * (B2R I - sig * g) + f * (g - g0)) by (field; lra).
      eapply Rle_trans; [apply Rabs_triang|]. 
      assert (Hfs : 0 < f / sig) by (unfold Rdiv; apply Rmult_lt_0_compat; [lra|apply Rinv_0_lt_compat; exact Hs]).
      rewrite (Rabs_mult (f / sig)), (Rabs_mult f), (Rabs_pos_eq f), (Rabs_pos_eq (f / sig)) by lra.
      assert (K4 : gm * (f * ga) <= gm * 8) by (apply Rmult_le_compat_l; assumption).
      assert (K5 : wabs + wabs * 2 ^ n <= eps).
      { pose proof (w_n b Hn n (le_n n)) as W. assert (wabs <= bpow radix2 (-3000)) by (apply bpow_le; lia).
        apply Rle_trans with (bpow radix2 1 * bpow radix2 (-3000)); [change (bpow radix2 1) with 2; lra|].
        rewrite <- bpow_plus. eapply Rle_trans; [|exact Heps]. apply bpow_le. lia. }
      assert (K6 : 1 <= N) by (apply (le_INR 1); lia). pose proof u80_pos.
      unfold err_bound. fold N. rewrite HgmE in *.
      assert (1 * eps <= N * eps) by (apply Rmult_le_compat_r; lra). lra.
Qed.

Lemma close_fast I delta : is_finite I = true -> 0 < B2R I -> (0 <= delta)%Z -> bpow radix2 delta <= 2 * INR (fact n) ->
  Rabs (INR (fact n) * B2R I / bpow radix2 delta - INR (fact n) * h (map B2R b) n 1) <= err_bound eps b ->
  is_finite (mns_tail_fast D M n I delta) = true /\ Rabs (B2R (mns_tail_fast D M n I delta) - INR (fact n) * h (map B2R b) n 1) <= mns_bound eps b.
Proof.
  intros FI HI Hd Hsig Hq. pose proof (err_small eps Heps Heps1 b Hn) as Hs. pose proof (is_prob_range _ _ _ (prob_h b Hb)) as Hp.
  destruct (tail_fast D M eps HM Heps Heps1 n Hn I delta FI HI Hd Hsig) as [Fr Vr].
  - apply abs_split in Hq. lra.
  - split; [exact Fr|]. cbv zeta in Vr.
    set (q := INR (fact n) * B2R I / bpow radix2 delta) in *. set (pp := INR (fact n) * h (map B2R b) n 1) in *.
    replace (B2R (mns_tail_fast D M n I delta) - pp) with ((B2R (mns_tail_fast D M n I delta) - q) + (q - pp)) by ring.
    eapply Rle_trans; [apply Rabs_triang|]. unfold mns_bound, err_bound in *. 
    pose proof (pos_INR (S n)). pose proof u80_pos. assert (0 <= INR (S n) * eps) by (apply Rmult_le_pos; lra). lra.
Qed.

Lemma mns_bl_fast : exists p r, is_prob n (noncrossing_b (map B2R b)) p /\ @ecdf1_mns2016_b FN E bl = Ok r /\
  (err_bound eps b < p -> is_finite (cp_sum C r) = true /\ Rabs (B2R (cp_sum C r) - p) <= mns_bound eps b).
Proof.
  destruct loop_fast as (I & delta & FI & Hd & Hsig & Hq & Hr).
  exists (INR (fact n) * h (map B2R b) n 1), (lit (mns_tail_fast D M n I delta)). split; [exact (prob_h b Hb)|]. split; [exact Hr|].
  intros Hp. rewrite pick_lit. apply close_fast; auto.
  apply abs_split in Hq. apply Rnot_le_lt. intros HI. pose proof (INR_fact_lt_0 n) as Hf. pose proof (bpow_gt_0 radix2 delta) as Hs.
  assert (INR (fact n) * B2R I / bpow radix2 delta <= 0).
  { unfold Rdiv. rewrite <- (Rmult_0_l (/ bpow radix2 delta)). apply Rmult_le_compat_r; [apply Rlt_le, Rinv_0_lt_compat, Hs|]. nra. }
  lra.
Qed.

End Fixed.

(** ** Boundaries given as numbers *)
Lemma stands_lit (v : f64) : is_finite v = true -> stands C (lit v) v.
Proof.
  intros F. split; [rewrite pick_lit; auto|].
  assert (H : pick (map term_neg (lit v)) = Bopp v).
  { apply (single_val C [TVal true v] _ (cp_sum_ok C [TVal true v] ltac:(discriminate)) true v eq_refl). }
  rewrite H, is_finite_Bopp, B2R_Bopp. auto.
Qed.
Lemma mns_b_fast (b : list f64) : accepted64 b -> (List.length b <= 4096)%nat ->
  exists p r, is_prob (List.length b) (noncrossing_b (map B2R b)) p /\ @ecdf1_mns2016_b FN E (map lit b) = Ok r /\
  (err_bound eps b < p -> is_finite (cp_sum C r) = true /\ Rabs (B2R (cp_sum C r) - p) <= mns_bound eps b).
Proof.
  intros Hb Hn. apply mns_bl_fast; auto; [apply map_length|].
  intros i Hi. rewrite (nth_indep _ _ (lit (B754_zero false))) by (rewrite map_length; exact Hi). rewrite map_nth.
  apply stands_lit. destruct Hb as [HF _]. rewrite Forall_forall in HF. apply HF, nth_In, Hi.
Qed.
(** ** ecdf1_mns2016_B *)
Lemma pick_diff_rev (vx vp : f64) : is_finite vx = true -> is_finite vp = true ->
  op_result (cp_flush C) (sv (cp_flush C) vx - sv (cp_flush C) vp) (pick [TVal true vp; TVal false vx]).
Proof.
  intros Fx Fp. set (d := pick [TVal true vp; TVal false vx]).
  pose proof (cp_sum_ok C [TVal true vp; TVal false vx] ltac:(discriminate)) as H. fold d in H.
  remember [TVal true vp; TVal false vx] as l0 eqn:El.
  destruct H as [s' x'|s' x' y' w Hw|l l1 l2 a c w HP H1 H2 Hw|l l1 s' x' y' a w HP H1 Hw].
  - discriminate.
  - discriminate.
  - subst l. pose proof (ev_nonempty _ _ _ H1) as N1. pose proof (ev_nonempty _ _ _ H2) as N2.
    pose proof (Permutation_length HP) as HPL. rewrite app_length in HPL. simpl in HPL.
    destruct l1 as [|t1 [|? ?]]; [simpl in N1; lia| |simpl in HPL, N2; lia].
    destruct l2 as [|t2 [|? ?]]; [simpl in N2; lia| |simpl in HPL; lia].
    apply Permutation_length_2_inv in HP. destruct HP as [HP|HP]; injection HP as -> ->;
      pose proof (single_val C _ _ H1 _ _ eq_refl) as Ea; pose proof (single_val C _ _ H2 _ _ eq_refl) as Ec; cbv iota in Ea, Ec; subst a c.
    + rewrite is_finite_Bopp in Hw. specialize (Hw Fp Fx). rewrite sv_opp in Hw.
      replace (- sv (cp_flush C) vp + sv (cp_flush C) vx) with (sv (cp_flush C) vx - sv (cp_flush C) vp) in Hw by ring. exact Hw.
    + rewrite is_finite_Bopp in Hw. specialize (Hw Fx Fp). rewrite sv_opp in Hw. exact Hw.
  - exfalso. subst l. assert (HI : In (TProd s' x' y') [TVal true vp; TVal false vx]) by (eapply Permutation_in; [symmetry; exact HP|left; reflexivity]).
    destruct HI as [HI|[HI|[]]]; discriminate.
Qed.

Lemma stands_diff (x : f64) : is_finite x = true -> 0 <= B2R x <= 1 -> B2R x = 0 \/ bpow radix2 (-900) <= B2R x ->
  stands C (@n_sub FN n1 (lit x)) (@n_sub (Bnum L) n1 x).
Proof.
  intros Fx Hx Hp. destruct (step_value C L x Fx Hx Hp) as (Fw & Vw & _). split; [split; assumption|].
  destruct (sv_of_Z C 1 ltac:(lia)) as [F1 V1].
  pose proof (pick_diff_rev x (b64_of_Z 1) Fx F1) as Hw. rewrite V1 in Hw.
  change (map term_neg (@n_sub FN n1 (lit x))) with [TVal true (b64_of_Z 1); TVal false x].
  set (w := pick [TVal true (b64_of_Z 1); TVal false x]) in *.
  assert (Vx : sv (cp_flush C) x = B2R x).
  { apply sv_normal. destruct Hp as [Hv|Hv]; [right; exact Hv|left].
    pose proof (bpow_gt_0 radix2 (-900)). rewrite Rabs_pos_eq by lra. eapply Rle_trans; [|exact Hv]. apply bpow_le. lia. }
  rewrite Vx in Hw. destruct (one_minus L x Fx Hx) as (_ & G2 & G3).
  change (rnd (1 - B2R x)) with (rnd64 (1 - B2R x)) in G2.
  assert (Hopp : rnd64 (B2R x - 1) = - rnd64 (1 - B2R x)).
  { replace (B2R x - 1) with (- (1 - B2R x)) by ring. unfold rnd64. apply round_NE_opp. }
  destruct Hw as [Fw' Hw].
  { rewrite Hopp, Rabs_Ropp, <- G2, Rabs_pos_eq by apply G3. apply Rle_lt_trans with 1; [apply G3|]. change 1 with (bpow radix2 0). apply bpow_lt. lia. }
  split; [exact Fw'|]. 
  assert (Hz : B2R x = 1 -> B2R w = 0).
  { intros H1. rewrite H1 in Hw. destruct Hw as [Hw|(_ & _ & Hw)]; [|exact Hw]. rewrite Hw.
    unfold rnd64. rewrite Rminus_diag_eq by reflexivity. apply round_0. auto with typeclass_instances. }
  destruct (Rle_lt_or_eq_dec _ _ (proj2 Hx)) as [Hl|He].
  - pose proof (one_minus_gap x Hl) as Hg. destruct Hw as [Hw|(_ & Hs & _)].
    + rewrite Hw, Hopp. f_equal. symmetry. exact G2.
    + exfalso. rewrite Rabs_left in Hs by lra. pose proof (bpow_lt radix2 (-1022) (-53) ltac:(lia)). lra.
  - rewrite (Hz He).
    assert (Z : B2R (@n_sub (Bnum L) n1 x : f64) = 0).
    { transitivity (rnd64 (1 - B2R x)); [apply one_minus; assumption|]. rewrite He. unfold rnd64. rewrite Rminus_diag_eq by reflexivity.
      apply round_0. auto with typeclass_instances. }
    change (B2R (@n_sub (Bnum L) n1 x)) with (B2R (@n_sub (Bnum L) n1 x : f64)). rewrite Z. ring.
Qed.

Notation nn v := (INR (List.length v) * INR (List.length v)).
Lemma mns_B_fast (B : list f64) : accepted64 B -> Forall (fun x : f64 => B2R x = 0 \/ bpow radix2 (-900) <= B2R x) B ->
  (List.length B <= 4096)%nat ->
  exists p r, is_prob (List.length B) (noncrossing_B (map B2R B)) p /\ @ecdf1_mns2016_B FN E (map lit B) = Ok r /\
  (err_bound eps B + nn B * u64 < p -> is_finite (cp_sum C r) = true /\ Rabs (B2R (cp_sum C r) - p) <= mns_bound eps B + nn B * u64).
Proof.
  intros HB HP Hn.
  pose (B' := @reflected (Bnum L) B : list f64).
  assert (Hlen : List.length B' = List.length B) by (unfold B', reflected; rewrite map_length, rev_length; reflexivity).
  assert (Hex : exists p, is_prob (List.length B) (noncrossing_b (reflect (map B2R B))) p).
  { eexists. apply prob_is_D_b; [apply valid_reflect, HB|]. rewrite reflect_length. apply map_length. }
  destruct Hex as [p Hp]. pose proof (accepted_reflected L B HB) as HB'. change (accepted64 B') in HB'.
  assert (Hchk : @check_boundary_vector FN "B"%string (size (map lit B : list (car FN))) (map lit B) = Ok tt).
  { apply (check_stands C L "B"%string (map lit B) B HB); [apply map_length|]. intros i Hi.
    rewrite (nth_indep _ _ (lit (B754_zero false))) by (rewrite map_length; exact Hi). rewrite map_nth.
    apply stands_lit. destruct HB as [HF _]. rewrite Forall_forall in HF. apply HF, nth_In, Hi. }
  assert (Hr : @ecdf1_mns2016_B FN E (map lit B) = @ecdf1_mns2016_b FN E (@reflected FN (map lit B))) by (rewrite mns_B_eq, Hchk; reflexivity).
  pose (bl := @reflected FN (map lit B) : list (car FN)).
  assert (Hbl : bl = map (fun x : f64 => @n_sub FN n1 (lit x)) (rev B)).
  { unfold bl, reflected. rewrite <- map_rev, map_map. reflexivity. }
  assert (HB2 : B' = map (fun x : f64 => @n_sub (Bnum L) n1 x : f64) (rev B)) by reflexivity.
  destruct (mns_bl_fast bl B' HB' ltac:(lia)) as (q & r & Hq & Hr' & Hacc).
  - rewrite Hbl, HB2, !map_length. reflexivity.
  - intros i Hi. rewrite Hlen in Hi.
    rewrite Hbl, (nth_indep _ _ (@n_sub FN n1 (lit (B754_zero false)))) by (rewrite map_length, rev_length; exact Hi).
    rewrite (map_nth (fun x : f64 => @n_sub FN n1 (lit x))).
    rewrite HB2, (nth_indep (map (fun x : f64 => @n_sub (Bnum L) n1 x : f64) (rev B)) _ (@n_sub (Bnum L) n1 (B754_zero false : f64) : f64)) by (rewrite map_length, rev_length; exact Hi).
    rewrite (map_nth (fun x : f64 => @n_sub (Bnum L) n1 x : f64)).
    assert (HI : In (nth i (rev B) (B754_zero false)) B) by (apply (proj2 (in_rev B _)), nth_In; rewrite rev_length; exact Hi).
    destruct HB as [HF [_ HR]]. rewrite Forall_forall in HF, HR, HP. apply stands_diff; [apply HF, HI|apply HR, in_map, HI|apply HP, HI].
  - assert (Hd : Rabs (q - p) <= nn B * u64).
    { assert (HlB : List.length (map B2R B') = List.length B) by (rewrite <- Hlen; apply map_length).
      assert (HlR : List.length (reflect (map B2R B)) = List.length B) by (rewrite reflect_length; apply map_length).
      pose proof (prob_b_close (map B2R B') (reflect (map B2R B)) q p) as HC.
      rewrite HlB, HlR in HC.
      eapply Rle_trans; [apply HC; auto|].
      - apply HB'.
      - apply (valid_reflect (map B2R B)), HB.
      - rewrite <- Hlen at 1. exact Hq.
      - rewrite Rmult_assoc. apply Rmult_le_compat_l; [apply pos_INR|]. apply (reflected_close L), HB. }
    assert (E1 : err_bound eps B' = err_bound eps B) by (unfold err_bound; rewrite Hlen; reflexivity).
    assert (E2 : mns_bound eps B' = mns_bound eps B) by (unfold mns_bound; rewrite Hlen; reflexivity).
    exists p, r. split; [apply prob_B_reflect; exact Hp|]. split; [rewrite Hr; exact Hr'|]. intros Hlt.
    destruct Hacc as [Fr Vr]; [rewrite E1; apply abs_split in Hd; lra|]. split; [exact Fr|].
    rewrite E2 in Vr. replace (B2R (cp_sum C r) - p) with ((B2R (cp_sum C r) - q) + (q - p)) by ring.
    eapply Rle_trans; [apply Rabs_triang|]. lra.
Qed.
End Acc.

Section Up.
Context (C : compiler) (L : libm) (D : lcompiler) (M : libml) (E : env (Fnum C L)).
Hypothesis HM : libml_accurate M (bpow radix2 (-63)).
Hypothesis HLD : long_dbl E = fast87 C L D M.

Lemma mns_b_fast_1000 (b : list f64) : accepted64 b -> (List.length b <= 1000)%nat ->
  exists p r, is_prob (List.length b) (noncrossing_b (map B2R b)) p /\ @ecdf1_mns2016_b (Fnum C L) E (map lit b) = Ok r /\
  (1 / 100000000000 < p -> is_finite (cp_sum C r) = true /\ Rabs (B2R (cp_sum C r) - p) <= 1 / 100000000000).
Proof.
  intros Hb Hn. destruct e63 as [E1 E2]. destruct (bounds_1000 b Hn) as (B1 & B2 & B3).
  destruct (mns_b_fast C L D M _ E HM E1 E2 HLD b Hb ltac:(lia)) as (p & r & Hp & Hr & H).
  exists p, r. split; [exact Hp|]. split; [exact Hr|]. intros H1. destruct H as [F H]; [lra|]. split; [exact F|lra].
Qed.
Lemma mns_B_fast_1000 (B : list f64) : accepted64 B -> Forall (fun x : f64 => B2R x = 0 \/ bpow radix2 (-900) <= B2R x) B ->
  (List.length B <= 1000)%nat ->
  exists p r, is_prob (List.length B) (noncrossing_B (map B2R B)) p /\ @ecdf1_mns2016_B (Fnum C L) E (map lit B) = Ok r /\
  (1 / 1000000000 < p -> is_finite (cp_sum C r) = true /\ Rabs (B2R (cp_sum C r) - p) <= 1 / 1000000000).
Proof.
  intros Hb HP Hn. destruct e63 as [E1 E2]. destruct (bounds_1000 B Hn) as (B1 & B2 & B3).
  destruct (mns_B_fast C L D M _ E HM E1 E2 HLD B Hb HP ltac:(lia)) as (p & r & Hp & Hr & H).
  exists p, r. split; [exact Hp|]. split; [exact Hr|]. intros H1. destruct H as [F H]; [lra|]. split; [exact F|lra].
Qed.
End Up.
