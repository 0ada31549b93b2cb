(** * McB64: the samples of the ecdf simulations in binary64. *)
From Coquelicot Require Import Coquelicot.
From Flocq Require Import Core.Core IEEE754.BinarySingleNaN.
From Coq Require Import ZArith Reals List Bool Lia Lra Sorted.
From Verif Require Import Base Num Binary64 Binary64Facts B64Round XReal Hoare TinyMT MonteCarlo Spec McSpec McProbSpec McFacts.
From Verif Require Import AccPmf AccCases TinyMTFacts TinyMTBinary64.
From Verif Require Import B64Round.
Import List. Import ListNotations.
Local Open Scope R_scope.

Section One.
Context (L : libm) (eps : R) (HL : libm_accurate L eps) (Heps : 0 <= eps <= / 8).
Notation BN := (Bnum L).

Lemma draws_cons_inv (u : f64) us r r1 : draws (N := BN) r (u :: us) r1 ->
  exists r2, tinymt64_generate_double01 (N := BN) r = (u, r2) /\ draws (N := BN) r2 us r1.
Proof. intros D. inversion D; subst. eauto. Qed.

(** ** One exponential *)
Lemma double_ge_min (u : f64) : 0 < B2R u -> - ln (B2R u) <= 1074.
Proof.
  intros Hx. assert (HF : is_finite_strict u = true) by (destruct u as [s|s| |s m e Hb]; simpl in Hx; try lra; reflexivity).
  pose proof (abs_B2R_ge_emin 53 1024 u HF) as H. rewrite Rabs_pos_eq in H by lra.
  change (SpecFloat.emin 53 1024) with (-1074)%Z in H. apply ln_le in H; [|apply bpow_gt_0]. rewrite ln_bpow_f in H.
  pose proof ln_2_bounds. lra.
Qed.

Lemma minus_one_mult (l : f64) : is_finite l = true ->
  is_finite (Bmult mode_NE (Bopp (b64_of_Z 1)) l) = true /\ B2R (Bmult mode_NE (Bopp (b64_of_Z 1)) l) = - B2R l.
Proof.
  intros Fl. destruct one_ok as [F1 V1].
  pose proof (Bmult_correct 53 1024 prec_ok emax_ok mode_NE (Bopp (b64_of_Z 1)) l) as H. cbn [round_mode] in H.
  rewrite B2R_Bopp, V1 in H. replace (- (1) * B2R l) with (B2R (Bopp l)) in H by (rewrite B2R_Bopp; ring).
  rewrite round_generic in H; auto with typeclass_instances; [|apply generic_format_B2R].
  rewrite Rlt_bool_true in H by apply abs_B2R_lt_emax. destruct H as (H1 & H2 & _).
  rewrite H1, H2, is_finite_Bopp, F1, Fl, B2R_Bopp. auto.
Qed.

Lemma exponential64 (u : f64) r r1 : is_finite u = true -> 0 < B2R u < 1 ->
  tinymt64_generate_double01 (N := BN) r = (u, r1) ->
  exists e : f64, generate_exponential (N := BN) n1 r = (e, r1) /\ is_finite e = true /\
    Rabs (B2R e - - ln (B2R u)) <= eps * - ln (B2R u).
Proof.
  intros Fu Hu G. unfold generate_exponential, generate_uniform01. rewrite G.
  destruct (acc_log L eps HL u Fu ltac:(lra)) as (Fl & El).
  destruct (minus_one_mult (lm_log L u) Fl) as (Fe & Ve). eexists. split; [reflexivity|]. split; [exact Fe|].
  change (@n_mul BN (@n_neg BN n1) (@n_log BN u)) with (Bmult mode_NE (Bopp (b64_of_Z 1)) (lm_log L u)).
  rewrite Ve. pose proof (ln_lt_0 _ Hu) as Hl. rewrite (Rabs_left (ln (B2R u))) in El by exact Hl.
  replace (- B2R (lm_log L u) - - ln (B2R u)) with (- (B2R (lm_log L u) - ln (B2R u))) by ring. rewrite Rabs_Ropp. exact El.
Qed.

(** ** Partial sums *)
Definition neglog (u : f64) : R := - ln (B2R u).

Lemma next_sum (a e : f64) th A Ex M : is_finite a = true -> is_finite e = true ->
  0 <= A -> 0 < Ex <= 1074 -> A <= 1074 * M -> 0 <= M -> M + 1 <= 2 ^ 40 -> eps <= th -> th <= / 8 ->
  Rabs (B2R a - A) <= th * A -> Rabs (B2R e - Ex) <= eps * Ex ->
  is_finite (Bplus mode_NE a e) = true /\ B2R a <= B2R (Bplus mode_NE a e) /\
  Rabs (B2R (Bplus mode_NE a e) - (A + Ex)) <= (th + 2 * u64) * (A + Ex).
Proof.
  intros Fa Fe HA HE HM M0 M1 Ht Ht8 Ea Ee. apply Rabs_le_inv in Ea. apply Rabs_le_inv in Ee.
  assert (T1 : eps * Ex <= th * Ex) by (apply Rmult_le_compat_r; lra).
  assert (T2 : th * A <= / 8 * A) by (apply Rmult_le_compat_r; lra).
  assert (T3 : th * Ex <= / 8 * Ex) by (apply Rmult_le_compat_r; lra).
  assert (P0 : 0 <= B2R a) by lra. assert (P1 : 0 <= B2R e) by lra.
  assert (HB : Rabs (B2R a + B2R e) <= bpow radix2 60).
  { rewrite Rabs_pos_eq by lra. apply Rle_trans with (1209 * (M + 1)); [lra|].
    apply Rle_trans with (1209 * 2 ^ 40); [lra|]. change (bpow radix2 60) with (IZR (2 ^ 60)). lra. }
  destruct (plus_err a e Fa Fe HB) as (F & Er). split; [exact F|].
  pose proof (Bplus_correct 53 1024 prec_ok emax_ok mode_NE a e Fa Fe) as H.
  cbn [round_mode] in H. rewrite no_overflow60 in H by exact HB. destruct H as (H1 & _).
  split.
  - rewrite H1. rewrite <- (round_generic radix2 (SpecFloat.fexp 53 1024) ZnearestE (B2R a)) at 1 by apply generic_format_B2R.
    apply rnd_le. lra.
  - rewrite (Rabs_pos_eq (B2R a + B2R e)) in Er by lra. apply Rabs_le_inv in Er.
    assert (T4 : u64 * (B2R a + B2R e) <= u64 * (2 * (A + Ex))).
    { apply Rmult_le_compat_l; [left; apply u64_pos|lra]. }
    apply Rabs_le. lra.
Qed.

(** [near th x X]: x is finite, not negative, and X up to a relative error th. *)
Definition near (th : R) (x : f64) (X : R) : Prop := is_finite x = true /\ 0 <= B2R x /\ Rabs (B2R x - X) <= th * X.

Lemma neglog_pos us : Forall (fun u : f64 => is_finite u = true /\ 0 < B2R u < 1) us ->
  Forall (fun e => 0 < e) (map neglog us).
Proof.
  induction 1 as [|u us (_ & H) F IH]; simpl; constructor; auto. unfold neglog. pose proof (ln_lt_0 _ H). lra.
Qed.

Lemma sums64 us : forall (a : f64) A r r1 j,
  Forall (fun u : f64 => is_finite u = true /\ 0 < B2R u < 1) us ->
  draws (N := BN) r us r1 -> 0 <= A <= 1074 * INR j -> INR (j + length us) <= 2 ^ 40 ->
  near (eps + 2 * INR j * u64) a A -> eps + 2 * INR (j + length us) * u64 <= / 8 ->
  exists (l : list f64) (last : f64), partial_sums (N := BN) (length us) a r = (l, last, r1) /\
    Forall2 (near (eps + 2 * INR (j + length us) * u64)) l (sums_from A (map neglog us)) /\
    near (eps + 2 * INR (j + length us) * u64) last (A + total (map neglog us)) /\
    A + total (map neglog us) <= 1074 * INR (j + length us) /\
    Sorted Rle (map B2R l) /\ Forall (fun x => B2R a <= B2R x <= B2R last) l /\ B2R a <= B2R last.
Proof.
  induction us as [|u us IH]; intros a A r r1 j F D HA HM Ha Hth.
  - assert (r = r1) by (inversion D; auto). subst r. exists [], a. cbn [length partial_sums map sums_from]. rewrite Nat.add_0_r in *.
    replace (A + total []) with A by (unfold total; simpl; ring). 
    split; [reflexivity|]. split; [constructor|]. split; [exact Ha|]. split; [lra|]. split; [constructor|]. split; [constructor|lra].
  - destruct (draws_cons_inv _ _ _ _ D) as (r2 & G & D1). inversion F as [|? ? (Fu & Hu) F1]; subst.
    destruct (exponential64 u r r2 Fu Hu G) as (e & Ge & Fe & Ee).
    destruct Ha as (Fa & Pa & Ea).
    pose proof u64_pos as PU. pose proof (pos_INR j) as PJ. pose proof (pos_INR (length us)) as PL.
    assert (El : INR (j + length (u :: us)) = INR j + 1 + INR (length us)).
    { simpl length. rewrite plus_INR, S_INR. ring. }
    assert (PLU : 0 <= INR (length us) * u64) by (apply Rmult_le_pos; lra).
    assert (PJU : 0 <= INR j * u64) by (apply Rmult_le_pos; lra).
    pose proof (ln_lt_0 _ Hu) as Hl. pose proof (double_ge_min u ltac:(lra)) as Hl2.
    rewrite El in Hth, HM.
    destruct (next_sum a e (eps + 2 * INR j * u64) A (- ln (B2R u)) (INR j)) as (Fx & Mx & Ex); auto; try lra.
    set (x := Bplus mode_NE a e) in *.
    destruct (IH x (A + - ln (B2R u)) r2 r1 (S j)) as (l & last & E & HF2 & HN & HT & HS & HB & HAl); auto.
    { rewrite S_INR. lra. }
    { rewrite plus_INR, S_INR. lra. }
    { split; [exact Fx|]. split; [lra|]. rewrite S_INR. replace (eps + 2 * (INR j + 1) * u64) with (eps + 2 * INR j * u64 + 2 * u64) by ring. exact Ex. }
    { rewrite plus_INR, S_INR. lra. }
    assert (Ej : (S j + length us = j + length (u :: us))%nat) by (simpl; lia). rewrite Ej in HF2, HN, HT.
    exists (x :: l), last. cbn [length partial_sums]. change (@n_add BN) with (@Bplus 53 1024 prec_ok emax_ok mode_NE) in *.
    rewrite Ge. fold x. change (Bplus mode_NE a e) with x.
    split; [pose proof E as E'; cbn [length] in E'; rewrite E'; reflexivity|].
    assert (ET : A + total (map neglog (u :: us)) = A + - ln (B2R u) + total (map neglog us)) by (unfold total, neglog; simpl; ring).
    rewrite ET. split.
    { cbn [map sums_from]. constructor; [|exact HF2]. split; [exact Fx|]. split; [lra|].
      eapply Rle_trans; [exact Ex|]. apply Rmult_le_compat_r; [unfold neglog; lra|].
      cbn [length] in El. rewrite El. lra. }
    split; [exact HN|]. split; [exact HT|]. split.
    { cbn [map]. constructor; [exact HS|]. destruct l as [|y l]; constructor. inversion HB; subst. lra. }
    split; [|lra]. constructor; [lra|]. eapply Forall_impl; [|exact HB]. cbv beta. intros; lra.
Qed.

(** ** The ordered sample *)
Lemma quotient_close A x X t T0 : 0 <= A <= / 8 -> 0 <= X <= T0 -> 0 < T0 -> 0 <= x ->
  Rabs (x - X) <= A * X -> Rabs (t - T0) <= A * T0 -> Rabs (x / t - X / T0) <= 16 / 7 * A.
Proof.
  intros HA HX HT Px E1 E2. apply Rabs_le_inv in E1. apply Rabs_le_inv in E2.
  assert (A * T0 <= / 8 * T0) by (apply Rmult_le_compat_r; lra).
  assert (Pt : 0 < t) by lra.
  replace (x / t - X / T0) with ((x * T0 - X * t) / (t * T0)) by (field; lra).
  unfold Rdiv. rewrite Rabs_mult, Rabs_inv, (Rabs_pos_eq (t * T0)) by (apply Rmult_le_pos; lra).
  apply Rmult_le_reg_r with (t * T0); [apply Rmult_lt_0_compat; lra|].
  rewrite Rmult_assoc, Rinv_l, Rmult_1_r by (apply Rgt_not_eq, Rmult_lt_0_compat; lra).
  assert (B1 : Rabs (x * T0 - X * t) <= 2 * A * (T0 * T0)).
  { replace (x * T0 - X * t) with ((x - X) * T0 - X * (t - T0)) by ring.
    eapply Rle_trans; [apply Rabs_triang|]. rewrite Rabs_Ropp, !Rabs_mult, (Rabs_pos_eq T0), (Rabs_pos_eq X) by lra.
    assert (Rabs (x - X) * T0 <= A * T0 * T0).
    { apply Rmult_le_compat_r; [lra|]. apply Rle_trans with (A * X); [apply Rabs_le; lra|apply Rmult_le_compat_l; lra]. }
    assert (X * Rabs (t - T0) <= T0 * (A * T0)) by (apply Rmult_le_compat; try lra; [apply Rabs_pos|apply Rabs_le; lra]).
    lra. }
  assert (B2 : A * (7 / 8 * T0 * T0) <= A * (t * T0)).
  { apply Rmult_le_compat_l; [lra|]. apply Rmult_le_compat_r; lra. }
  lra.
Qed.

Definition sample_error (n : nat) : R := 3 * (eps + 2 * INR (S n) * u64).

Theorem sample64 (us : list f64) n r r1 : (1 <= n)%nat -> length us = S n -> INR (S n) <= 2 ^ 40 ->
  eps + 2 * INR (S n) * u64 <= / 8 ->
  Forall (fun u : f64 => is_finite u = true /\ 0 < B2R u < 1) us -> draws (N := BN) r us r1 ->
  exists xs : list f64, random_ecdf (N := BN) n r = (xs, r1) /\
    Forall2 (fun (x : f64) X => is_finite x = true /\ 0 <= B2R x <= 1 /\ Rabs (B2R x - X) <= sample_error n)
      xs (ordered_sample (map B2R us)) /\
    Sorted Rle (map B2R xs).
Proof.
  intros Hn Hlen Hbig HA F D.
  assert (NE : us <> []) by (intros ->; discriminate).
  destruct (exists_last NE) as (vs & v & ->). rewrite app_length in Hlen. cbn [length] in Hlen.
  assert (Hv : length vs = n) by lia.
  destruct (draws_split (N := BN) vs r [v] r1 D) as (r2 & D1 & D2).
  apply Forall_app in F as (F1 & F2). inversion F2 as [|? ? (Fv & Hvr) _]; subst x l.
  destruct (draws_cons_inv _ _ _ _ D2) as (r3 & G & D3). inversion D3; subst r3 r0. clear D2 D3.
  subst n. assert (ES : INR (S (length vs)) = INR (length vs) + 1) by apply S_INR. rewrite ES in *.
  pose proof u64_pos as PU. pose proof (pos_INR (length vs)) as PL.
  assert (PLU : 0 <= INR (length vs) * u64) by (apply Rmult_le_pos; lra).
  destruct (of_Z_ok 0) as [F0 V0]; [lia|].
  destruct (sums64 vs (b64_of_Z 0) 0 r r2 0) as (l & last & E & HF2 & HN & HT & HS & HB & HAl); auto.
  { simpl. lra. } { simpl Nat.add. lra. }
  { split; [exact F0|]. rewrite V0. split; [apply Rle_refl|]. replace (0 - 0) with 0 by ring. rewrite Rabs_R0. simpl INR. lra. }
  { simpl Nat.add. lra. }
  simpl Nat.add in HF2, HN, HT. rewrite Rplus_0_l in HN, HT. rewrite V0 in HB, HAl.
  destruct (exponential64 v r2 r1 Fv Hvr G) as (e & Ge & Fe & Ee).
  destruct HN as (Fla & Pla & Ela).
  pose proof (ln_lt_0 _ Hvr) as Hl. pose proof (double_ge_min v ltac:(lra)) as Hl2.
  pose proof (total_pos _ (neglog_pos vs F1)) as PT.
  destruct (next_sum last e (eps + 2 * INR (length vs) * u64) (total (map neglog vs)) (- ln (B2R v)) (INR (length vs))) as (Ft & Mt & Et); auto; try lra.
  set (t := Bplus mode_NE last e) in *. set (T0 := total (map neglog vs) + - ln (B2R v)) in *.
  set (A := eps + 2 * (INR (length vs) + 1) * u64) in *.
  assert (EA : eps + 2 * INR (length vs) * u64 + 2 * u64 = A) by (unfold A; ring). rewrite EA in Et.
  assert (T0p : 0 < T0) by (unfold T0; lra).
  assert (Eo : ordered_sample (map B2R (vs ++ [v])) = map (fun X => X / T0) (sums_from 0 (map neglog vs))).
  { unfold ordered_sample. rewrite map_map, map_app. cbn [map].
    change (map (fun x : f64 => - ln (B2R x)) vs) with (map neglog vs). rewrite removelast_last, jump_times_sums.
    rewrite total_app. unfold T0. replace (total [- ln (B2R v)]) with (- ln (B2R v)) by (unfold total; simpl; ring). reflexivity. }
  rewrite Eo. clear Eo.
  assert (Pt : 0 < B2R t).
  { assert (A * T0 <= / 8 * T0) by (apply Rmult_le_compat_r; lra). apply Rabs_le_inv in Et. lra. }
  exists (map (fun x => Bdiv mode_NE x t) l). split.
  { unfold random_ecdf. change (@n0 BN) with (b64_of_Z 0). rewrite E, Ge. reflexivity. }
  destruct (sums_from_sorted 0 (map neglog vs) (neglog_pos vs F1)) as (_ & _ & HX). rewrite Rplus_0_l in HX.
  assert (HD : forall x : f64, 0 <= B2R x <= B2R t -> 0 <= B2R x / B2R t <= 1).
  { intros x Hx. split; [apply Rdiv_le_0_compat; lra|]. apply Rmult_le_reg_r with (B2R t); [exact Pt|].
    unfold Rdiv. rewrite Rmult_assoc, Rinv_l by lra. lra. }
  assert (B60 : 1 <= bpow radix2 60) by (change 1 with (bpow radix2 0); apply bpow_le; lia).
  assert (HV : forall x : f64, is_finite x = true -> 0 <= B2R x <= B2R t ->
    B2R (Bdiv mode_NE x t) = rnd (B2R x / B2R t)).
  { intros x Fx Hx. pose proof (HD x Hx) as Hq.
    pose proof (Bdiv_correct 53 1024 prec_ok emax_ok mode_NE x t ltac:(lra)) as H. cbn [round_mode] in H.
    rewrite no_overflow60 in H by (rewrite Rabs_pos_eq; lra). apply H. }
  assert (HB' : Forall (fun x : f64 => 0 <= B2R x <= B2R t) l) by (eapply Forall_impl; [|exact HB]; cbv beta; intros; lra).
  split.
  - clear HS E HB HT. revert HB' HX. generalize (sums_from 0 (map neglog vs)) HF2. clear HF2.
    intros Xs HF2. induction HF2 as [|x X l Xs (Fx & Px & Ex) HF2 IH]; intros HB' HX; cbn [map]; constructor.
    2:{ inversion HB'; inversion HX; subst; apply IH; auto. }
    inversion HB' as [|? ? Bx _]; subst. inversion HX as [|? ? BX _]; subst. pose proof (HD x Bx) as Hq.
    destruct (div_err x t Fx) as (Fq & Eq); [lra|rewrite Rabs_pos_eq; lra|]. split; [exact Fq|]. split.
    + rewrite (HV x Fx Bx). apply rnd_between; [apply round_0; auto with typeclass_instances|apply (bpow_format 0); lia|exact Hq].
    + rewrite (Rabs_pos_eq (B2R x / B2R t)) in Eq by lra.
      assert (QC : Rabs (B2R x / B2R t - X / T0) <= 16 / 7 * A).
      { apply quotient_close; try lra; unfold A in *; try lra; [unfold T0; lra|].
        eapply Rle_trans; [exact Ex|]. apply Rmult_le_compat_r; lra. }
      assert (U1 : u64 * (B2R x / B2R t) <= u64 * 1) by (apply Rmult_le_compat_l; lra).
      assert (Et1 : eta64 <= / 16 * u64).
      { apply Rle_trans with (bpow radix2 (-57)); [apply bpow_le; lia|].
        unfold u64. change (-57)%Z with (-4 + -53)%Z. rewrite bpow_plus. simpl (bpow radix2 (-4)). lra. }
      unfold sample_error. rewrite ES. fold A. apply Rabs_le_inv in Eq. apply Rabs_le_inv in QC.
      assert (U2 : 2 * u64 <= A) by (unfold A; lra). apply Rabs_le. lra.
  - rewrite map_map. clear E HB HT HX. assert (FF : Forall (fun x : f64 => is_finite x = true) l).
    { clear HB' HS. revert HF2. generalize (sums_from 0 (map neglog vs)). induction l as [|x l IH]; intros Xs HF2; [constructor|].
      inversion HF2 as [|? ? ? ? N1 N2]; subst. constructor; [apply N1|eapply IH; exact N2]. }
    clear HF2. induction l as [|x l IH]; cbn [map]; [constructor|].
    inversion HB' as [|? ? Bx Bl]; subst. inversion FF as [|? ? Fx Fl]; subst. cbn [map] in HS. inversion HS as [|? ? S1 S2]; subst.
    constructor; [apply IH; auto|]. destruct l as [|y l]; cbn [map]; constructor.
    inversion Bl as [|? ? By _]; subst. inversion Fl as [|? ? Fy _]; subst. cbn [map] in S2. inversion S2; subst.
    rewrite (HV x Fx Bx), (HV y Fy By). apply rnd_le. apply Rmult_le_compat_r; [left; apply Rinv_0_lt_compat; exact Pt|assumption].
Qed.
End One.
