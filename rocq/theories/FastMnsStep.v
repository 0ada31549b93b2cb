(** * FastMnsStep: one iteration of ecdf1_mns2016 in long double under -ffast-math. *)
From Coquelicot Require Import Coquelicot.
From Flocq Require Import Core.Core IEEE754.BinarySingleNaN.
From Coq Require Import ZArith Reals List Bool Lia Lra Factorial.
From Verif Require Import Base Num Hoare RSum Binary64 Binary64Facts B64Round LongDouble LdRound Ecdf1Mns MnsErr MnsRun AccMnsEval AccMnsStep.
From Verif Require Import FastMath FastLong FastMnsSum FastMnsEval.
Import List. Import ListNotations.
Local Open Scope R_scope.

(** the expression x stands for the number v, and -x for -v *)
Definition stands (C : compiler) (x : list term) (v : f64) : Prop :=
  (is_finite (cp_sum C x) = true /\ B2R (cp_sum C x) = B2R v) /\
  (is_finite (cp_sum C (map term_neg x)) = true /\ B2R (cp_sum C (map term_neg x)) = - B2R v).

Section Step.
Context (C : compiler) (L : libm) (D : lcompiler) (M : libml) (eps : R) (E : env (Fnum C L)).
Notation FN := (Fnum C L).
Notation LD := (fast87 C L D M).
Notation ls := (lc_sum D).
Hypothesis HM : libml_accurate M eps.
Hypothesis Heps : u80 <= eps.
Hypothesis Heps1 : eps <= bpow radix2 (-40).
Variables (bl : list (list term)) (b : list f64).
Hypothesis Hb : accepted64 b.
Notation n := (List.length b).
Hypothesis Hn : (n <= 4096)%nat.
Hypothesis Hlen : List.length bl = n.
Notation bk t := (nth t bl (lit (b64_of_Z 0))).
Hypothesis Hst : forall i, (i < n)%nat -> stands C (bk i) (nth i b (B754_zero false)).
Notation bx := (bx b).
Notation errs := (errs eps b).

Definition coefs3 (c : nat -> R) (sig : R) (t : nat) (m : nat -> f80) : Prop := forall i, (i <= t)%nat ->
  is_finite (m i) = true /\
  Rabs (B2R (m i) - ideal c sig t i) <= 3 * INR i * u80 * Rabs (ideal c sig t i) + 3 * INR i * slack sig t i.

Lemma stands_bx t : (t < n)%nat ->
  (is_finite (cp_sum C (bk t)) = true /\ B2R (cp_sum C (bk t)) = bx t) /\
  (is_finite (cp_sum C (map term_neg (bk t))) = true /\ B2R (cp_sum C (map term_neg (bk t))) = - bx t).
Proof.
  intros Ht. destruct (Hst t Ht) as [[F1 V1] [F2 V2]].
  assert (Hbx : bx t = B2R (nth t b (B754_zero false))) by (unfold AccMnsStep.bx; destruct (Nat.ltb_spec t n); [reflexivity|lia]).
  rewrite Hbx. auto.
Qed.

(** ** The additive coefficients *)
Definition adda (t : nat) (va : nat -> f80) : nat -> f80 :=
  fun i => match i with O => f80_of_Z 0 | S O => f80_of_f64 (cp_sum C (map term_neg (bk t))) | S j => va j end.
Lemma next_adda t va i : @next_a FN LD (bk t) (fun j => [va j]) i = [adda t va i].
Proof. unfold next_a, adda. destruct i as [|[|i]]; reflexivity. Qed.
Lemma step_adda t va : (t < n)%nat -> adds b t va -> adds b (S t) (adda t va).
Proof.
  intros Ht Ha i Hi. unfold adda. destruct i as [|[|i]].
  - split; reflexivity.
  - destruct (stands_bx t Ht) as [_ [F2 V2]]. destruct (widen_ok _ F2) as [F1 V1]. split; [exact F1|].
    rewrite V1, V2. replace (S t - 1)%nat with t by lia. reflexivity.
  - destruct (Ha (S i)) as [F1 V1]; [lia|]. split; [exact F1|]. rewrite V1. f_equal.
Qed.

(** ** The division of the coefficients *)
Definition mdiv (m : nat -> list f80) (i : nat) : f80 := lc_div D (ls (m i)) (f80_of_Z (Z.of_nat (S i))).
Lemma m_int_div m i : @m_int FN LD m (S i) = [mdiv m i].
Proof.
  change (@m_int FN LD m (S i)) with [lc_div D (ls (m i)) (ls [f80_of_Z (Z.of_nat (S i))])]. rewrite ls_one. reflexivity.
Qed.

Lemma quotient_err (x w : f80) (q : nat) : is_finite x = true -> (1 <= q <= 4096)%nat -> Rabs (B2R x) <= bpow radix2 5000 ->
  quotient_of x (f80_of_Z (Z.of_nat q)) w ->
  is_finite w = true /\ Rabs (B2R w - B2R x / INR q) <= 17 / 8 * u80 * Rabs (B2R x / INR q) + eta80.
Proof.
  intros Fx Hq Hx Hw. destruct (ofZ80 (Z.of_nat q)) as [Fq Vq]; [lia|]. rewrite <- INR_IZR_INZ in Vq.
  assert (Hq1 : 1 <= INR q <= 4096).
  { split; [apply (le_INR 1); lia|]. change 4096 with (IZR (Z.of_nat 4096)). rewrite <- INR_IZR_INZ. apply le_INR. lia. }
  pose proof u80_pos as Hu0. pose proof u_64 as Hu. pose proof eta80_pos as He0.
  set (Q := INR q) in *. set (v := B2R x) in *.
  assert (Hrq : 0 < / Q) by (apply Rinv_0_lt_compat; lra).
  assert (Hrq1 : / Q <= 1) by (rewrite <- Rinv_1; apply Rinv_le_contravar; lra).
  assert (Hrq2 : / 4096 <= / Q) by (apply Rinv_le_contravar; lra).
  assert (Hav : Rabs (v / Q) = Rabs v * / Q) by (unfold Rdiv; rewrite Rabs_mult, (Rabs_pos_eq (/ Q)) by lra; reflexivity).
  pose proof (Rabs_pos v) as Hv0.
  assert (Hvq : Rabs v * / Q <= Rabs v * 1) by (apply Rmult_le_compat_l; lra).
  assert (Hb5 : 4 * bpow radix2 5000 <= big80).
  { change 4 with (bpow radix2 2). rewrite <- bpow_plus. unfold big80. apply bpow_le. lia. }
  pose proof (bpow_gt_0 radix2 5000) as Hb0.
  destruct Hw as [-> | ->].
  - destruct (div80 x (f80_of_Z (Z.of_nat q)) Fx) as (F2 & _ & V2).
    + rewrite Vq. lra.
    + fold v. rewrite Vq, Hav. lra.
    + split; [exact F2|]. fold v in V2. rewrite Vq in V2. pose proof (Rabs_pos (v / Q)). eapply Rle_trans; [exact V2|].
      apply Rplus_le_compat_r, Rmult_le_compat_r; lra.
  - destruct (ofZ80 1) as [F1 V1]; [lia|].
    destruct (div80 (f80_of_Z 1) (f80_of_Z (Z.of_nat q)) F1) as (Fr & _ & Er).
    + rewrite Vq. lra.
    + rewrite V1, Vq. unfold Rdiv. rewrite Rmult_1_l, Rabs_pos_eq by lra.
      apply Rle_trans with (bpow radix2 0); [simpl; lra|unfold big80; apply bpow_le; lia].
    + rewrite V1, Vq in Er. unfold Rdiv in Er. rewrite Rmult_1_l, (Rabs_pos_eq (/ Q)) in Er by lra.
      set (r := Bdiv mode_NE (f80_of_Z 1) (f80_of_Z (Z.of_nat q))) in *.
      assert (Heta : eta80 <= / 32 * u80 * / Q).
      { apply Rle_trans with (/ 32 * u80 * / 4096); [|apply Rmult_le_compat_l; lra].
        unfold eta80, u80. change (/ 32) with (bpow radix2 (-5)). change (/ 4096) with (bpow radix2 (-12)). rewrite <- !bpow_plus. apply bpow_le. lia. }
      assert (Er' : Rabs (B2R r - / Q) <= 33 / 32 * u80 * / Q) by lra.
      assert (Hp : Rabs (v * B2R r - v / Q) <= 33 / 32 * u80 * (Rabs v * / Q)).
      { replace (v * B2R r - v / Q) with (v * (B2R r - / Q)) by (unfold Rdiv; ring). rewrite Rabs_mult.
        replace (33 / 32 * u80 * (Rabs v * / Q)) with (Rabs v * (33 / 32 * u80 * / Q)) by ring. apply Rmult_le_compat_l; assumption. }
      set (V := Rabs v * / Q) in *. assert (HV : 0 <= V) by (apply Rmult_le_pos; lra).
      assert (HuV : 33 / 32 * u80 * V <= / 64 * V) by (apply Rmult_le_compat_r; lra).
      assert (Hp2 : Rabs (v * B2R r) <= 65 / 64 * V).
      { replace (v * B2R r) with ((v * B2R r - v / Q) + v / Q) by ring. eapply Rle_trans; [apply Rabs_triang|]. rewrite Hav. fold V. lra. }
      destruct (mult80 x r Fx Fr) as [Fw Ew].
      { fold v. lra. }
      fold v in Ew. split; [exact Fw|].
      set (w := Bmult mode_NE x r) in *. rewrite Hav. fold V.
      replace (B2R w - v / Q) with ((B2R w - v * B2R r) + (v * B2R r - v / Q)) by ring. eapply Rle_trans; [apply Rabs_triang|].
      assert (u80 * Rabs (v * B2R r) <= u80 * (65 / 64 * V)) by (apply Rmult_le_compat_l; lra).
      assert (0 <= u80 * V) by (apply Rmult_le_pos; lra). lra.
Qed.

Lemma step_div3 c sig t m i : 0 < sig -> (t < n)%nat -> (i <= t)%nat -> lo <= lead sig (S t) -> lead sig t <= 2 ->
  errs c t -> c O = 1 -> coefs3 c sig t (fun i => ls (m i)) ->
  is_finite (mdiv m i) = true /\
  Rabs (B2R (mdiv m i) - ideal c sig (S t) (S i)) <=
    3 * INR (S i) * u80 * Rabs (ideal c sig (S t) (S i)) + 3 * INR (S i) * slack sig (S t) (S i).
Proof.
  intros Hs Ht Hi Hlo Hhi He H0 Hc. destruct (Hc i Hi) as [F1 V1].
  assert (Hq : 1 <= INR (S i) <= 4096).
  { split; [apply (le_INR 1); lia|]. change 4096 with (IZR (Z.of_nat 4096)). rewrite <- INR_IZR_INZ. apply le_INR. lia. }
  assert (Hq' : INR (S i) = INR i + 1) by apply S_INR.
  assert (Ei : ideal c sig (S t) (S i) = ideal c sig t i / INR (S i)).
  { unfold ideal. replace (S t - S i)%nat with (t - i)%nat by lia. change (fact (S i)) with (S i * fact i)%nat. rewrite mult_INR.
    field. split; [apply fact_neq|lra]. }
  assert (Es : slack sig (S t) (S i) = slack sig t i / INR (S i)).
  { unfold slack. replace (S t - S i)%nat with (t - i)%nat by lia. change (fact (S i)) with (S i * fact i)%nat. rewrite mult_INR.
    field. repeat split; try apply fact_neq; lra. }
  pose proof (eta_slack b Hn sig (S t) (S i) Hs Hlo ltac:(lia)) as Heta. pose proof eta80_pos.
  pose proof (ideal_sum eps Heps Heps1 b Hb Hn c sig t Hs Hhi He H0 ltac:(lia)) as HS1.
  pose proof (slack_sum_le b Hn sig t Hs Hhi ltac:(lia)) as HS2.
  pose proof (single_le t ltac:(lia) (fun i => Rabs (ideal c sig t i)) i ltac:(intros; apply Rabs_pos) Hi) as B1.
  pose proof (single_le t ltac:(lia) (slack sig t) i ltac:(intros; apply Rlt_le, slack_pos; exact Hs) Hi) as B2. cbv beta in B1, B2.
  pose proof (slack_pos sig t i Hs) as Hsp.
  set (y := ideal c sig t i) in *. set (s := slack sig t i) in *. set (v := B2R (ls (m i))) in *.
  pose proof u_64 as Hu. pose proof u80_pos as Hu0. pose proof (Rabs_pos y) as Hy0. pose proof (pos_INR i) as Hi00.
  assert (Hiu : 3 * INR i * u80 <= / 1000) by nra. assert (Hi0 : 0 <= 3 * INR i * u80) by (apply Rmult_le_pos; lra).
  assert (Hv : Rabs v <= Rabs y * (1 + 3 * INR i * u80) + 3 * INR i * s).
  { replace v with (y + (v - y)) by ring. eapply Rle_trans; [apply Rabs_triang|]. lra. }
  assert (Hvb : Rabs v <= bpow radix2 5000).
  { assert (Hbig : 1048576 + bpow radix2 4201 <= bpow radix2 5000).
    { change 1048576 with (bpow radix2 20). 
      apply Rle_trans with (bpow radix2 4201 + bpow radix2 4201).
      - apply Rplus_le_compat_r, bpow_le; lia.
      - replace (bpow radix2 4201 + bpow radix2 4201) with (bpow radix2 1 * bpow radix2 4201) by (change (bpow radix2 1) with 2; ring).
        rewrite <- bpow_plus. apply bpow_le. lia. }
    assert (H42 : bpow radix2 4201 = 2 * bpow radix2 4200) by (change 2 with (bpow radix2 1); rewrite <- bpow_plus; reflexivity).
    assert (Rabs y * (1 + 3 * INR i * u80) <= 2 * Rabs y) by nra. assert (3 * INR i * s <= 12288 * 1) by (apply Rmult_le_compat; lra).
    lra. }
  destruct (quotient_err (ls (m i)) (mdiv m i) (S i) F1 ltac:(lia) Hvb (lc_div_ok D _ _)) as [F2 V2].
  set (q := INR (S i)) in *.
  assert (Hrq : 0 < / q) by (apply Rinv_0_lt_compat; lra).
  assert (Hd : Rabs (v / q) = Rabs v * / q).
  { unfold Rdiv. rewrite Rabs_mult, (Rabs_pos_eq (/ q)) by lra. reflexivity. }
  split; [exact F2|]. fold v in V2. rewrite Hd in V2.
  rewrite Ei, Es. set (r := B2R (mdiv m i)) in *.
  replace (r - y / q) with ((r - v / q) + (v - y) * / q) by (unfold Rdiv; ring).
  eapply Rle_trans; [apply Rabs_triang|]. rewrite Rabs_mult, (Rabs_pos_eq (/ q)) by lra.
  replace (Rabs (y / q)) with (Rabs y * / q) by (unfold Rdiv; rewrite Rabs_mult, (Rabs_pos_eq (/ q)) by lra; reflexivity).
  rewrite Es in Heta. unfold Rdiv in Heta |- *.
  assert (H1 : Rabs (v - y) * / q <= (3 * INR i * u80 * Rabs y + 3 * INR i * s) * / q) by (apply Rmult_le_compat_r; lra).
  assert (H2 : u80 * (Rabs v * / q) <= u80 * ((Rabs y * (1 + 3 * INR i * u80) + 3 * INR i * s) * / q)).
  { apply Rmult_le_compat_l; [lra|]. apply Rmult_le_compat_r; lra. }
  set (Y := Rabs y * / q) in *. set (S1 := s * / q) in *.
  assert (HY : 0 <= Y) by (apply Rmult_le_pos; lra). assert (HS : 0 < S1) by (apply Rmult_lt_0_compat; lra).
  replace ((3 * INR i * u80 * Rabs y + 3 * INR i * s) * / q) with (3 * INR i * u80 * Y + 3 * INR i * S1) in H1 by (unfold Y, S1; ring).
  replace (u80 * ((Rabs y * (1 + 3 * INR i * u80) + 3 * INR i * s) * / q)) with
    (u80 * Y + (3 * INR i * u80) * (u80 * Y) + (3 * INR i * u80) * S1) in H2 by (unfold Y, S1; ring).
  assert (H3 : 0 <= u80 * Y) by (apply Rmult_le_pos; lra).
  assert (H4 : (3 * INR i * u80) * (u80 * Y) <= / 1000 * (u80 * Y)) by (apply Rmult_le_compat_r; lra).
  assert (H5 : (3 * INR i * u80) * S1 <= / 1000 * S1) by (apply Rmult_le_compat_r; lra).
  replace (3 * q * u80 * Y + 3 * q * S1) with (3 * (INR i + 1) * u80 * Y + 3 * (INR i + 1) * S1) by (rewrite Hq'; ring).
  unfold Rdiv in V2. rewrite Rmult_assoc in V2. set (uv := u80 * (Rabs v * / q)) in *. lra.
Qed.

(** ** The evaluation *)
Lemma step_eval3 c sig t (m : nat -> list f80) (a : nat -> f80) : 0 < sig -> (t < n)%nat -> lo <= lead sig (S t) -> lead sig t <= 2 ->
  errs c t -> c O = 1 -> coefs3 c sig t (fun i => ls (m i)) -> adds b t a ->
  exists c', c' O = 1 /\ errs c' (S t) /\ coefs3 c' sig (S t) (fun i => ls (@next_m FN LD (bk t) t m (fun j => [a j]) i)).
Proof.
  intros Hs Ht Hlo Hhi He H0 Hc Ha.
  pose proof (bx_mono b Hb Hn) as Hmono. pose proof (bx_le b Hb Hn) as Hble. pose proof (bx_01 b Hb Hn) as Hb01.
  set (c0 := updc c t (- G bx c t 1 (bx t))).
  assert (Hf0 : 0 < / INR (fact (S t))) by apply inv_fact_pos.
  assert (HGa : 0 <= Gabs bx c t 1 (bx t)).
  { apply rsum_nonneg. intros j Hj. apply Rmult_le_pos; [apply Rabs_pos|]. apply mono_nonneg. pose proof (Hble j t ltac:(lia)). lra. }
  pose proof (gam_pos eps Heps b) as Hgam.
  assert (He0 : errs c0 (S t)).
  { apply errs_upd; [exact Hn|exact He|]. rewrite Rplus_opp_l, Rabs_R0. pose proof (wabs_pos).
    unfold Rdiv. assert (0 < wabs * / INR (fact (S t))) by (apply Rmult_lt_0_compat; lra). assert (0 <= gam eps b * Gabs bx c t 1 (bx t)) by (apply Rmult_le_pos; assumption). lra. }
  assert (H00 : c0 O = 1) by (unfold c0; rewrite (updc_lo b Hn) by lia; exact H0).
  assert (Hhi' : lead sig (S t) <= 2).
  { eapply Rle_trans; [|exact Hhi]. unfold lead, Rdiv. apply Rmult_le_compat_l; [lra|]. apply Rinv_le_contravar; [apply INR_fact_lt_0|].
    apply le_INR. change (fact (S t)) with (S t * fact t)%nat. nia. }
  set (ms := fun i => match i with O => 0 | S _ => ideal c sig (S t) i end).
  assert (Hms : forall i, (i <= S t)%nat -> Rabs (ms i) <= Rabs (ideal c0 sig (S t) i)).
  { intros i Hi. destruct i as [|i]; [unfold ms; rewrite Rabs_R0; apply Rabs_pos|].
    unfold ms, ideal, c0. rewrite (updc_lo b Hn) by lia. apply Rle_refl. }
  destruct (stands_bx t Ht) as [[Fk Vk] _].
  destruct (widen_ok (cp_sum C (bk t)) Fk) as [Fx Vx].
  assert (Vx' : B2R (f80_of_f64 (cp_sum C (bk t))) = bx t) by (rewrite Vx; exact Vk).
  pose proof (step_adda t a Ht Ha) as Ha'.
  set (a' := adda t a) in *. set (x := f80_of_f64 (cp_sum C (bk t))) in *.
  assert (HD : forall i, (i <= S t)%nat -> 0 <= B2R x + B2R (a' i) <= 1).
  { intros i Hi. destruct (Ha' i Hi) as [_ V]. rewrite V, Vx'. pose proof (Hb01 t). destruct i as [|i]; [lra|].
    pose proof (Hble (S t - S i)%nat t ltac:(lia)). pose proof (Hb01 (S t - S i)%nat). lra. }
  assert (Hm0 : ls (@m_int FN LD m 0) = f80_of_Z 0) by (apply (ls_one D (f80_of_Z 0))).
  assert (HmS : forall i, ls (@m_int FN LD m (S i)) = mdiv m i) by (intros i; rewrite m_int_div; apply ls_one).
  destruct (ofZ80 0) as [F0 V0]; [lia|].
  assert (Hmi : forall i, (i <= S t)%nat -> is_finite (ls (@m_int FN LD m i)) = true /\
     Rabs (B2R (ls (@m_int FN LD m i)) - ms i) <= 3 * INR i * u80 * Rabs (ms i) + 3 * INR i * slack sig (S t) i).
  { intros i Hi. destruct i as [|i].
    - rewrite Hm0, V0. split; [exact F0|]. simpl ms. rewrite Rminus_0_r, Rabs_R0. simpl INR. lra.
    - rewrite HmS. apply (step_div3 c sig t m i); auto. lia. }
  destruct (eval_fast C L D M eps HM Heps Heps1 (@m_int FN LD m) a' x ms (slack sig (S t)) (S t)) as (_ & _ & Fr & Vr).
  - exact Fx.
  - intros i Hi. apply Hmi, Hi.
  - intros i Hi. apply Ha'. exact Hi.
  - exact HD.
  - lia.
  - intros i Hi. apply Hmi, Hi.
  - intros i Hi. eapply Rle_trans; [|apply (eta_ideal eps Heps Heps1 b Hb Hn c0 sig (S t) i); auto; lia].
    apply Rmult_le_compat_l; [apply Rlt_le, eta80_pos|]. apply Hms, Hi.
  - intros i Hi. pose proof (eta_slack b Hn sig (S t) i Hs Hlo Hi). pose proof eta80_pos. lra.
  - apply (slack_sum_le b Hn); auto.
  - eapply Rle_trans; [apply rsum_le; intros i Hi; apply Hms; lia|].
    eapply Rle_trans; [apply (ideal_sum eps Heps Heps1 b Hb Hn c0 sig (S t)); auto|]. apply bpow_le. lia.
  - unfold within, target in Vr.
    set (r := ls (map Bopp (@evalf FN LD (@m_int FN LD m) (fun i => [a' i]) [x] (S (S t))))) in *.
    assert (Hr : ls (@next_m FN LD (bk t) t m (fun j => [a j]) 0) = r).
    { unfold r, next_m. cbn [m_set]. f_equal.
      assert (HX : forall j, @evalf FN LD (@m_int FN LD m) (@next_a FN LD (bk t) (fun j => [a j])) (widen LD (bk t)) j
                  = @evalf FN LD (@m_int FN LD m) (fun i => [a' i]) [x] j).
      { induction j as [|j IH]; [reflexivity|]. cbn [evalf]. rewrite IH, next_adda. reflexivity. }
      exact (f_equal (map Bopp) (HX (S (S t)))). }
    assert (S1 : rsum (S (S t)) (fun i => ms i * (B2R x + B2R (a' i)) ^ i) = sig * G bx c t 1 (bx t)).
    { unfold G. apply (rsum_back b Hn); [simpl ms; ring|]. intros j Hj. destruct (Ha' (S t - j)%nat ltac:(lia)) as [_ V]. rewrite V, Vx'.
      destruct (S t - j)%nat as [|q] eqn:Eq; [lia|]. simpl ms. unfold ideal. replace (S t - S q)%nat with j by lia.
      replace (t - j + 1)%nat with (S q) by lia. unfold mono. replace (bx t + - bx j) with (bx t - bx j) by ring. field. apply fact_neq. }
    assert (S2 : rsum (S (S t)) (fun i => Rabs (ms i) * (B2R x + B2R (a' i)) ^ i) = sig * Gabs bx c t 1 (bx t)).
    { unfold Gabs. apply (rsum_back b Hn); [simpl ms; rewrite Rabs_R0; ring|]. intros j Hj. destruct (Ha' (S t - j)%nat ltac:(lia)) as [_ V]. rewrite V, Vx'.
      destruct (S t - j)%nat as [|q] eqn:Eq; [lia|]. simpl ms. unfold ideal. replace (S t - S q)%nat with j by lia.
      replace (t - j + 1)%nat with (S q) by lia. unfold mono, Rdiv. replace (bx t + - bx j) with (bx t - bx j) by ring.
      rewrite !Rabs_mult, (Rabs_pos_eq sig) by lra. rewrite (Rabs_pos_eq (/ INR (fact (S q)))) by apply Rlt_le, inv_fact_pos. ring. }
    rewrite S1, S2, slack_sum in Vr.
    exists (updc c t (B2R r / sig)). split; [rewrite (updc_lo b Hn) by lia; exact H0|]. split.
    + apply errs_upd; [exact Hn|exact He|].
      replace (B2R r / sig + G bx c t 1 (bx t)) with ((B2R r + sig * G bx c t 1 (bx t)) * / sig) by (field; lra).
      rewrite Rabs_mult, (Rabs_pos_eq (/ sig)) by (apply Rlt_le, Rinv_0_lt_compat, Hs).
      apply Rmult_le_reg_r with sig; [exact Hs|]. rewrite Rmult_assoc, Rinv_l by lra. rewrite Rmult_1_r.
      eapply Rle_trans; [exact Vr|].
      assert (HnS : INR (S (S t)) <= INR (S n)) by (apply le_INR; lia).
      assert (HnT : INR (S t) <= INR n) by (apply le_INR; lia).
      assert (T1 : 7 * INR (S (S t)) * eps * (sig * Gabs bx c t 1 (bx t)) <= gam eps b * Gabs bx c t 1 (bx t) * sig).
      { unfold gam. replace (7 * INR (S n) * eps * Gabs bx c t 1 (bx t) * sig) with (7 * INR (S n) * eps * (sig * Gabs bx c t 1 (bx t))) by ring.
        apply Rmult_le_compat_r; [apply Rmult_le_pos; lra|]. apply Rmult_le_compat_r; [pose proof (eps_p eps Heps); lra|]. lra. }
      assert (T2 : (3 * INR (S t) + 7) * (zeta * 2 ^ S t * lead sig (S t)) <= wabs / INR (fact (S t)) * sig).
      { unfold lead. replace (wabs / INR (fact (S t)) * sig) with (wabs * (sig / INR (fact (S t)))) by (field; apply fact_neq).
        rewrite <- Rmult_assoc. apply Rmult_le_compat_r; [unfold Rdiv; apply Rmult_le_pos; lra|].
        eapply Rle_trans; [|apply (zeta_w b Hn (S t)); lia]. apply Rmult_le_compat_r; [|lra].
        apply Rmult_le_pos; [apply Rlt_le, zeta_pos|apply pow_le; lra]. }
      lra.
    + intros i Hi. destruct i as [|i].
      * rewrite Hr. split; [exact Fr|].
        unfold ideal. rewrite Nat.sub_0_r, updc_hi. simpl INR.
        replace (B2R r - B2R r / sig * sig / 1) with 0 by (field; lra). rewrite Rabs_R0. lra.
      * change (@next_m FN LD (bk t) t m (fun j => [a j]) (S i)) with (@m_int FN LD m (S i)). rewrite HmS.
        replace (ideal (updc c t (B2R r / sig)) sig (S t) (S i)) with (ideal c sig (S t) (S i)) by (unfold ideal; rewrite (updc_lo b Hn) by lia; reflexivity).
        apply (step_div3 c sig t m i); auto. lia.
Qed.
(** ** The largest coefficient *)
Lemma max_spec3 (m : nat -> list f80) k : (forall i, (i <= k)%nat -> is_finite (ls (m i)) = true) ->
  let mx := ls (@maxf FN LD m (S k)) in
  is_finite mx = true /\ (forall i, (i <= k)%nat -> B2R (ls (m i)) <= B2R mx) /\ exists i, (i <= k)%nat /\ mx = ls (m i).
Proof.
  assert (H : forall j, (forall i, (i <= j)%nat -> is_finite (ls (m i)) = true) ->
     forall q, (q <= S j)%nat -> let mx := ls (@maxf FN LD m q) in
     is_finite mx = true /\ (forall i, (i < q)%nat -> B2R (ls (m i)) <= B2R mx) /\ exists i, (i <= j)%nat /\ mx = ls (m i)).
  { intros j Hj q. induction q as [|q IH]; intros Hq; cbv zeta.
    - change (@maxf FN LD m 0) with (m O). split; [apply Hj; lia|]. split; [intros; lia|]. exists O. split; [lia|reflexivity].
    - destruct (IH ltac:(lia)) as (F1 & V1 & i1 & Hi1 & E1). cbv zeta in F1, V1, E1.
      change (@maxf FN LD m (S q)) with (if Bltb (ls (@maxf FN LD m q)) (ls (m q)) then m q else @maxf FN LD m q).
      pose proof (Hj q ltac:(lia)) as Fq. rewrite Bltb_correct by assumption.
      destruct (Rlt_bool_spec (B2R (ls (@maxf FN LD m q))) (B2R (ls (m q)))) as [Hlt|Hge].
      + split; [exact Fq|]. split; [|exists q; split; [lia|reflexivity]].
        intros i Hi. destruct (Nat.eq_dec i q) as [->|Hne]; [apply Rle_refl|]. pose proof (V1 i ltac:(lia)). lra.
      + split; [exact F1|]. split; [|exists i1; split; [exact Hi1|exact E1]].
        intros i Hi. destruct (Nat.eq_dec i q) as [->|Hne]; [exact Hge|]. apply V1. lia. }
  intros Hk. cbv zeta. destruct (H k Hk (S k) ltac:(lia)) as (F1 & V1 & i1 & Hi1 & E1). cbv zeta in F1, V1, E1.
  split; [exact F1|]. split; [intros i Hi; apply V1; lia|]. exists i1. split; [lia|exact E1].
Qed.

Lemma coef_hi3 c sig t m i : 0 < sig -> errs c t -> c O = 1 -> (t <= n)%nat -> (i <= t)%nat -> coefs3 c sig t m ->
  Rabs (B2R (m i)) <= 17 * 2 ^ t * lead sig t.
Proof.
  intros Hs He H0 Ht Hi Hc. destruct (Hc i Hi) as [_ V]. pose proof (ideal_size eps Heps Heps1 b Hb Hn c sig t i Hs He H0 Ht Hi) as HI.
  set (q := / INR (fact (t - i)) * / INR (fact i)) in *.
  assert (Hq0 : 0 < q) by (apply Rmult_lt_0_compat; apply inv_fact_pos).
  assert (Hq : q <= 2 ^ t / INR (fact t)).
  { rewrite <- sum_inv_fact. pose proof (single_le t ltac:(lia) (fun l => / INR (fact l) * / INR (fact (t - l))) i) as H.
    cbv beta in H. unfold q. rewrite Rmult_comm. apply H; [|exact Hi].
    intros j Hj. apply Rlt_le, Rmult_lt_0_compat; apply inv_fact_pos. }
  assert (Es : slack sig t i = zeta * (sig * q)) by (unfold slack; fold q; ring). rewrite Es in V.
  assert (Hi2 : INR i <= 4096). { change 4096 with (IZR (Z.of_nat 4096)). rewrite <- INR_IZR_INZ. apply le_INR. lia. }
  pose proof (pos_INR i) as Hi0. pose proof u_64 as Hu. pose proof u80_pos as Hu0.
  assert (Hz : zeta <= / 16384).
  { unfold zeta. change (/ 16384) with (bpow radix2 (-14)). apply bpow_le. lia. }
  pose proof zeta_pos as Hz0.
  set (Q := sig * q) in *. assert (HQ : 0 < Q) by (apply Rmult_lt_0_compat; assumption).
  replace (8 * sig * q) with (8 * Q) in HI by (unfold Q; ring).
  assert (Hm : Rabs (B2R (m i)) <= 17 * Q).
  { replace (B2R (m i)) with (ideal c sig t i + (B2R (m i) - ideal c sig t i)) by ring.
    eapply Rle_trans; [apply Rabs_triang|]. 
    assert (3 * INR i * u80 <= 1) by nra.
    assert (3 * INR i * u80 * Rabs (ideal c sig t i) <= 1 * Rabs (ideal c sig t i)) by (apply Rmult_le_compat_r; [apply Rabs_pos|lra]).
    assert (3 * INR i * (zeta * Q) <= 12288 * (/ 16384 * Q)).
    { apply Rmult_le_compat; [lra|apply Rmult_le_pos; lra|lra|]. apply Rmult_le_compat_r; lra. }
    lra. }
  eapply Rle_trans; [exact Hm|]. unfold lead.
  replace (17 * 2 ^ t * (sig / INR (fact t))) with (17 * (sig * (2 ^ t / INR (fact t)))) by (field; apply fact_neq).
  apply Rmult_le_compat_l; [lra|]. unfold Q. apply Rmult_le_compat_l; lra.
Qed.

Lemma coef_lead3 c sig t m : 0 < sig -> c O = 1 -> (t <= n)%nat -> coefs3 c sig t m -> lead sig t / 2 <= B2R (m t).
Proof.
  intros Hs H0 Ht Hc. destruct (Hc t (le_n t)) as [_ V]. unfold ideal, slack in V. rewrite Nat.sub_diag, H0 in V.
  replace (1 * sig / INR (fact t)) with (lead sig t) in V by (unfold lead; field; apply fact_neq).
  replace (zeta * sig * (/ INR (fact 0) * / INR (fact t))) with (zeta * lead sig t) in V.
  2:{ unfold lead. simpl (fact 0). simpl (INR 1). field. apply fact_neq. }
  assert (Hl : 0 < lead sig t) by (unfold lead, Rdiv; apply Rmult_lt_0_compat; [exact Hs|apply inv_fact_pos]).
  assert (Hi2 : INR t <= 4096). { change 4096 with (IZR (Z.of_nat 4096)). rewrite <- INR_IZR_INZ. apply le_INR. lia. }
  pose proof (pos_INR t) as Hi0. pose proof u_64 as Hu. pose proof u80_pos as Hu0.
  assert (Hz : zeta <= / 262144).
  { unfold zeta. change (/ 262144) with (bpow radix2 (-18)). apply bpow_le. lia. }
  pose proof zeta_pos as Hz0. rewrite (Rabs_pos_eq (lead sig t)) in V by lra.
  assert (3 * INR t * u80 <= / 8) by nra.
  assert (3 * INR t * zeta <= 12288 * / 262144) by (apply Rmult_le_compat; lra).
  assert (3 * INR t * u80 * lead sig t <= / 8 * lead sig t) by (apply Rmult_le_compat_r; lra).
  assert (3 * INR t * zeta * lead sig t <= 12288 * / 262144 * lead sig t) by (apply Rmult_le_compat_r; lra).
  apply Rabs_le_inv in V. lra.
Qed.

Lemma coefs_scale3 c sig t m e : (0 <= e)%Z -> coefs3 c sig t m ->
  (forall i, (i <= t)%nat -> Rabs (B2R (m i) * bpow radix2 e) <= big80) ->
  coefs3 c (sig * bpow radix2 e) t (fun i => Bldexp mode_NE (m i) e).
Proof.
  intros He Hc Hbd i Hi. destruct (Hc i Hi) as [F V]. destruct (ldexp80 (m i) e F He (Hbd i Hi)) as [F1 V1]. split; [exact F1|].
  rewrite V1. pose proof (bpow_gt_0 radix2 e) as Hp. set (B := bpow radix2 e) in *.
  replace (ideal c (sig * B) t i) with (ideal c sig t i * B) by (unfold ideal; field; apply fact_neq).
  replace (slack (sig * B) t i) with (slack sig t i * B) by (unfold slack; ring).
  rewrite <- Rmult_minus_distr_r, !Rabs_mult, !(Rabs_pos_eq B) by lra.
  replace (3 * INR i * u80 * (Rabs (ideal c sig t i) * B) + 3 * INR i * (slack sig t i * B)) with
    ((3 * INR i * u80 * Rabs (ideal c sig t i) + 3 * INR i * slack sig t i) * B) by ring.
  apply Rmult_le_compat_r; [lra|exact V].
Qed.

(** ** The loop *)
Lemma repr_ext p k (m a a' : nat -> list f80) : @repr FN LD n p k m a -> (forall i, a i = a' i) -> @repr FN LD n p k m a'.
Proof. intros (H1 & H2 & H3 & H4) He. repeat split; auto; destruct (H4 i H) as [G1 G2]; [exact G1|rewrite G2; apply He]. Qed.
Definition Inv3 (t : nat) (s : ptm (ld LD) * Z) : Prop := exists (c : nat -> R) (m : nat -> list f80) (a : nat -> f80),
  @repr FN LD n (fst s) t m (fun i => [a i]) /\ adds b t a /\ coefs3 c (bpow radix2 (snd s)) t (fun i => ls (m i)) /\ c O = 1 /\ errs c t /\
  (0 <= snd s)%Z /\ lead (bpow radix2 (snd s)) t <= 2 /\ floor_lead b t <= lead (bpow radix2 (snd s)) t.

Lemma step_ok3 {thr : exn -> Prop} {abt : Prop} t s : (t < n)%nat -> Inv3 t s ->
  wp thr abt (@mns_step FN E LD bl (Z.of_nat t) s) (Inv3 (S t)).
Proof.
  intros Ht (c & m & a & Hr & Ha & Hc & H0 & He & HD & Hhi & Hfl). destruct s as [p delta]. cbn [fst snd] in *.
  set (sig := bpow radix2 delta) in *. assert (Hs : 0 < sig) by apply bpow_gt_0.
  pose proof (floor_next b Hn t sig Hs Ht Hfl) as Hfn.
  assert (Hmod : (0 <= (t - 1) mod 16 < 16)%nat) by (split; [lia|apply Nat.mod_upper_bound; lia]).
  assert (Hlo : lo <= lead sig (S t)).
  { eapply Rle_trans; [|exact Hfn]. unfold lo. apply bpow_le. lia. }
  assert (Hhi' : lead sig (S t) <= 2).
  { rewrite (lead_S b Hn). assert (0 < lead sig t) by (unfold lead, Rdiv; apply Rmult_lt_0_compat; [exact Hs|apply inv_fact_pos]).
    assert (/ INR (S t) <= 1) by (rewrite <- Rinv_1; apply Rinv_le_contravar; [lra|apply (le_INR 1); lia]).
    assert (0 < / INR (S t)) by (apply Rinv_0_lt_compat, lt_0_INR; lia). nra. }
  destruct (step_eval3 c sig t m a Hs Ht Hlo Hhi He H0 Hc Ha) as (c' & H0' & He' & Hc').
  pose proof (step_adda t a Ht Ha) as Ha'.
  assert (Hget : @get (list term) (@n0 FN) bl (Z.of_nat t) = bk t) by (unfold get; rewrite Nat2Z.id; reflexivity).
  eapply (run_step E LD n bl t p delta m (fun i => [a i])); [unfold size; f_equal; exact Hlen|exact Ht|exact Hr| |]; change (car FN) with (list term); rewrite Hget.
  all: set (m' := @next_m FN LD (bk t) t m (fun i => [a i]) : nat -> list f80) in *; set (a' := adda t a) in *.
  all: destruct (max_spec3 m' (S t)) as (Fx & Vx & ix & Hix & Ex); [intros i Hi; apply Hc', Hi|]; cbv zeta in Fx, Vx, Ex.
  all: pose proof (coef_lead3 c' sig (S t) (fun i => ls (m' i)) Hs H0' ltac:(lia) Hc') as Hlead.
  all: assert (Hlp : 0 < lead sig (S t)) by (unfold lead, Rdiv; apply Rmult_lt_0_compat; [exact Hs|apply inv_fact_pos]).
  all: set (mx := ls (@maxf FN LD m' (S (S t)))) in *.
  all: assert (Hmx : 0 < B2R mx) by (pose proof (Vx (S t) (le_n _)); lra).
  all: assert (Hmx2 : B2R mx <= 17 * 2 ^ S t * lead sig (S t)) by
    (rewrite Ex; eapply Rle_trans; [apply Rle_abs|]; apply (coef_hi3 c' sig (S t) (fun i => ls (m' i))); auto; lia).
  all: assert (Hfr : exists z, B2R mx = z * bpow radix2 (f80_frexp M mx) /\ / 2 <= z < 1).
  1,3: destruct mx as [sg|sg| |sg mm ee Hb'] eqn:Emx; try discriminate; [simpl in Hmx; lra|];
    change (f80_frexp M (B754_finite sg mm ee Hb')) with (snd (Bfrexp (B754_finite sg mm ee Hb' : f80)));
    pose proof (Bfrexp_correct 64 16384 _ (B754_finite sg mm ee Hb' : f80) eq_refl) as HB;
    destruct (Bfrexp (B754_finite sg mm ee Hb' : f80)) as [z e]; destruct HB as [HB1 HB2]; destruct (HB2 ltac:(lia)) as [HB3 _];
    exists (B2R z); cbn [snd]; split; [exact HB1|]; rewrite HB1 in Hmx; pose proof (bpow_gt_0 radix2 e);
    assert (0 < B2R z) by (apply Rnot_le_lt; intros Hn0; assert (B2R z * bpow radix2 e <= 0 * bpow radix2 e) by (apply Rmult_le_compat_r; lra); lra);
    rewrite Rabs_pos_eq in HB3 by lra; exact HB3.
  all: destruct Hfr as (z & Hz & Hz1).
  - (* no rescaling *)
    intros p' Hp' Hcond. exists c', m', a'. cbn [fst snd]. fold sig. split; [apply (repr_ext _ _ _ _ _ Hp'); intros i; apply next_adda|]. repeat (split; [assumption|]).
    change (@n_frexp (ld LD) (@maxf FN LD m' (S (S t)))) with (f80_frexp M mx) in Hcond.
    replace (S t - 1)%nat with t by lia.
    destruct (Z.eqb_spec (Z.rem (Z.of_nat t) 16) 0) as [Hrem|Hrem].
    + cbn [andb] in Hcond. apply Z.ltb_ge in Hcond. 
      assert (Hm0 : (t mod 16 = 0)%nat).
      { rewrite Z.rem_mod_nonneg in Hrem by lia. apply Nat2Z.inj. rewrite Nat2Z.inj_mod. exact Hrem. }
      unfold floor_lead. replace (S t - 1)%nat with t by lia. rewrite Hm0.
      assert (H1 : 1 <= bpow radix2 (f80_frexp M mx)) by (change 1 with (bpow radix2 0); apply bpow_le; exact Hcond).
      assert (H2 : / 2 <= B2R mx) by (rewrite Hz; nra).
      apply (floor_of_max b Hn (S t)); [lia|]. lra.
    + unfold floor_lead. replace (S t - 1)%nat with t by lia. eapply Rle_trans; [|exact Hfn]. apply bpow_le.
      rewrite Z.rem_mod_nonneg in Hrem by lia. 
      assert (Hm1 : (t mod 16 = (t - 1) mod 16 + 1)%nat).
      { assert ((t mod 16 <> 0)%nat) by (intros HH; apply Hrem; apply (f_equal Z.of_nat) in HH; rewrite Nat2Z.inj_mod in HH; exact HH).
        pose proof (Nat.div_mod t 16 ltac:(lia)). pose proof (Nat.div_mod (t - 1) 16 ltac:(lia)).
        pose proof (Nat.mod_upper_bound t 16 ltac:(lia)). pose proof (Nat.mod_upper_bound (t - 1) 16 ltac:(lia)). nia. }
      rewrite Hm1. lia.
  - (* rescaling *)
    intros p' Hcond. cbv zeta. change (@n_frexp (ld LD) (@maxf FN LD m' (S (S t)))) with (f80_frexp M mx) in Hcond |- *.
    intros Hp'. apply andb_prop in Hcond. destruct Hcond as [Hrem Hneg]. apply Z.eqb_eq in Hrem. apply Z.ltb_lt in Hneg.
    assert (Hm0 : (t mod 16 = 0)%nat).
    { rewrite Z.rem_mod_nonneg in Hrem by lia. apply Nat2Z.inj. rewrite Nat2Z.inj_mod. exact Hrem. }
    set (e := (0 - f80_frexp M mx)%Z) in *.
    assert (Hze : B2R mx * bpow radix2 e = z).
    { rewrite Hz, Rmult_assoc, <- bpow_plus. replace (f80_frexp M mx + e)%Z with 0%Z by (unfold e; lia). simpl. ring. }
    pose proof (bpow_gt_0 radix2 e) as Hbe.
    assert (Hl' : lead (sig * bpow radix2 e) (S t) = lead sig (S t) * bpow radix2 e) by (unfold lead; field; apply fact_neq).
    assert (Hup : lead sig (S t) * bpow radix2 e <= 2).
    { assert (lead sig (S t) / 2 * bpow radix2 e <= B2R mx * bpow radix2 e).
      { apply Rmult_le_compat_r; [lra|]. pose proof (Vx (S t) (le_n _)). lra. }
      rewrite Hze in H. lra. }
    exists c', (fun i => [Bldexp mode_NE (ls (m' i)) e]), a'. cbn [fst snd]. rewrite bpow_plus. fold sig.
    split; [apply (repr_ext _ _ _ _ _ Hp'); intros i; apply next_adda|]. split; [assumption|]. split; [|split; [assumption|split; [assumption|split; [unfold e; lia|]]]].
    + assert (HZ : coefs3 c' (sig * bpow radix2 e) (S t) (fun i => Bldexp mode_NE (ls (m' i)) e)).
      2:{ intros i Hi. rewrite ls_one. exact (HZ i Hi). }
      apply (coefs_scale3 c' sig (S t) (fun i => ls (m' i)) e); [unfold e; lia|exact Hc'|]. intros i Hi. cbv beta. rewrite Rabs_mult, (Rabs_pos_eq (bpow radix2 e)) by lra.
      apply Rle_trans with (17 * 2 ^ S t * lead sig (S t) * bpow radix2 e).
      * apply Rmult_le_compat_r; [lra|]. apply (coef_hi3 c' sig (S t) (fun i => ls (m' i))); auto.
      * rewrite Rmult_assoc. apply Rle_trans with (17 * 2 ^ S t * 2).
        -- apply Rmult_le_compat_l; [|exact Hup]. assert (0 < 2 ^ S t) by (apply pow_lt; lra). lra.
        -- rewrite pow2_bpow. unfold big80. apply Rle_trans with (bpow radix2 6 * bpow radix2 (Z.of_nat (S t))).
           ++ change (bpow radix2 6) with 64. pose proof (bpow_gt_0 radix2 (Z.of_nat (S t))). lra.
           ++ rewrite <- bpow_plus. apply bpow_le. lia.
    + rewrite Hl'. split; [exact Hup|]. unfold floor_lead. replace (S t - 1)%nat with t by lia. rewrite Hm0.
      apply (floor_of_max b Hn (S t)); [lia|]. rewrite <- Rmult_assoc.
      apply Rle_trans with (B2R mx * bpow radix2 e); [rewrite Hze; lra|]. apply Rmult_le_compat_r; lra.
Qed.

End Step.
