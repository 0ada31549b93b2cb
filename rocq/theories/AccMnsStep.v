(** * AccMnsStep: one iteration of ecdf1_mns2016 in long double. *)
From Coquelicot Require Import Coquelicot.
From Flocq Require Import Core.Core IEEE754.BinarySingleNaN.
From Coq Require Import ZArith Reals List Bool Lia Lra Factorial.
From Verif Require Import Base Num Hoare RSum Binary64 Binary64Facts B64Round LongDouble LdRound Ecdf1Mns MnsErr MnsRun AccMnsEval.
From Verif Require Import Spec SpecFacts.
Import List.
Local Open Scope R_scope.

Lemma inv_fact_pos k : 0 < / INR (fact k).
Proof. apply Rinv_0_lt_compat, INR_fact_lt_0. Qed.
Lemma fact_ge1 k : 1 <= INR (fact k).
Proof. apply (le_INR 1). pose proof (lt_O_fact k). lia. Qed.

Lemma Gabs_ext b c c' k r x : (forall j, (j <= k)%nat -> c j = c' j) -> Gabs b c k r x = Gabs b c' k r x.
Proof. intros H. apply rsum_ext. intros j Hj. rewrite H by lia. reflexivity. Qed.

Lemma inv_fact_prod j i : / INR (fact (j + i)) <= / INR (fact j) * / INR (fact i).
Proof.
  rewrite <- !mono_one. 
  replace (mono 1 (j + i)) with (/ INR (fact (j + i))) by (rewrite mono_one; reflexivity).
  rewrite !mono_one, <- Rinv_mult. apply Rinv_le_contravar.
  - apply Rmult_lt_0_compat; apply INR_fact_lt_0.
  - rewrite <- mult_INR. apply le_INR. clear. induction j as [|j IH]; [simpl; lia|].
    change (fact (S j + i)) with (S (j + i) * fact (j + i))%nat. change (fact (S j)) with (S j * fact j)%nat. nia.
Qed.
Lemma pow2_bpow k : 2 ^ k = bpow radix2 (Z.of_nat k).
Proof.
  induction k as [|k IH]; [reflexivity|]. rewrite Nat2Z.inj_succ. unfold Z.succ. rewrite bpow_plus, <- IH.
  change (bpow radix2 1) with 2. simpl. ring.
Qed.

Section Step.
Context (L : libm) (M : libml) (eps : R) (E : env (Bnum L)).
Notation LD := (x87 L M).
Hypothesis HM : libml_accurate M eps.
Hypothesis Heps : u80 <= eps.
Hypothesis Heps1 : eps <= bpow radix2 (-40).
Variable b : list f64.
Hypothesis Hb : accepted64 b.
Notation n := (List.length b).
Hypothesis Hn : (n <= 4096)%nat.

Definition bx (j : nat) : R := if (j <? n)%nat then B2R (nth j b (B754_zero false)) else 1.
Lemma bx_nth j : (j < n)%nat -> bx j = nth j (map B2R b) 0.
Proof.
  intros Hj. unfold bx. destruct (Nat.ltb_spec j n); [|lia].
  change 0 with (B2R (B754_zero false : f64)). rewrite map_nth. reflexivity.
Qed.
Lemma bx_01 j : 0 <= bx j <= 1.
Proof.
  destruct (Nat.ltb_spec j n) as [Hj|Hj].
  - rewrite bx_nth by exact Hj. destruct Hb as [_ [_ HF]]. rewrite Forall_forall in HF. apply HF.
    apply nth_In. rewrite map_length. exact Hj.
  - unfold bx. destruct (Nat.ltb_spec j n); [lia|lra].
Qed.
Lemma bx_mono j : bx j <= bx (S j).
Proof.
  destruct (Nat.ltb_spec (S j) n) as [Hj|Hj].
  - rewrite !bx_nth by lia. destruct Hb as [_ [HS _]]. 
    assert (Hl : (S j < List.length (map B2R b))%nat) by (rewrite map_length; exact Hj).
    revert Hl HS. generalize (map B2R b). clear. intros l. revert j. induction l as [|x l IH]; intros j Hl HS; simpl in Hl; [lia|].
    apply Sorted.Sorted_inv in HS. destruct HS as [HS HH]. destruct j as [|j].
    + destruct l as [|y l]; simpl in Hl; [lia|]. inversion HH; subst. simpl. assumption.
    + change (nth j l 0 <= nth (S j) l 0). apply IH; [lia|exact HS].
  - unfold bx at 2. destruct (Nat.ltb_spec (S j) n); [lia|]. apply bx_01.
Qed.
Lemma bx_le i j : (i <= j)%nat -> bx i <= bx j.
Proof. apply (b_le bx bx_mono). Qed.
Lemma bx_fin j : is_finite (nth j b (B754_zero false)) = true.
Proof.
  destruct (Nat.ltb_spec j n) as [Hj|Hj].
  - destruct Hb as [HF _]. rewrite Forall_forall in HF. apply HF. apply nth_In. exact Hj.
  - rewrite nth_overflow by exact Hj. reflexivity.
Qed.

Definition gam : R := 7 * INR (S n) * eps.
Definition zeta : R := bpow radix2 (-12000).
Definition wabs : R := bpow radix2 (-7800).

Lemma nR : 0 <= INR n <= 4096.
Proof.
  split; [apply pos_INR|]. change 4096 with (IZR (Z.of_nat 4096)). rewrite <- INR_IZR_INZ. apply le_INR. exact Hn.
Qed.
Lemma eps_p : 0 < eps.
Proof. pose proof u80_pos. lra. Qed.
Lemma gam_pos : 0 <= gam.
Proof. unfold gam. pose proof (pos_INR (S n)). pose proof eps_p. apply Rmult_le_pos; lra. Qed.
Lemma gam_n : 4 * gam * INR (S n) <= / 1000.
Proof.
  unfold gam. rewrite S_INR. pose proof nR. pose proof eps_p. change (bpow radix2 (-40)) with (/ 1099511627776) in Heps1.
  assert ((INR n + 1) * (INR n + 1) <= 4097 * 4097) by (apply Rmult_le_compat; lra).
  assert ((INR n + 1) * (INR n + 1) * eps <= 4097 * 4097 * / 1099511627776) by (apply Rmult_le_compat; [nra|lra|lra|lra]).
  lra.
Qed.
Lemma zeta_pos : 0 < zeta.
Proof. apply bpow_gt_0. Qed.
Lemma wabs_pos : 0 < wabs.
Proof. apply bpow_gt_0. Qed.
Lemma w_n k : (k <= n)%nat -> wabs * 2 ^ k <= bpow radix2 (-3000).
Proof. intros Hk. rewrite pow2_bpow. unfold wabs. rewrite <- bpow_plus. apply bpow_le. lia. Qed.
Lemma w_n1 k : (k <= n)%nat -> wabs * 2 ^ k <= 1.
Proof. intros Hk. eapply Rle_trans; [apply w_n, Hk|]. change 1 with (bpow radix2 0). apply bpow_le. lia. Qed.
Lemma zeta_w k : (k <= n)%nat -> (3 * INR n + 7) * (zeta * 2 ^ k) <= wabs.
Proof.
  intros Hk. pose proof nR. apply Rle_trans with (bpow radix2 14 * (zeta * 2 ^ k)).
  - apply Rmult_le_compat_r; [apply Rmult_le_pos; [apply Rlt_le, zeta_pos|apply pow_le; lra]|]. simpl. lra.
  - rewrite pow2_bpow. unfold zeta, wabs. rewrite <- !bpow_plus. apply bpow_le. lia.
Qed.

(** ** The invariant *)
Definition errs (c : nat -> R) (t : nat) : Prop :=
  forall k, (k < t)%nat -> Rabs (dlt bx c (S k)) <= gam * Gabs bx c k 1 (bx k) + wabs / INR (fact (S k)).
Definition ideal (c : nat -> R) (sig : R) (t i : nat) : R := c (t - i)%nat * sig / INR (fact i).
Definition slack (sig : R) (t i : nat) : R := zeta * sig * (/ INR (fact (t - i)) * / INR (fact i)).
Definition coefs (c : nat -> R) (sig : R) (t : nat) (m : nat -> f80) : Prop := forall i, (i <= t)%nat ->
  is_finite (m i) = true /\
  Rabs (B2R (m i) - ideal c sig t i) <= 2 * INR i * u80 * Rabs (ideal c sig t i) + 2 * INR i * slack sig t i.
Definition adds (t : nat) (a : nat -> f80) : Prop := forall i, (i <= t)%nat ->
  is_finite (a i) = true /\ B2R (a i) = match i with O => 0 | S _ => - bx (t - i) end.

(** leading coefficient *)
Definition lead (sig : R) (t : nat) : R := sig / INR (fact t).

Lemma sizes c t k : errs c t -> c O = 1 -> (t <= n)%nat -> (k <= t)%nat -> Rabs (c k) <= 8 / INR (fact k).
Proof.
  intros He H0 Ht Hk. apply (c_size bx bx_mono c gam wabs t); auto.
  - apply gam_pos.
  - pose proof gam_n. pose proof gam_pos. assert (INR (S t) <= INR (S n)) by (apply le_INR; lia). pose proof (pos_INR (S t)). nra.
  - apply Rlt_le, wabs_pos.
  - apply w_n1. exact Ht.
  - apply bx_01.
Qed.

Lemma ideal_size c sig t i : 0 < sig -> errs c t -> c O = 1 -> (t <= n)%nat -> (i <= t)%nat ->
  Rabs (ideal c sig t i) <= 8 * sig * (/ INR (fact (t - i)) * / INR (fact i)).
Proof.
  intros Hs He H0 Ht Hi. unfold ideal, Rdiv. rewrite !Rabs_mult, (Rabs_pos_eq sig), (Rabs_pos_eq (/ INR (fact i))).
  - pose proof (sizes c t (t - i) He H0 Ht ltac:(lia)) as H. unfold Rdiv in H. pose proof (inv_fact_pos i).
    replace (8 * sig * (/ INR (fact (t - i)) * / INR (fact i))) with (8 * / INR (fact (t - i)) * sig * / INR (fact i)) by ring.
    apply Rmult_le_compat_r; [lra|]. apply Rmult_le_compat_r; [lra|]. exact H.
  - apply Rlt_le, inv_fact_pos.
  - lra.
Qed.

Lemma slack_ge sig t i : 0 < sig -> (i <= t)%nat -> zeta * lead sig t <= slack sig t i.
Proof.
  intros Hs Hi. unfold lead, slack, Rdiv. rewrite <- Rmult_assoc. apply Rmult_le_compat_l.
  - apply Rmult_le_pos; [apply Rlt_le, zeta_pos|lra].
  - replace t with ((t - i) + i)%nat at 1 by lia. apply inv_fact_prod.
Qed.
Lemma slack_sum sig t : rsum (S t) (slack sig t) = zeta * 2 ^ t * lead sig t.
Proof.
  unfold slack. rewrite rsum_scal.
  rewrite (rsum_ext (S t) (fun i => / INR (fact (t - i)) * / INR (fact i)) (fun i => / INR (fact i) * / INR (fact (t - i)))) by (intros; ring).
  rewrite sum_inv_fact. unfold lead. field. apply fact_neq.
Qed.

(** eta is small beside any positive leading coefficient that occurs *)
Definition lo : R := bpow radix2 (-4300).
Lemma eta_slack sig t i : 0 < sig -> lo <= lead sig t -> (i <= t)%nat -> 8 * eta80 <= slack sig t i.
Proof.
  intros Hs Hl Hi. eapply Rle_trans; [|apply slack_ge; assumption].
  apply Rle_trans with (zeta * lo).
  - unfold eta80, zeta, lo. change 8 with (bpow radix2 3). rewrite <- !bpow_plus. apply bpow_le. lia.
  - apply Rmult_le_compat_l; [apply Rlt_le, zeta_pos|exact Hl].
Qed.
Lemma eta_ideal c sig t i : 0 < sig -> errs c t -> c O = 1 -> (t <= n)%nat -> (i <= t)%nat -> 
  eta80 * Rabs (ideal c sig t i) <= slack sig t i.
Proof.
  intros Hs He H0 Ht Hi. pose proof (ideal_size c sig t i Hs He H0 Ht Hi) as H. pose proof eta80_pos as He0.
  eapply Rle_trans; [apply Rmult_le_compat_l; [lra|exact H]|]. unfold slack.
  assert (HP : 0 <= sig * (/ INR (fact (t - i)) * / INR (fact i))).
  { apply Rmult_le_pos; [lra|]. apply Rmult_le_pos; apply Rlt_le, inv_fact_pos. }
  replace (eta80 * (8 * sig * (/ INR (fact (t - i)) * / INR (fact i)))) with (8 * eta80 * (sig * (/ INR (fact (t - i)) * / INR (fact i)))) by ring.
  replace (zeta * sig * (/ INR (fact (t - i)) * / INR (fact i))) with (zeta * (sig * (/ INR (fact (t - i)) * / INR (fact i)))) by ring.
  apply Rmult_le_compat_r; [exact HP|]. unfold eta80, zeta. change 8 with (bpow radix2 3). rewrite <- bpow_plus. apply bpow_le. lia.
Qed.
Lemma ideal_sum c sig t : 0 < sig -> lead sig t <= 2 -> errs c t -> c O = 1 -> (t <= n)%nat ->
  rsum (S t) (fun i => Rabs (ideal c sig t i)) <= bpow radix2 4200.
Proof.
  intros Hs Hl He H0 Ht.
  apply Rle_trans with (rsum (S t) (fun i => 8 * sig * (/ INR (fact i) * / INR (fact (t - i))))).
  - apply rsum_le. intros i Hi. rewrite (Rmult_comm (/ INR (fact i))). apply ideal_size; auto. lia.
  - rewrite rsum_scal, sum_inv_fact. unfold lead, Rdiv in *.
    replace (8 * sig * (2 ^ t * / INR (fact t))) with (8 * 2 ^ t * (sig * / INR (fact t))) by ring.
    apply Rle_trans with (8 * 2 ^ t * 2); [apply Rmult_le_compat_l; [assert (0 <= 2 ^ t) by (apply pow_le; lra); lra|exact Hl]|].
    replace (8 * 2 ^ t * 2) with (bpow radix2 4 * 2 ^ t) by (change (bpow radix2 4) with 16; ring).
    rewrite pow2_bpow, <- bpow_plus. apply bpow_le. lia.
Qed.
Lemma slack_sum_le sig t : 0 < sig -> lead sig t <= 2 -> (t <= n)%nat -> rsum (S t) (slack sig t) <= 1.
Proof.
  intros Hs Hl Ht. rewrite slack_sum. apply Rle_trans with (zeta * 2 ^ t * 2).
  - apply Rmult_le_compat_l; [apply Rmult_le_pos; [apply Rlt_le, zeta_pos|apply pow_le; lra]|exact Hl].
  - rewrite pow2_bpow. unfold zeta. change 2 with (bpow radix2 1). rewrite <- !bpow_plus.
    change 1 with (bpow radix2 0). apply bpow_le. lia.
Qed.
Lemma slack_pos sig t i : 0 < sig -> 0 < slack sig t i.
Proof.
  intros Hs. unfold slack. apply Rmult_lt_0_compat; [apply Rmult_lt_0_compat; [apply zeta_pos|exact Hs]|].
  apply Rmult_lt_0_compat; apply inv_fact_pos.
Qed.

(** ** The additive coefficients *)
Notation BN := (Bnum L).
Notation bk t := (nth t b (B754_zero false) : f64).
Lemma step_adds t a : (t < n)%nat -> adds t a -> adds (S t) (@next_a BN LD (bk t) a).
Proof.
  intros Ht Ha i Hi. unfold next_a. destruct i as [|[|i]].
  - split; reflexivity.
  - change (@a_int BN LD a (widen LD (n_neg (n:=BN) (bk t))) 1) with (f80_of_f64 (Bopp (bk t))).
    destruct (widen_ok (Bopp (bk t))) as [F1 V1]; [rewrite is_finite_Bopp; apply bx_fin|]. split; [exact F1|].
    rewrite V1, B2R_Bopp. replace (S t - 1)%nat with t by lia. unfold bx. destruct (Nat.ltb_spec t n); [reflexivity|lia].
  - change (is_finite (a (S i)) = true /\ B2R (a (S i)) = - bx (S t - S (S i))).
    destruct (Ha (S i)) as [F1 V1]; [lia|]. split; [exact F1|]. rewrite V1. f_equal.
Qed.

(** ** The division of the coefficients *)
Lemma step_div c sig t m i : 0 < sig -> (t < n)%nat -> (i <= t)%nat -> lo <= lead sig (S t) -> lead sig t <= 2 ->
  errs c t -> c O = 1 -> coefs c sig t m ->
  is_finite (@m_int BN LD m (S i) : f80) = true /\
  Rabs (B2R (@m_int BN LD m (S i) : f80) - ideal c sig (S t) (S i)) <=
    2 * INR (S i) * u80 * Rabs (ideal c sig (S t) (S i)) + 2 * INR (S i) * slack sig (S t) (S i).
Proof.
  intros Hs Ht Hi Hlo Hhi He H0 Hc. destruct (Hc i Hi) as [F1 V1].
  change (@m_int BN LD m (S i) : f80) with (Bdiv mode_NE (m i) (f80_of_Z (Z.of_nat (S i)))).
  destruct (ofZ80 (Z.of_nat (S i))) as [Fq Vq]; [lia|]. rewrite <- INR_IZR_INZ in Vq.
  assert (Hq : 1 <= INR (S i) <= 4096).
  { split; [apply (le_INR 1); lia|]. change 4096 with (IZR (Z.of_nat 4096)). rewrite <- INR_IZR_INZ. apply le_INR. lia. }
  assert (Hq' : INR (S i) = INR i + 1) by apply S_INR.
  assert (Ei : ideal c sig (S t) (S i) = ideal c sig t i / INR (S i)).
  { unfold ideal. replace (S t - S i)%nat with (t - i)%nat by lia. change (fact (S i)) with (S i * fact i)%nat. rewrite mult_INR.
    field. split; [apply fact_neq|lra]. }
  assert (Es : slack sig (S t) (S i) = slack sig t i / INR (S i)).
  { unfold slack. replace (S t - S i)%nat with (t - i)%nat by lia. change (fact (S i)) with (S i * fact i)%nat. rewrite mult_INR.
    field. repeat split; try apply fact_neq; lra. }
  pose proof (eta_slack sig (S t) (S i) Hs Hlo ltac:(lia)) as Heta. pose proof eta80_pos.
  pose proof (ideal_sum c sig t Hs Hhi He H0 ltac:(lia)) as HS1.
  pose proof (slack_sum_le sig t Hs Hhi ltac:(lia)) as HS2.
  pose proof (single_le t ltac:(lia) (fun i => Rabs (ideal c sig t i)) i ltac:(intros; apply Rabs_pos) Hi) as B1.
  pose proof (single_le t ltac:(lia) (slack sig t) i ltac:(intros; apply Rlt_le, slack_pos; exact Hs) Hi) as B2. cbv beta in B1, B2.
  pose proof (slack_pos sig t i Hs) as Hsp.
  set (y := ideal c sig t i) in *. set (s := slack sig t i) in *. set (v := B2R (m i)) in *. set (q := INR (S i)) in *.
  pose proof u_64 as Hu. pose proof u80_pos as Hu0. pose proof (Rabs_pos y) as Hy0.
  assert (Hiu : 2 * INR i * u80 <= / 1000) by nra. assert (Hi0 : 0 <= 2 * INR i * u80) by (pose proof (pos_INR i); nra).
  assert (Hv : Rabs v <= Rabs y * (1 + 2 * INR i * u80) + 2 * INR i * s).
  { replace v with (y + (v - y)) by ring. eapply Rle_trans; [apply Rabs_triang|]. lra. }
  assert (Hvb : Rabs v <= big80).
  { assert (Hbig : 1048576 + bpow radix2 4201 <= big80).
    { unfold big80. change 1048576 with (bpow radix2 20). 
      apply Rle_trans with (bpow radix2 4201 + bpow radix2 4201).
      - apply Rplus_le_compat_r, bpow_le; lia.
      - replace (bpow radix2 4201 + bpow radix2 4201) with (bpow radix2 1 * bpow radix2 4201) by (change (bpow radix2 1) with 2; ring).
        rewrite <- bpow_plus. apply bpow_le. lia. }
    assert (H42 : bpow radix2 4201 = 2 * bpow radix2 4200) by (change 2 with (bpow radix2 1); rewrite <- bpow_plus; reflexivity).
    assert (Rabs y * (1 + 2 * INR i * u80) <= 2 * Rabs y) by nra. assert (2 * INR i * s <= 8192 * 1) by (apply Rmult_le_compat; lra).
    lra. }
  assert (Hrq : 0 < / q) by (apply Rinv_0_lt_compat; lra).
  assert (Hrq1 : / q <= 1) by (rewrite <- Rinv_1; apply Rinv_le_contravar; lra).
  assert (Hd : Rabs (v / B2R (f80_of_Z (Z.of_nat (S i)))) = Rabs v * / q).
  { rewrite Vq. unfold Rdiv. rewrite Rabs_mult, (Rabs_pos_eq (/ q)) by lra. reflexivity. }
  destruct (div80 (m i) (f80_of_Z (Z.of_nat (S i))) F1) as (F2 & _ & V2).
  - rewrite Vq. lra.
  - fold v. rewrite Hd. pose proof (Rabs_pos v). assert (Rabs v * / q <= Rabs v * 1) by (apply Rmult_le_compat_l; lra). lra.
  - split; [exact F2|]. fold v in V2. rewrite Hd in V2. rewrite Vq in V2.
    rewrite Ei, Es. set (r := B2R (Bdiv mode_NE (m i) (f80_of_Z (Z.of_nat (S i))))) in *.
    replace (r - y / q) with ((r - v / q) + (v - y) * / q) by (unfold Rdiv; ring).
    eapply Rle_trans; [apply Rabs_triang|]. rewrite Rabs_mult, (Rabs_pos_eq (/ q)) by lra.
    replace (Rabs (y / q)) with (Rabs y * / q) by (unfold Rdiv; rewrite Rabs_mult, (Rabs_pos_eq (/ q)) by lra; reflexivity).
    rewrite Es in Heta. unfold Rdiv in Heta |- *.
    assert (H1 : Rabs (v - y) * / q <= (2 * INR i * u80 * Rabs y + 2 * INR i * s) * / q) by (apply Rmult_le_compat_r; lra).
    assert (H2 : u80 * (Rabs v * / q) <= u80 * ((Rabs y * (1 + 2 * INR i * u80) + 2 * INR i * s) * / q)).
    { apply Rmult_le_compat_l; [lra|]. apply Rmult_le_compat_r; lra. }
    set (Y := Rabs y * / q) in *. set (S1 := s * / q) in *.
    assert (HY : 0 <= Y) by (apply Rmult_le_pos; lra). assert (HS : 0 < S1) by (apply Rmult_lt_0_compat; lra).
    replace ((2 * INR i * u80 * Rabs y + 2 * INR i * s) * / q) with (2 * INR i * u80 * Y + 2 * INR i * S1) in H1 by (unfold Y, S1; ring).
    replace (u80 * ((Rabs y * (1 + 2 * INR i * u80) + 2 * INR i * s) * / q)) with
      (u80 * Y + (2 * INR i * u80) * (u80 * Y) + (2 * INR i * u80) * S1) in H2 by (unfold Y, S1; ring).
    assert (H3 : 0 <= u80 * Y) by (apply Rmult_le_pos; lra).
    assert (H4 : (2 * INR i * u80) * (u80 * Y) <= / 1000 * (u80 * Y)) by (apply Rmult_le_compat_r; lra).
    assert (H5 : (2 * INR i * u80) * S1 <= / 1000 * S1) by (apply Rmult_le_compat_r; lra).
    replace (2 * q * u80 * Y + 2 * q * S1) with (2 * (INR i + 1) * u80 * Y + 2 * (INR i + 1) * S1) by (rewrite Hq'; ring).
    unfold Rdiv in V2. lra.
Qed.

(** ** The evaluation *)
Definition updc (c : nat -> R) (t : nat) (v : R) (j : nat) : R := if (j =? S t)%nat then v else c j.
Lemma updc_lo c t v j : (j <= t)%nat -> updc c t v j = c j.
Proof. intros Hj. unfold updc. destruct (Nat.eqb_spec j (S t)); [lia|reflexivity]. Qed.
Lemma updc_hi c t v : updc c t v (S t) = v.
Proof. unfold updc. rewrite Nat.eqb_refl. reflexivity. Qed.

Lemma errs_upd c t v : errs c t ->
  Rabs (v + G bx c t 1 (bx t)) <= gam * Gabs bx c t 1 (bx t) + wabs / INR (fact (S t)) ->
  errs (updc c t v) (S t).
Proof.
  intros He Hv k Hk. unfold dlt.
  rewrite (G_ext bx (updc c t v) c k) by (intros; apply updc_lo; lia).
  rewrite (Gabs_ext bx (updc c t v) c k) by (intros; apply updc_lo; lia).
  destruct (Nat.eq_dec k t) as [->|Hne].
  - rewrite updc_hi. exact Hv.
  - rewrite updc_lo by lia. apply He. lia.
Qed.

Lemma rsum_back t f g sig : f O = 0 -> (forall j, (j <= t)%nat -> f (S t - j)%nat = sig * g j) ->
  rsum (S (S t)) f = sig * rsum (S t) g.
Proof.
  intros H0 Hf. rewrite rsum_rev.
  change (rsum (S t) (fun i => f (S (S t) - 1 - i)%nat) + f (S (S t) - 1 - S t)%nat = sig * rsum (S t) g).
  replace (S (S t) - 1 - S t)%nat with O by lia. rewrite H0, Rplus_0_r, <- rsum_scal.
  apply rsum_ext. intros j Hj. replace (S (S t) - 1 - j)%nat with (S t - j)%nat by lia. apply Hf. lia.
Qed.

Lemma step_eval c sig t (m a : nat -> f80) : 0 < sig -> (t < n)%nat -> lo <= lead sig (S t) -> lead sig t <= 2 ->
  errs c t -> c O = 1 -> coefs c sig t m -> adds t a ->
  exists c', c' O = 1 /\ errs c' (S t) /\ coefs c' sig (S t) (@next_m BN LD (bk t) t m a).
Proof.
  intros Hs Ht Hlo Hhi He H0 Hc Ha.
  set (c0 := updc c t (- G bx c t 1 (bx t))).
  assert (Hf0 : 0 < / INR (fact (S t))) by apply inv_fact_pos.
  assert (HGa : 0 <= Gabs bx c t 1 (bx t)).
  { apply rsum_nonneg. intros j Hj. apply Rmult_le_pos; [apply Rabs_pos|]. apply mono_nonneg. pose proof (bx_le j t ltac:(lia)). lra. }
  assert (He0 : errs c0 (S t)).
  { apply errs_upd; [exact He|]. rewrite Rplus_opp_l, Rabs_R0. pose proof gam_pos. pose proof wabs_pos.
    unfold Rdiv. assert (0 < wabs * / INR (fact (S t))) by (apply Rmult_lt_0_compat; lra). nra. }
  assert (H00 : c0 O = 1) by (unfold c0; rewrite updc_lo by lia; exact H0).
  assert (Hhi' : lead sig (S t) <= 2).
  { eapply Rle_trans; [|exact Hhi]. unfold lead, Rdiv. apply Rmult_le_compat_l; [lra|]. apply Rinv_le_contravar; [apply INR_fact_lt_0|].
    apply le_INR. change (fact (S t)) with (S t * fact t)%nat. nia. }
  set (ms := fun i => match i with O => 0 | S _ => ideal c sig (S t) i end).
  assert (Hms : forall i, (i <= S t)%nat -> Rabs (ms i) <= Rabs (ideal c0 sig (S t) i)).
  { intros i Hi. destruct i as [|i]; [unfold ms; rewrite Rabs_R0; apply Rabs_pos|].
    unfold ms, ideal, c0. rewrite updc_lo by lia. apply Rle_refl. }
  destruct (widen_ok (bk t) (bx_fin t)) as [Fx Vx].
  assert (Vx' : B2R (f80_of_f64 (bk t)) = bx t) by (rewrite Vx; unfold bx; destruct (Nat.ltb_spec t n); [reflexivity|lia]).
  pose proof (step_adds t a Ht Ha) as Ha'.
  set (a' := @next_a BN LD (bk t) a) in *. set (x := f80_of_f64 (bk t)) in *.
  assert (HD : forall i, (i <= S t)%nat -> 0 <= B2R x + B2R (a' i) <= 1).
  { intros i Hi. destruct (Ha' i Hi) as [_ V]. rewrite V, Vx'. pose proof (bx_01 t). destruct i as [|i]; [lra|].
    pose proof (bx_le (S t - S i) t ltac:(lia)). pose proof (bx_01 (S t - S i)). lra. }
  destruct (eval_acc L M eps HM Heps Heps1 (@m_int BN LD m) a' x ms (slack sig (S t)) (S t)) as [Fr Vr].
  - exact Fx.
  - intros i Hi. destruct i as [|i]; [reflexivity|]. apply (step_div c sig t m i); auto. lia.
  - intros i Hi. apply Ha'. exact Hi.
  - exact HD.
  - lia.
  - intros i Hi. destruct i as [|i].
    + change (B2R (@m_int BN LD m 0)) with 0. simpl ms. rewrite Rminus_0_r, Rabs_R0. simpl INR. lra.
    + apply (step_div c sig t m i); auto. lia.
  - intros i Hi. eapply Rle_trans; [|apply (eta_ideal c0 sig (S t) i); auto; lia].
    apply Rmult_le_compat_l; [apply Rlt_le, eta80_pos|]. apply Hms, Hi.
  - intros i Hi. pose proof (eta_slack sig (S t) i Hs Hlo Hi). pose proof eta80_pos. lra.
  - apply slack_sum_le; auto.
  - eapply Rle_trans; [apply rsum_le; intros i Hi; apply Hms; lia|].
    eapply Rle_trans; [apply (ideal_sum c0 sig (S t)); auto|]. apply bpow_le. lia.
  - cbv zeta in Fr, Vr. set (r := @evalf BN LD (@m_int BN LD m) a' x (S (S t)) : f80) in *.
    assert (S1 : rsum (S (S t)) (fun i => ms i * (B2R x + B2R (a' i)) ^ i) = sig * G bx c t 1 (bx t)).
    { unfold G. apply rsum_back; [simpl ms; ring|]. intros j Hj. destruct (Ha' (S t - j)%nat ltac:(lia)) as [_ V]. rewrite V, Vx'.
      destruct (S t - j)%nat as [|q] eqn:Eq; [lia|]. simpl ms. unfold ideal. replace (S t - S q)%nat with j by lia.
      replace (t - j + 1)%nat with (S q) by lia. unfold mono. replace (bx t + - bx j) with (bx t - bx j) by ring. field. apply fact_neq. }
    assert (S2 : rsum (S (S t)) (fun i => Rabs (ms i) * (B2R x + B2R (a' i)) ^ i) = sig * Gabs bx c t 1 (bx t)).
    { unfold Gabs. apply rsum_back; [simpl ms; rewrite Rabs_R0; ring|]. intros j Hj. destruct (Ha' (S t - j)%nat ltac:(lia)) as [_ V]. rewrite V, Vx'.
      destruct (S t - j)%nat as [|q] eqn:Eq; [lia|]. simpl ms. unfold ideal. replace (S t - S q)%nat with j by lia.
      replace (t - j + 1)%nat with (S q) by lia. unfold mono, Rdiv. replace (bx t + - bx j) with (bx t - bx j) by ring.
      rewrite !Rabs_mult, (Rabs_pos_eq sig) by lra. rewrite (Rabs_pos_eq (/ INR (fact (S q)))) by apply Rlt_le, inv_fact_pos. ring. }
    rewrite S1, S2, slack_sum in Vr.
    exists (updc c t (- B2R r / sig)). split; [rewrite updc_lo by lia; exact H0|]. split.
    + apply errs_upd; [exact He|].
      replace (- B2R r / sig + G bx c t 1 (bx t)) with (- (B2R r - sig * G bx c t 1 (bx t)) * / sig) by (field; lra).
      rewrite Rabs_mult, Rabs_Ropp, (Rabs_pos_eq (/ sig)) by (apply Rlt_le, Rinv_0_lt_compat, Hs).
      apply Rmult_le_reg_r with sig; [exact Hs|]. rewrite Rmult_assoc, Rinv_l by lra. rewrite Rmult_1_r.
      eapply Rle_trans; [exact Vr|].
      assert (HnS : INR (S (S t)) <= INR (S n)) by (apply le_INR; lia).
      assert (HnT : INR (S t) <= INR n) by (apply le_INR; lia).
      assert (T1 : 7 * INR (S (S t)) * eps * (sig * Gabs bx c t 1 (bx t)) <= gam * Gabs bx c t 1 (bx t) * sig).
      { unfold gam. replace (7 * INR (S n) * eps * Gabs bx c t 1 (bx t) * sig) with (7 * INR (S n) * eps * (sig * Gabs bx c t 1 (bx t))) by ring.
        apply Rmult_le_compat_r; [apply Rmult_le_pos; lra|]. apply Rmult_le_compat_r; [pose proof eps_p; lra|]. lra. }
      assert (T2 : (3 * INR (S t) + 7) * (zeta * 2 ^ S t * lead sig (S t)) <= wabs / INR (fact (S t)) * sig).
      { unfold lead. replace (wabs / INR (fact (S t)) * sig) with (wabs * (sig / INR (fact (S t)))) by (field; apply fact_neq).
        rewrite <- Rmult_assoc. apply Rmult_le_compat_r; [unfold Rdiv; apply Rmult_le_pos; lra|].
        eapply Rle_trans; [|apply (zeta_w (S t)); lia]. apply Rmult_le_compat_r; [|lra].
        apply Rmult_le_pos; [apply Rlt_le, zeta_pos|apply pow_le; lra]. }
      lra.
    + intros i Hi. destruct i as [|i].
      * change (@next_m BN LD (bk t) t m a 0 : f80) with (Bopp r). rewrite is_finite_Bopp, B2R_Bopp. split; [exact Fr|].
        unfold ideal. rewrite Nat.sub_0_r, updc_hi. simpl INR.
        replace (- B2R r - - B2R r / sig * sig / 1) with 0 by (field; lra). rewrite Rabs_R0. lra.
      * change (@next_m BN LD (bk t) t m a (S i) : f80) with (@m_int BN LD m (S i) : f80).
        replace (ideal (updc c t (- B2R r / sig)) sig (S t) (S i)) with (ideal c sig (S t) (S i)) by (unfold ideal; rewrite updc_lo by lia; reflexivity).
        apply (step_div c sig t m i); auto. lia.
Qed.

(** ** Rescaling *)
Lemma max_spec (m : nat -> f80) k : (forall i, (i <= k)%nat -> is_finite (m i) = true) ->
  let mx := @maxf BN LD m (S k) : f80 in
  is_finite mx = true /\ (forall i, (i <= k)%nat -> B2R (m i) <= B2R mx) /\ exists i, (i <= k)%nat /\ mx = m i.
Proof.
  assert (H : forall j, (forall i, (i <= j)%nat -> is_finite (m i) = true) ->
     forall q, (q <= S j)%nat -> let mx := @maxf BN LD m q : f80 in
     is_finite mx = true /\ (forall i, (i < q)%nat -> B2R (m i) <= B2R mx) /\ exists i, (i <= j)%nat /\ mx = m i).
  { intros j Hj q. induction q as [|q IH]; intros Hq; cbv zeta.
    - change (@maxf BN LD m 0 : f80) with (m O). split; [apply Hj; lia|]. split; [intros; lia|]. exists O. split; [lia|reflexivity].
    - destruct (IH ltac:(lia)) as (F1 & V1 & i1 & Hi1 & E1). cbv zeta in F1, V1, E1.
      change (@maxf BN LD m (S q) : f80) with (if Bltb (@maxf BN LD m q : f80) (m q) then m q else (@maxf BN LD m q : f80)).
      set (mx := @maxf BN LD m q : f80) in *. pose proof (Hj q ltac:(lia)) as Fq. rewrite Bltb_correct by assumption.
      destruct (Rlt_bool_spec (B2R mx) (B2R (m q))) as [Hlt|Hge].
      + split; [exact Fq|]. split; [|exists q; split; [lia|reflexivity]].
        intros i Hi. destruct (Nat.eq_dec i q) as [->|Hne]; [apply Rle_refl|]. pose proof (V1 i ltac:(lia)). lra.
      + split; [exact F1|]. split; [|exists i1; split; [exact Hi1|exact E1]].
        intros i Hi. destruct (Nat.eq_dec i q) as [->|Hne]; [exact Hge|]. apply V1. lia. }
  intros Hk. cbv zeta. destruct (H k Hk (S k) ltac:(lia)) as (F1 & V1 & i1 & Hi1 & E1). cbv zeta in F1, V1, E1.
  split; [exact F1|]. split; [intros i Hi; apply V1; lia|]. exists i1. split; [lia|exact E1].
Qed.

Lemma coef_hi c sig t m i : 0 < sig -> errs c t -> c O = 1 -> (t <= n)%nat -> (i <= t)%nat -> coefs c sig t m ->
  Rabs (B2R (m i)) <= 17 * 2 ^ t * lead sig t.
Proof.
  intros Hs He H0 Ht Hi Hc. destruct (Hc i Hi) as [_ V]. pose proof (ideal_size c sig t i Hs He H0 Ht Hi) as HI.
  set (q := / INR (fact (t - i)) * / INR (fact i)) in *.
  assert (Hq0 : 0 < q) by (apply Rmult_lt_0_compat; apply inv_fact_pos).
  assert (Hq : q <= 2 ^ t / INR (fact t)).
  { rewrite <- sum_inv_fact. pose proof (single_le t ltac:(lia) (fun l => / INR (fact l) * / INR (fact (t - l))) i) as H.
    cbv beta in H. unfold q. rewrite Rmult_comm. apply H; [|exact Hi].
    intros j Hj. apply Rlt_le, Rmult_lt_0_compat; apply inv_fact_pos. }
  assert (Es : slack sig t i = zeta * (sig * q)) by (unfold slack; fold q; ring). rewrite Es in V.
  assert (Hi2 : INR i <= 4096). { change 4096 with (IZR (Z.of_nat 4096)). rewrite <- INR_IZR_INZ. apply le_INR. lia. }
  pose proof (pos_INR i) as Hi0. pose proof u_64 as Hu. pose proof u80_pos as Hu0.
  assert (Hz : zeta <= / 16384).
  { unfold zeta. change (/ 16384) with (bpow radix2 (-14)). apply bpow_le. lia. }
  pose proof zeta_pos as Hz0.
  set (Q := sig * q) in *. assert (HQ : 0 < Q) by (apply Rmult_lt_0_compat; assumption).
  replace (8 * sig * q) with (8 * Q) in HI by (unfold Q; ring).
  assert (Hm : Rabs (B2R (m i)) <= 17 * Q).
  { replace (B2R (m i)) with (ideal c sig t i + (B2R (m i) - ideal c sig t i)) by ring.
    eapply Rle_trans; [apply Rabs_triang|]. 
    assert (2 * INR i * u80 <= 1) by nra.
    assert (2 * INR i * u80 * Rabs (ideal c sig t i) <= 1 * Rabs (ideal c sig t i)) by (apply Rmult_le_compat_r; [apply Rabs_pos|lra]).
    assert (2 * INR i * (zeta * Q) <= 8192 * (/ 16384 * Q)).
    { apply Rmult_le_compat; [lra|apply Rmult_le_pos; lra|lra|]. apply Rmult_le_compat_r; lra. }
    lra. }
  eapply Rle_trans; [exact Hm|]. unfold lead.
  replace (17 * 2 ^ t * (sig / INR (fact t))) with (17 * (sig * (2 ^ t / INR (fact t)))) by (field; apply fact_neq).
  apply Rmult_le_compat_l; [lra|]. unfold Q. apply Rmult_le_compat_l; lra.
Qed.

Lemma coef_lead c sig t m : 0 < sig -> c O = 1 -> (t <= n)%nat -> coefs c sig t m -> lead sig t / 2 <= B2R (m t).
Proof.
  intros Hs H0 Ht Hc. destruct (Hc t (le_n t)) as [_ V]. unfold ideal, slack in V. rewrite Nat.sub_diag, H0 in V.
  replace (1 * sig / INR (fact t)) with (lead sig t) in V by (unfold lead; field; apply fact_neq).
  replace (zeta * sig * (/ INR (fact 0) * / INR (fact t))) with (zeta * lead sig t) in V.
  2:{ unfold lead. simpl (fact 0). simpl (INR 1). field. apply fact_neq. }
  assert (Hl : 0 < lead sig t) by (unfold lead, Rdiv; apply Rmult_lt_0_compat; [exact Hs|apply inv_fact_pos]).
  assert (Hi2 : INR t <= 4096). { change 4096 with (IZR (Z.of_nat 4096)). rewrite <- INR_IZR_INZ. apply le_INR. lia. }
  pose proof (pos_INR t) as Hi0. pose proof u_64 as Hu. pose proof u80_pos as Hu0.
  assert (Hz : zeta <= / 65536).
  { unfold zeta. change (/ 65536) with (bpow radix2 (-16)). apply bpow_le. lia. }
  pose proof zeta_pos as Hz0. rewrite (Rabs_pos_eq (lead sig t)) in V by lra.
  assert (2 * INR t * u80 <= / 8) by nra.
  assert (2 * INR t * zeta <= 8192 * / 65536) by (apply Rmult_le_compat; lra).
  assert (2 * INR t * u80 * lead sig t <= / 8 * lead sig t) by (apply Rmult_le_compat_r; lra).
  assert (2 * INR t * zeta * lead sig t <= 8192 * / 65536 * lead sig t) by (apply Rmult_le_compat_r; lra).
  apply Rabs_le_inv in V. lra.
Qed.

Lemma coefs_scale c sig t m e : (0 <= e)%Z -> coefs c sig t m ->
  (forall i, (i <= t)%nat -> Rabs (B2R (m i) * bpow radix2 e) <= big80) ->
  coefs c (sig * bpow radix2 e) t (fun i => Bldexp mode_NE (m i) e).
Proof.
  intros He Hc Hbd i Hi. destruct (Hc i Hi) as [F V]. destruct (ldexp80 (m i) e F He (Hbd i Hi)) as [F1 V1]. split; [exact F1|].
  rewrite V1. pose proof (bpow_gt_0 radix2 e) as Hp. set (B := bpow radix2 e) in *.
  replace (ideal c (sig * B) t i) with (ideal c sig t i * B) by (unfold ideal; field; apply fact_neq).
  replace (slack (sig * B) t i) with (slack sig t i * B) by (unfold slack; ring).
  rewrite <- Rmult_minus_distr_r, !Rabs_mult, !(Rabs_pos_eq B) by lra.
  replace (2 * INR i * u80 * (Rabs (ideal c sig t i) * B) + 2 * INR i * (slack sig t i * B)) with
    ((2 * INR i * u80 * Rabs (ideal c sig t i) + 2 * INR i * slack sig t i) * B) by ring.
  apply Rmult_le_compat_r; [lra|exact V].
Qed.

(** ** The loop *)
Definition floor_lead (t : nat) : R := bpow radix2 (- (Z.of_nat n + 8) - 12 * (Z.of_nat ((t - 1) mod 16))).
Definition Inv (t : nat) (s : ptm (ld LD) * Z) : Prop := exists (c : nat -> R) (m a : nat -> f80),
  @repr BN LD n (fst s) t m a /\ adds t a /\ coefs c (bpow radix2 (snd s)) t m /\ c O = 1 /\ errs c t /\
  (0 <= snd s)%Z /\ lead (bpow radix2 (snd s)) t <= 2 /\ floor_lead t <= lead (bpow radix2 (snd s)) t.

Lemma lead_S sig t : lead sig (S t) = lead sig t * / INR (S t).
Proof.
  unfold lead. change (fact (S t)) with (S t * fact t)%nat. rewrite mult_INR. field.
  repeat split; first [apply fact_neq | apply not_0_INR; lia].
Qed.
Lemma floor_next t sig : 0 < sig -> (t < n)%nat -> floor_lead t <= lead sig t ->
  bpow radix2 (- (Z.of_nat n + 8) - 12 * (Z.of_nat ((t - 1) mod 16)) - 12) <= lead sig (S t).
Proof.
  intros Hs Ht Hf. rewrite lead_S. unfold Z.sub at 1. rewrite bpow_plus. change (bpow radix2 (Z.opp 12)) with (/ 4096).
  fold (floor_lead t). apply Rmult_le_compat; [apply bpow_ge_0|lra|exact Hf|].
  apply Rinv_le_contravar; [apply lt_0_INR; lia|].
  change 4096 with (IZR (Z.of_nat 4096)). rewrite <- INR_IZR_INZ. apply le_INR. lia.
Qed.

Lemma floor_of_max t l : (t <= n)%nat -> / 2 <= 17 * 2 ^ t * l -> bpow radix2 (- (Z.of_nat n + 8) - 12 * Z.of_nat 0) <= l.
Proof.
  intros Ht H. apply Rnot_lt_le. intros Hl. revert H. apply Rlt_not_le.
  assert (Hp : 0 < 2 ^ t) by (apply pow_lt; lra).
  apply Rlt_le_trans with (17 * (2 ^ t * bpow radix2 (- (Z.of_nat n + 8) - 12 * Z.of_nat 0))); [|].
  - rewrite Rmult_assoc. apply Rmult_lt_compat_l; [lra|]. apply Rmult_lt_compat_l; [exact Hp|exact Hl].
  - rewrite pow2_bpow, <- bpow_plus. apply Rle_trans with (17 * bpow radix2 (-8)).
    + apply Rmult_le_compat_l; [lra|]. apply bpow_le. lia.
    + change (bpow radix2 (-8)) with (/ 256). lra.
Qed.

Lemma step_ok {thr : exn -> Prop} {abt : Prop} t s : (t < n)%nat -> Inv t s ->
  wp thr abt (@mns_step BN E LD b (Z.of_nat t) s) (Inv (S t)).
Proof.
  intros Ht (c & m & a & Hr & Ha & Hc & H0 & He & HD & Hhi & Hfl). destruct s as [p delta]. cbn [fst snd] in *.
  set (sig := bpow radix2 delta) in *. assert (Hs : 0 < sig) by apply bpow_gt_0.
  pose proof (floor_next t sig Hs Ht Hfl) as Hfn.
  assert (Hmod : (0 <= (t - 1) mod 16 < 16)%nat) by (split; [lia|apply Nat.mod_upper_bound; lia]).
  assert (Hlo : lo <= lead sig (S t)).
  { eapply Rle_trans; [|exact Hfn]. unfold lo. apply bpow_le. lia. }
  assert (Hhi' : lead sig (S t) <= 2).
  { rewrite lead_S. assert (0 < lead sig t) by (unfold lead, Rdiv; apply Rmult_lt_0_compat; [exact Hs|apply inv_fact_pos]).
    assert (/ INR (S t) <= 1) by (rewrite <- Rinv_1; apply Rinv_le_contravar; [lra|apply (le_INR 1); lia]).
    assert (0 < / INR (S t)) by (apply Rinv_0_lt_compat, lt_0_INR; lia). nra. }
  destruct (step_eval c sig t m a Hs Ht Hlo Hhi He H0 Hc Ha) as (c' & H0' & He' & Hc').
  pose proof (step_adds t a Ht Ha) as Ha'.
  assert (Hget : @get f64 (@n0 BN) b (Z.of_nat t) = bk t) by (unfold get; rewrite Nat2Z.id; reflexivity).
  eapply (run_step E LD n b t p delta m a); [reflexivity|exact Ht|exact Hr| |]; change (car BN) with f64; rewrite Hget.
  all: set (m' := @next_m BN LD (bk t) t m a : nat -> f80) in *; set (a' := @next_a BN LD (bk t) a : nat -> f80) in *.
  all: destruct (max_spec m' (S t)) as (Fx & Vx & ix & Hix & Ex); [intros i Hi; apply Hc', Hi|]; cbv zeta in Fx, Vx, Ex.
  all: pose proof (coef_lead c' sig (S t) m' Hs H0' ltac:(lia) Hc') as Hlead.
  all: assert (Hlp : 0 < lead sig (S t)) by (unfold lead, Rdiv; apply Rmult_lt_0_compat; [exact Hs|apply inv_fact_pos]).
  all: set (mx := @maxf BN LD m' (S (S t)) : f80) in *.
  all: assert (Hmx : 0 < B2R mx) by (pose proof (Vx (S t) (le_n _)); lra).
  all: assert (Hmx2 : B2R mx <= 17 * 2 ^ S t * lead sig (S t)) by
    (rewrite Ex; eapply Rle_trans; [apply Rle_abs|]; apply (coef_hi c' sig (S t) m'); auto; lia).
  all: assert (Hfr : exists z, B2R mx = z * bpow radix2 (@n_frexp (ld LD) mx) /\ / 2 <= z < 1).
  1,3: destruct mx as [sg|sg| |sg mm ee Hb'] eqn:Emx; try discriminate; [simpl in Hmx; lra|];
    change (@n_frexp (ld LD) (B754_finite sg mm ee Hb')) with (snd (Bfrexp (B754_finite sg mm ee Hb' : f80)));
    pose proof (Bfrexp_correct 64 16384 _ (B754_finite sg mm ee Hb' : f80) eq_refl) as HB;
    destruct (Bfrexp (B754_finite sg mm ee Hb' : f80)) as [z e]; destruct HB as [HB1 HB2]; destruct (HB2 ltac:(lia)) as [HB3 _];
    exists (B2R z); cbn [snd]; split; [exact HB1|]; rewrite HB1 in Hmx; pose proof (bpow_gt_0 radix2 e);
    assert (0 < B2R z) by (apply Rnot_le_lt; intros Hn0; assert (B2R z * bpow radix2 e <= 0 * bpow radix2 e) by (apply Rmult_le_compat_r; lra); lra);
    rewrite Rabs_pos_eq in HB3 by lra; exact HB3.
  all: destruct Hfr as (z & Hz & Hz1).
  - (* no rescaling *)
    intros p' Hp' Hcond. exists c', m', a'. cbn [fst snd]. fold sig. repeat (split; [assumption|]).
    change (car BN) with f64 in Hcond. change (@maxf BN LD m' (S (S t))) with mx in Hcond.
    replace (S t - 1)%nat with t by lia.
    destruct (Z.eqb_spec (Z.rem (Z.of_nat t) 16) 0) as [Hrem|Hrem].
    + cbn [andb] in Hcond. apply Z.ltb_ge in Hcond. 
      assert (Hm0 : (t mod 16 = 0)%nat).
      { rewrite Z.rem_mod_nonneg in Hrem by lia. apply Nat2Z.inj. rewrite Nat2Z.inj_mod. exact Hrem. }
      unfold floor_lead. replace (S t - 1)%nat with t by lia. rewrite Hm0.
      assert (H1 : 1 <= bpow radix2 (@n_frexp (ld LD) mx)) by (change 1 with (bpow radix2 0); apply bpow_le; exact Hcond).
      assert (H2 : / 2 <= B2R mx) by (rewrite Hz; nra).
      apply (floor_of_max (S t)); [lia|]. lra.
    + unfold floor_lead. replace (S t - 1)%nat with t by lia. eapply Rle_trans; [|exact Hfn]. apply bpow_le.
      rewrite Z.rem_mod_nonneg in Hrem by lia. 
      assert (Hm1 : (t mod 16 = (t - 1) mod 16 + 1)%nat).
      { assert ((t mod 16 <> 0)%nat) by (intros HH; apply Hrem; apply (f_equal Z.of_nat) in HH; rewrite Nat2Z.inj_mod in HH; exact HH).
        pose proof (Nat.div_mod t 16 ltac:(lia)). pose proof (Nat.div_mod (t - 1) 16 ltac:(lia)).
        pose proof (Nat.mod_upper_bound t 16 ltac:(lia)). pose proof (Nat.mod_upper_bound (t - 1) 16 ltac:(lia)). nia. }
      rewrite Hm1. lia.
  - (* rescaling *)
    intros p' Hcond. cbv zeta. change (car BN) with f64 in Hcond |- *. change (@maxf BN LD m' (S (S t))) with mx in Hcond |- *.
    intros Hp'. apply andb_prop in Hcond. destruct Hcond as [Hrem Hneg]. apply Z.eqb_eq in Hrem. apply Z.ltb_lt in Hneg.
    assert (Hm0 : (t mod 16 = 0)%nat).
    { rewrite Z.rem_mod_nonneg in Hrem by lia. apply Nat2Z.inj. rewrite Nat2Z.inj_mod. exact Hrem. }
    set (e := (0 - @n_frexp (ld LD) mx)%Z) in *.
    assert (Hze : B2R mx * bpow radix2 e = z).
    { rewrite Hz, Rmult_assoc, <- bpow_plus. replace (@n_frexp (ld LD) mx + e)%Z with 0%Z by (unfold e; lia). simpl. ring. }
    pose proof (bpow_gt_0 radix2 e) as Hbe.
    assert (Hl' : lead (sig * bpow radix2 e) (S t) = lead sig (S t) * bpow radix2 e) by (unfold lead; field; apply fact_neq).
    assert (Hup : lead sig (S t) * bpow radix2 e <= 2).
    { assert (lead sig (S t) / 2 * bpow radix2 e <= B2R mx * bpow radix2 e).
      { apply Rmult_le_compat_r; [lra|]. pose proof (Vx (S t) (le_n _)). lra. }
      rewrite Hze in H. lra. }
    exists c', (fun i => Bldexp mode_NE (m' i) e), a'. cbn [fst snd]. rewrite bpow_plus. fold sig.
    split; [exact Hp'|]. split; [assumption|]. split; [|split; [assumption|split; [assumption|split; [unfold e; lia|]]]].
    + apply coefs_scale; [unfold e; lia|exact Hc'|]. intros i Hi. rewrite Rabs_mult, (Rabs_pos_eq (bpow radix2 e)) by lra.
      apply Rle_trans with (17 * 2 ^ S t * lead sig (S t) * bpow radix2 e).
      * apply Rmult_le_compat_r; [lra|]. apply (coef_hi c' sig (S t) m'); auto.
      * rewrite Rmult_assoc. apply Rle_trans with (17 * 2 ^ S t * 2).
        -- apply Rmult_le_compat_l; [|exact Hup]. assert (0 < 2 ^ S t) by (apply pow_lt; lra). lra.
        -- rewrite pow2_bpow. unfold big80. apply Rle_trans with (bpow radix2 6 * bpow radix2 (Z.of_nat (S t))).
           ++ change (bpow radix2 6) with 64. pose proof (bpow_gt_0 radix2 (Z.of_nat (S t))). lra.
           ++ rewrite <- bpow_plus. apply bpow_le. lia.
    + rewrite Hl'. split; [exact Hup|]. unfold floor_lead. replace (S t - 1)%nat with t by lia. rewrite Hm0.
      apply (floor_of_max (S t)); [lia|]. rewrite <- Rmult_assoc.
      apply Rle_trans with (B2R mx * bpow radix2 e); [rewrite Hze; lra|]. apply Rmult_le_compat_r; lra.
Qed.
End Step.
