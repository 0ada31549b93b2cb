(** * FastInst: arithmetic under -ffast-math meets the requirements of FastNum.v. *)
From Coquelicot Require Import Coquelicot.
From Flocq Require Import Core.Core IEEE754.BinarySingleNaN Relative.
From Coq Require Import ZArith Reals List Bool Lia Lra Permutation Sorted Factorial.
From Verif Require Import Base Num RSum Spec Binary64 Binary64Facts ErrBound B64Round AccGrow FastNum FastMath.
Import List. Import ListNotations.
Local Open Scope R_scope.

Definition eta0 : R := bpow radix2 (-1021).
Lemma eta0_pos : 0 < eta0.
Proof. apply bpow_gt_0. Qed.
Lemma u64_small : u64 <= / 65536.
Proof. unfold u64. change (/ 65536) with (bpow radix2 (-16)). apply bpow_le. lia. Qed.

Lemma sg_abs s r : Rabs (sg s r) = Rabs r.
Proof. destruct s; simpl; [apply Rabs_Ropp|reflexivity]. Qed.
Lemma sg_negb s r : sg (negb s) r = - sg s r.
Proof. destruct s; simpl; ring. Qed.

Section Mode.
Variable flush : bool.
Notation sv := (sv flush).
Notation seen := (seen flush).
Notation op_result := (op_result flush).
Notation evaluates := (evaluates flush).

Lemma seen_cases x : seen x = x \/ (is_finite x = true /\ Rabs (B2R x) < bpow radix2 (-1022) /\ seen x = B754_zero false).
Proof.
  unfold FastMath.seen. destruct flush; cbn [andb]; [|auto]. destruct (is_finite x); cbn [andb]; [|auto].
  destruct (Rlt_bool_spec (Rabs (B2R x)) (bpow radix2 (-1022))); auto.
Qed.
Lemma seen_fin x : is_finite x = true -> is_finite (seen x) = true.
Proof. intros H. destruct (seen_cases x) as [-> |(_ & _ & ->)]; auto. Qed.
Lemma sv_cases x : sv x = B2R x \/ (Rabs (B2R x) < bpow radix2 (-1022) /\ sv x = 0).
Proof. unfold FastMath.sv. destruct (seen_cases x) as [-> |(_ & H & ->)]; auto. Qed.
Lemma sv_normal x : bpow radix2 (-1022) <= Rabs (B2R x) \/ B2R x = 0 -> sv x = B2R x.
Proof. intros H. destruct (sv_cases x) as [E|[H1 H2]]; [exact E|]. destruct H as [H|H]; [lra|congruence]. Qed.
Lemma sv_near x : Rabs (sv x - B2R x) <= bpow radix2 (-1022).
Proof.
  pose proof (bpow_gt_0 radix2 (-1022)). destruct (sv_cases x) as [-> |[H1 ->]].
  - rewrite Rminus_diag_eq, Rabs_R0 by reflexivity. lra.
  - rewrite Rminus_0_l, Rabs_Ropp. lra.
Qed.
Lemma sv_opp x : sv (Bopp x) = - sv x.
Proof.
  unfold FastMath.sv, FastMath.seen. rewrite is_finite_Bopp, B2R_Bopp, Rabs_Ropp.
  destruct (flush && is_finite x && Rlt_bool (Rabs (B2R x)) (bpow radix2 (-1022))); [simpl; ring|apply B2R_Bopp].
Qed.
Lemma sv_abs x : Rabs (sv x) <= Rabs (B2R x).
Proof. destruct (sv_cases x) as [-> |[_ ->]]; [lra|]. rewrite Rabs_R0. apply Rabs_pos. Qed.

(** ** One operation *)
Lemma op_err r w : Rabs r <= bpow radix2 60 -> op_result r w ->
  is_finite w = true /\ Rabs (sv w - r) <= u64 * Rabs r + eta0.
Proof.
  intros Hr H. destruct H as [F H].
  { pose proof (no_overflow60 r Hr) as HO. destruct (Rlt_bool_spec (Rabs (rnd r)) (bpow radix2 1024)) as [HO'|]; [exact HO'|discriminate]. }
  split; [exact F|]. pose proof (sv_near w) as HS. pose proof u64_pos as Hu. pose proof (Rabs_pos r) as H0.
  assert (Hur : 0 <= u64 * Rabs r) by (apply Rmult_le_pos; lra).
  assert (He : eta0 = bpow radix2 (-1022) + bpow radix2 (-1022)).
  { unfold eta0. change (-1021)%Z with (-1022 + 1)%Z. rewrite bpow_plus. change (bpow radix2 1) with 2. ring. }
  assert (He2 : eta64 <= bpow radix2 (-1022)) by (unfold eta64; apply bpow_le; lia).
  pose proof (bpow_gt_0 radix2 (-1022)) as Hp.
  replace (sv w - r) with ((sv w - B2R w) + (B2R w - r)) by ring. eapply Rle_trans; [apply Rabs_triang|].
  destruct H as [H|(_ & Hs & H)]; rewrite H in HS |- *.
  - pose proof (rnd_err r) as HR. unfold rnd64 in *. lra.
  - rewrite Rminus_0_l, Rabs_Ropp. lra.
Qed.

(** results that are not subnormal have no absolute error *)
Lemma op_rel r w : bpow radix2 (-1000) <= Rabs r <= bpow radix2 60 -> op_result r w ->
  is_finite w = true /\ Rabs (sv w - r) <= u64 * Rabs r.
Proof.
  intros Hr H. destruct H as [F H].
  { pose proof (no_overflow60 r (proj2 Hr)) as HO. destruct (Rlt_bool_spec (Rabs (rnd r)) (bpow radix2 1024)) as [HO'|]; [exact HO'|discriminate]. }
  split; [exact F|]. destruct H as [H|(_ & Hs & _)].
  2:{ exfalso. pose proof (bpow_le radix2 (-1022) (-1000) ltac:(lia)). lra. }
  assert (HR : Rabs (rnd r - r) <= u64 * Rabs r).
  { pose proof (relative_error_N_FLT radix2 (-1074) 53 ltac:(lia) (fun z => negb (Z.even z)) r) as HR.
    change (SpecFloat.fexp 53 1024) with (FLT_exp (-1074) 53). eapply Rle_trans; [apply HR|].
    + eapply Rle_trans; [|apply Hr]. apply bpow_le. lia.
    + apply Rmult_le_compat_r; [apply Rabs_pos|]. apply Req_le.
      unfold u64. rewrite bpow_plus. change (bpow radix2 1) with 2. simpl Z.opp. field. }
  unfold rnd64 in H. rewrite sv_normal; [rewrite H; exact HR|]. left. rewrite H.
  apply Rle_trans with (/ 2 * bpow radix2 (-1000)).
  - change (/ 2) with (bpow radix2 (-1)). rewrite <- bpow_plus. apply bpow_le. lia.
  - pose proof u64_small. pose proof (Rabs_pos r). assert (u64 * Rabs r <= / 65536 * Rabs r) by (apply Rmult_le_compat_r; lra).
    pose proof (Rabs_triang (rnd r) (r - rnd r)) as HT. replace (rnd r + (r - rnd r)) with r in HT by ring.
    rewrite Rabs_minus_sym in HR. lra.
Qed.

(** exact operations with result zero *)
Lemma op_zero w : op_result 0 w -> is_finite w = true /\ sv w = 0.
Proof.
  intros H. destruct H as [F H].
  { unfold rnd64. rewrite rnd_0, Rabs_R0. apply bpow_gt_0. }
  split; [exact F|]. unfold rnd64 in H. rewrite rnd_0 in H.
  rewrite sv_normal; [|right]; destruct H as [H|(_ & _ & H)]; exact H.
Qed.

(** ** Sums *)
Definition tval (t : term) : R := match t with TVal s x => sg s (sv x) | TProd s x y => sg s (sv x * sv y) end.
Definition tfin (t : term) : Prop := match t with TVal _ x => is_finite x = true | TProd _ x y => is_finite x = true /\ is_finite y = true end.
Definition lsum (l : list term) : R := fold_right (fun t a => tval t + a) 0 l.
Definition labs (l : list term) : R := fold_right (fun t a => Rabs (tval t) + a) 0 l.

Lemma lsum_app l1 l2 : lsum (l1 ++ l2) = lsum l1 + lsum l2.
Proof. induction l1 as [|t l IH]; simpl; [ring|]. rewrite IH. ring. Qed.
Lemma labs_app l1 l2 : labs (l1 ++ l2) = labs l1 + labs l2.
Proof. induction l1 as [|t l IH]; simpl; [ring|]. rewrite IH. ring. Qed.
Lemma lsum_perm l l' : Permutation l l' -> lsum l = lsum l'.
Proof. induction 1; simpl; lra. Qed.
Lemma labs_perm l l' : Permutation l l' -> labs l = labs l'.
Proof. induction 1; simpl; lra. Qed.
Lemma labs_pos l : 0 <= labs l.
Proof. induction l as [|t l IH]; simpl; [lra|]. pose proof (Rabs_pos (tval t)). lra. Qed.
Lemma lsum_labs l : Rabs (lsum l) <= labs l.
Proof. induction l as [|t l IH]; simpl; [rewrite Rabs_R0; lra|]. eapply Rle_trans; [apply Rabs_triang|]. lra. Qed.

Lemma ev_nonempty l w : evaluates l w -> (1 <= List.length l)%nat.
Proof.
  induction 1 as [| |? l1 l2 a c w HP ? IH1 ? IH2|? l1 s x y a w HP ? IH]; simpl; try lia; apply Permutation_length in HP; rewrite HP, ?app_length; simpl; lia.
Qed.

(** one more rounding *)
Lemma comb P A S T k w : 1 <= P -> 0 <= k -> Rabs S <= A -> Rabs (T - S) <= (P - 1) * A + P * (k * eta0) ->
  Rabs (w - T) <= u64 * Rabs T + eta0 ->
  Rabs (w - S) <= ((1 + u64) * P - 1) * A + (1 + u64) * P * ((k + 1) * eta0).
Proof.
  intros HP Hk HS HT Hw. pose proof u64_pos as Hu. pose proof eta0_pos as He.
  assert (HTA : Rabs T <= A + (P - 1) * A + P * (k * eta0)).
  { replace T with ((T - S) + S) by ring. eapply Rle_trans; [apply Rabs_triang|]. lra. }
  apply (Rmult_le_compat_l u64) in HTA; [|lra].
  replace (w - S) with ((w - T) + (T - S)) by ring. eapply Rle_trans; [apply Rabs_triang|].
  assert (eta0 <= (1 + u64) * P * eta0).
  { rewrite <- (Rmult_1_l eta0) at 1. apply Rmult_le_compat_r; [lra|]. nra. }
  replace ((1 + u64) * P * ((k + 1) * eta0)) with ((1 + u64) * (P * (k * eta0)) + (1 + u64) * P * eta0) by ring.
  replace (((1 + u64) * P - 1) * A) with (u64 * A + (1 + u64) * ((P - 1) * A)) by ring. lra.
Qed.

Definition eb (m : nat) (A : R) : R := ((1 + u64) ^ m - 1) * A + (1 + u64) ^ m * ((2 * INR m - 1) * eta0).

Lemma pow2 m : (Z.of_nat m <= 2 ^ 40)%Z -> 1 <= (1 + u64) ^ m <= 2.
Proof.
  intros Hm. pose proof u64_pos as Hu. split; [apply pow_R1_Rle; lra|].
  assert (HI : INR m * u64 <= / 8192).
  { apply IZR_le in Hm. rewrite <- INR_IZR_INZ in Hm. change (IZR (2 ^ 40)) with (IZR (Zpower radix2 40)) in Hm. rewrite IZR_Zpower in Hm by lia.
    apply Rle_trans with (bpow radix2 40 * u64); [apply Rmult_le_compat_r; lra|].
    unfold u64. rewrite <- bpow_plus. change (/ 8192) with (bpow radix2 (-13)). apply bpow_le. lia. }
  assert (HE : forall j, (1 + u64) ^ j <= exp (INR j * u64)).
  { induction j as [|j IH]; [simpl; rewrite Rmult_0_l, exp_0; lra|].
    rewrite S_INR. replace ((INR j + 1) * u64) with (u64 + INR j * u64) by ring. rewrite exp_plus. cbn [pow].
    apply Rmult_le_compat; [lra|apply pow_le; lra|apply exp_ineq1_le|exact IH]. }
  eapply Rle_trans; [apply HE|].
  apply Rle_trans with (exp (/ 8192)).
  { destruct HI as [HI| ->]; [left; apply exp_increasing, HI|lra]. }
  pose proof (exp_ineq1_le (- / 8192)) as H1. rewrite exp_Ropp in H1.
  assert (Hx : 0 < exp (/ 8192)) by apply exp_pos.
  apply (Rmult_le_compat_r (exp (/ 8192))) in H1; [|lra]. rewrite Rinv_l in H1 by lra. lra.
Qed.

Lemma eb_mono m k A : (m <= k)%nat -> 0 <= A -> (1 <= m)%nat -> 0 <= eb m A /\
  eb m A <= ((1 + u64) ^ k - 1) * A + (1 + u64) ^ k * ((2 * INR m - 1) * eta0).
Proof.
  intros Hmk HA Hm. pose proof u64_pos as Hu. pose proof eta0_pos as He.
  assert (H1 : 1 <= (1 + u64) ^ m) by (apply pow_R1_Rle; lra).
  assert (H2 : (1 + u64) ^ m <= (1 + u64) ^ k) by (apply Rle_pow; [lra|exact Hmk]).
  assert (H3 : 0 <= (2 * INR m - 1) * eta0).
  { apply Rmult_le_pos; [|lra]. apply le_INR in Hm. simpl in Hm. lra. }
  unfold eb. split.
  - apply Rplus_le_le_0_compat; apply Rmult_le_pos; lra.
  - apply Rplus_le_compat; apply Rmult_le_compat_r; lra.
Qed.

Lemma eb_small m A : (Z.of_nat m <= 2 ^ 40)%Z -> (1 <= m)%nat -> 0 <= A -> eb m A <= A + 1.
Proof.
  intros Hm H1 HA. pose proof (pow2 m Hm) as HP. unfold eb. pose proof eta0_pos as He.
  assert (HI : 1 <= INR m <= bpow radix2 40).
  { apply le_INR in H1. simpl in H1. split; [exact H1|].
    apply IZR_le in Hm. rewrite <- INR_IZR_INZ in Hm. change (IZR (2 ^ 40)) with (IZR (Zpower radix2 40)) in Hm. rewrite IZR_Zpower in Hm by lia. exact Hm. }
  assert (H2 : ((1 + u64) ^ m - 1) * A <= A) by (rewrite <- (Rmult_1_l A) at 2; apply Rmult_le_compat_r; lra).
  assert (H3 : (1 + u64) ^ m * ((2 * INR m - 1) * eta0) <= 1).
  { apply Rle_trans with (bpow radix2 1 * (bpow radix2 41 * eta0)).
    - apply Rmult_le_compat; [lra| | change (bpow radix2 1) with 2; lra|].
      + apply Rmult_le_pos; lra.
      + apply Rmult_le_compat_r; [lra|]. replace 41%Z with (1 + 40)%Z by lia. rewrite bpow_plus. change (bpow radix2 1) with 2. lra.
    - unfold eta0. rewrite <- !bpow_plus. change 1 with (bpow radix2 0). apply bpow_le. lia. }
  lra.
Qed.

Lemma ev_err l w : evaluates l w -> Forall tfin l -> (Z.of_nat (List.length l) <= 2 ^ 40)%Z -> labs l <= bpow radix2 55 ->
  is_finite w = true /\ Rabs (sv w - lsum l) <= eb (List.length l) (labs l).
Proof.
  pose proof u64_pos as Hu. pose proof eta0_pos as He.
  assert (H55 : 1 <= bpow radix2 55) by (change 1 with (bpow radix2 0); apply bpow_le; lia).
  assert (H60 : 32 * bpow radix2 55 = bpow radix2 60).
  { change 60%Z with (5 + 55)%Z. rewrite bpow_plus. reflexivity. }
  induction 1 as [s x|s x y w Hw|l l1 l2 a c w HP H1 IH1 H2 IH2 Hw|l l1 s x y a w HP H1 IH1 Hw]; intros HF Hlen Hlab.
  - (* a number *)
    inversion HF as [|? ? Hx _]; subst. simpl in Hx. split.
    { destruct s; [rewrite is_finite_Bopp|]; exact Hx. }
    simpl lsum. rewrite Rplus_0_r.
    replace (sv (if s then Bopp x else x)) with (sg s (sv x)) by (destruct s; simpl; [symmetry; apply sv_opp|reflexivity]).
    rewrite Rminus_diag_eq, Rabs_R0 by reflexivity. apply (eb_mono 1 1); [lia|apply labs_pos|lia].
  - (* a product *)
    inversion HF as [|? ? Hx _]; subst. destruct Hx as [Fx Fy]. specialize (Hw Fx Fy).
    simpl labs in *. simpl lsum. rewrite Rplus_0_r in *. set (r := sg s (sv x * sv y)) in *.
    destruct (op_err r w ltac:(lra) Hw) as [Fw Ew]. split; [exact Fw|].
    unfold eb. change (List.length [TProd s x y]) with 1%nat. rewrite pow_1. simpl INR.
    eapply Rle_trans; [exact Ew|]. nra.
  - (* an addition *)
    pose proof (ev_nonempty _ _ H1) as N1. pose proof (ev_nonempty _ _ H2) as N2.
    apply (Permutation_Forall HP) in HF. apply Forall_app in HF. destruct HF as [HF1 HF2].
    rewrite (lsum_perm _ _ HP), (labs_perm _ _ HP) in *. pose proof (Permutation_length HP) as HL. rewrite app_length in HL. rewrite HL in *.
    rewrite lsum_app, labs_app in *. pose proof (labs_pos l1) as A1. pose proof (labs_pos l2) as A2.
    destruct (IH1 HF1 ltac:(lia) ltac:(lra)) as [Fa Ea]. destruct (IH2 HF2 ltac:(lia) ltac:(lra)) as [Fc Ec].
    specialize (Hw Fa Fc).
    set (m := (List.length l1 + List.length l2 - 1)%nat).
    destruct (eb_mono (List.length l1) m (labs l1) ltac:(lia) A1 N1) as [P1 Q1].
    destruct (eb_mono (List.length l2) m (labs l2) ltac:(lia) A2 N2) as [P2 Q2].
    pose proof (eb_small (List.length l1) (labs l1) ltac:(lia) N1 A1) as S1.
    pose proof (eb_small (List.length l2) (labs l2) ltac:(lia) N2 A2) as S2.
    pose proof (lsum_labs l1) as L1. pose proof (lsum_labs l2) as L2.
    assert (HT : Rabs ((sv a + sv c) - (lsum l1 + lsum l2)) <= eb (List.length l1) (labs l1) + eb (List.length l2) (labs l2)).
    { replace ((sv a + sv c) - (lsum l1 + lsum l2)) with ((sv a - lsum l1) + (sv c - lsum l2)) by ring.
      eapply Rle_trans; [apply Rabs_triang|]. lra. }
    assert (HSA : Rabs (lsum l1 + lsum l2) <= labs l1 + labs l2).
    { eapply Rle_trans; [apply Rabs_triang|]. lra. }
    destruct (op_err (sv a + sv c) w) as [Fw Ew]; [|exact Hw|].
    { replace (sv a + sv c) with (((sv a + sv c) - (lsum l1 + lsum l2)) + (lsum l1 + lsum l2)) by ring.
      eapply Rle_trans; [apply Rabs_triang|]. lra. }
    split; [exact Fw|].
    assert (HM : 1 <= (1 + u64) ^ m) by (apply pow_R1_Rle; lra).
    assert (HI1 : 1 <= INR (List.length l1)) by (apply (le_INR 1); lia).
    assert (HI2 : 1 <= INR (List.length l2)) by (apply (le_INR 1); lia).
    pose proof (comb ((1 + u64) ^ m) (labs l1 + labs l2) (lsum l1 + lsum l2) (sv a + sv c)
      (2 * INR (List.length l1) - 1 + (2 * INR (List.length l2) - 1)) (sv w) HM ltac:(lra) HSA ltac:(lra) Ew) as HC.
    unfold eb. replace (List.length l1 + List.length l2)%nat with (S m) at 1 2 by lia.
    rewrite plus_INR. cbn [pow]. eapply Rle_trans; [exact HC|]. apply Req_le. ring.
  - (* a contracted product *)
    pose proof (ev_nonempty _ _ H1) as N1.
    apply (Permutation_Forall HP) in HF. inversion HF as [|? ? Hx HF1]; subst. destruct Hx as [Fx Fy].
    rewrite (lsum_perm _ _ HP), (labs_perm _ _ HP) in *. pose proof (Permutation_length HP) as HL. rewrite HL in *. clear HL.
    cbn [lsum labs fold_right List.length] in *. fold (lsum l1) (labs l1) in *.
    cbn [tval] in *. set (t := sg s (sv x * sv y)) in *.
    pose proof (labs_pos l1) as A1. pose proof (Rabs_pos t) as At.
    destruct (IH1 HF1 ltac:(lia) ltac:(lra)) as [Fa Ea]. specialize (Hw Fx Fy Fa).
    destruct (eb_mono (List.length l1) (List.length l1) (labs l1) ltac:(lia) A1 N1) as [P1 _].
    pose proof (eb_small (List.length l1) (labs l1) ltac:(lia) N1 A1) as S1. pose proof (lsum_labs l1) as L1.
    assert (HT : Rabs ((t + sv a) - (t + lsum l1)) <= eb (List.length l1) (labs l1)).
    { replace ((t + sv a) - (t + lsum l1)) with (sv a - lsum l1) by ring. exact Ea. }
    assert (HSA : Rabs (t + lsum l1) <= Rabs t + labs l1).
    { eapply Rle_trans; [apply Rabs_triang|]. lra. }
    destruct (op_err (t + sv a) w) as [Fw Ew]; [|exact Hw|].
    { replace (t + sv a) with (((t + sv a) - (t + lsum l1)) + (t + lsum l1)) by ring.
      eapply Rle_trans; [apply Rabs_triang|]. lra. }
    split; [exact Fw|].
    set (P := (1 + u64) ^ List.length l1) in *.
    assert (HM : 1 <= P) by (apply pow_R1_Rle; lra).
    assert (HI1 : 1 <= INR (List.length l1)) by (apply (le_INR 1); lia).
    assert (HPt : 0 <= (P - 1) * Rabs t) by (apply Rmult_le_pos; lra).
    assert (HE1 : eb (List.length l1) (labs l1) <= (P - 1) * (Rabs t + labs l1) + P * ((2 * INR (List.length l1) - 1) * eta0)).
    { unfold eb. fold P. rewrite Rmult_plus_distr_l. lra. }
    pose proof (comb P (Rabs t + labs l1) (t + lsum l1) (t + sv a)
      (2 * INR (List.length l1) - 1) (sv w) HM ltac:(lra) HSA ltac:(lra) Ew) as HC.
    unfold eb. rewrite S_INR. cbn [pow]. fold P. eapply Rle_trans; [exact HC|]. apply Rplus_le_compat_l.
    apply Rmult_le_compat_l; [apply Rmult_le_pos; lra|]. apply Rmult_le_compat_r; lra.
Qed.
End Mode.

(** ** The requirements *)
Section Inst.
Context (C : compiler) (L : libm) (eps : R).
Notation flush := (cp_flush C).
Hypothesis HL : fast_libm_accurate flush L eps.
Notation FN := (Fnum C L).
Notation pick := (cp_sum C).
Notation sv := (sv flush).
Notation tv := (tval flush).

Definition ffin (x : list term) : Prop := x <> [] /\ is_finite (pick x) = true.
Definition fval (x : list term) : R := sv (pick x).
Definition fraw (x : list term) : Prop := exists v, x = lit v.
Definition fone (x : list term) : Prop := exists t, x = [t] /\ tfin t /\ Rabs (tv t) <= bpow radix2 52.

Definition fu : R := bpow radix2 (-51).
Definition feta : R := bpow radix2 (-1016).

Lemma fu_u64 : fu = 4 * u64.
Proof. unfold fu, u64. change (-51)%Z with (2 + -53)%Z. rewrite bpow_plus. reflexivity. Qed.
Lemma feta_eta0 : feta = 32 * eta0.
Proof. unfold feta, eta0. change (-1016)%Z with (5 + -1021)%Z. rewrite bpow_plus. reflexivity. Qed.

Lemma single_val l w : evaluates flush l w -> forall s x, l = [TVal s x] -> w = if s then Bopp x else x.
Proof.
  destruct 1 as [s' x'|s' x' y' w Hw|l l1 l2 a c w HP H1 H2 Hw|l l1 s' x' y' a w HP H1 Hw]; intros s x Hl.
  - injection Hl as -> ->. reflexivity.
  - discriminate.
  - pose proof (ev_nonempty _ _ _ H1) as N1. pose proof (ev_nonempty _ _ _ H2) as N2.
    apply Permutation_length in HP. subst l. rewrite app_length in HP. simpl in HP. lia.
  - pose proof (ev_nonempty _ _ _ H1) as N1. apply Permutation_length in HP. subst l. simpl in HP. lia.
Qed.
Lemma single_prod l w : evaluates flush l w -> forall s x y, l = [TProd s x y] -> is_finite x = true -> is_finite y = true ->
  op_result flush (sg s (sv x * sv y)) w.
Proof.
  destruct 1 as [s' x'|s' x' y' w Hw|l l1 l2 a c w HP H1 H2 Hw|l l1 s' x' y' a w HP H1 Hw]; intros s x y Hl Fx Fy.
  - discriminate.
  - injection Hl as -> -> ->. auto.
  - pose proof (ev_nonempty _ _ _ H1) as N1. pose proof (ev_nonempty _ _ _ H2) as N2.
    apply Permutation_length in HP. subst l. rewrite app_length in HP. simpl in HP. lia.
  - pose proof (ev_nonempty _ _ _ H1) as N1. apply Permutation_length in HP. subst l. simpl in HP. lia.
Qed.
Lemma pick_lit v : pick (lit v) = v.
Proof.
  pose proof (cp_sum_ok C (lit v) ltac:(discriminate)) as H. rewrite (single_val _ _ H false v eq_refl). reflexivity.
Qed.
Lemma fval_lit v : fval (lit v) = sv v.
Proof. unfold fval. rewrite pick_lit. reflexivity. Qed.
Lemma ffin_lit v : is_finite v = true -> ffin (lit v).
Proof. intros H. split; [discriminate|]. rewrite pick_lit. exact H. Qed.

Lemma fone_lit v : is_finite v = true -> Rabs (sv v) <= bpow radix2 52 -> fone (lit v).
Proof. intros H Hv. exists (TVal false v). split; [reflexivity|]. split; [exact H|exact Hv]. Qed.

Lemma sv_of_Z z : (0 <= z < 2 ^ 53)%Z -> is_finite (b64_of_Z z) = true /\ sv (b64_of_Z z) = IZR z.
Proof.
  intros Hz. destruct (of_Z_ok z Hz) as [F V]. split; [exact F|]. rewrite <- V. apply sv_normal. rewrite V.
  destruct (Z.eq_dec z 0) as [->|Hne]; [right; reflexivity|]. left.
  rewrite Rabs_pos_eq by (apply IZR_le; lia). apply Rle_trans with 1; [|apply IZR_le; lia].
  change 1 with (bpow radix2 0). apply bpow_le. lia.
Qed.

Lemma int_le z k : (z <= 2 ^ k)%Z -> (0 <= k)%Z -> IZR z <= bpow radix2 k.
Proof. intros H Hk. apply IZR_le in H. rewrite <- (IZR_Zpower radix2 k Hk). exact H. Qed.

(** the difference of two numbers that are not tiny is not tiny *)
Lemma format_gap (x p : f64) : plain (B2R p) -> plain (B2R x) -> B2R p < B2R x -> bpow radix2 (-953) <= B2R x - B2R p.
Proof.
  intros [Hp|Hp] [Hx|Hx] Hlt.
  - lra.
  - rewrite Hp, Rminus_0_r. eapply Rle_trans; [|exact Hx]. apply bpow_le. lia.
  - pose proof (bpow_gt_0 radix2 (-900)). lra.
  - pose proof (bpow_gt_0 radix2 (-900)) as H0.
    assert (HS : succ radix2 (SpecFloat.fexp 53 1024) (B2R p) <= B2R x).
    { apply succ_le_lt; auto with typeclass_instances; apply (generic_format_B2R 53 1024). }
    rewrite succ_eq_pos in HS by lra.
    assert (HU : bpow radix2 (-953) <= ulp radix2 (SpecFloat.fexp 53 1024) (B2R p)).
    { rewrite ulp_neq_0 by lra. apply bpow_le. unfold cexp, SpecFloat.fexp, SpecFloat.emin.
      assert (HM : (-900 < mag radix2 (B2R p))%Z) by (apply mag_gt_bpow; rewrite Rabs_pos_eq; lra). lia. }
    lra.
Qed.

Lemma pick_err (l : list term) : l <> [] -> Forall tfin l -> (Z.of_nat (List.length l) <= 2 ^ 40)%Z ->
  labs flush l <= bpow radix2 55 ->
  ffin l /\ Rabs (fval l - lsum flush l) <= eb (List.length l) (labs flush l).
Proof.
  intros Hne HF Hl HA. destruct (ev_err flush l (pick l) (cp_sum_ok C l Hne) HF Hl HA) as [F Ev].
  split; [split; auto|exact Ev].
Qed.

Lemma one_err x t : x = [t] -> tfin t -> Rabs (tv t) <= bpow radix2 52 ->
  Rabs (tv t - fval x) <= 2 * u64 * Rabs (fval x) + 2 * eta0.
Proof.
  intros -> HF HB. destruct (pick_err [t]) as [_ HE].
  - discriminate.
  - auto.
  - simpl. lia.
  - cbn [labs fold_right]. rewrite Rplus_0_r. eapply Rle_trans; [exact HB|]. apply bpow_le. lia.
  - unfold eb in HE. cbn [List.length lsum labs fold_right] in HE. rewrite pow_1, !Rplus_0_r in HE. simpl INR in HE.
    pose proof u64_pos as Hu. pose proof u64_small as Hs. pose proof eta0_pos as He.
    set (a := tv t) in *. set (v := fval [t]) in *.
    assert (Ha : Rabs a <= Rabs v + Rabs (v - a)).
    { pose proof (Rabs_triang v (a - v)) as H. replace (v + (a - v)) with a in H by ring.
      rewrite (Rabs_minus_sym a v) in H. exact H. }
    rewrite Rabs_minus_sym. pose proof (Rabs_pos a). pose proof (Rabs_pos v).
    assert (Hle : Rabs (v - a) <= u64 * Rabs a + (1 + u64) * eta0) by lra.
    assert (H2 : u64 * Rabs a <= u64 * Rabs v + u64 * Rabs (v - a)) by (rewrite <- Rmult_plus_distr_l; apply Rmult_le_compat_l; lra).
    assert (H3 : u64 * Rabs (v - a) <= / 65536 * Rabs (v - a)) by (apply Rmult_le_compat_r; [apply Rabs_pos|lra]).
    assert (H4 : u64 * eta0 <= / 65536 * eta0) by (apply Rmult_le_compat_r; lra).
    assert (H5 : 0 <= u64 * Rabs v) by (apply Rmult_le_pos; lra). lra.
Qed.

Lemma fast_rate z x p : (1 <= z < 2 ^ 31)%Z -> ffin x -> ffin p -> fraw x -> fraw p -> plain (fval x) -> plain (fval p) ->
  fval p <= fval x <= 1 ->
  let l := @n_mul FN (n_of_Z z) (@n_sub FN x p) in
  ffin l /\ fone l /\ Rabs (fval l - IZR z * (fval x - fval p)) <= 3 * fu * (IZR z * (fval x - fval p)) /\
  (fval p < fval x -> bpow radix2 (-1000) <= fval l).
Proof.
  intros Hz [_ Fx] [_ Fp] [vx ->] [vp ->]. rewrite pick_lit in Fx, Fp. rewrite !fval_lit.
  intros Plx Plp Hle. cbv zeta.
  assert (Hsx : forall v : f64, is_finite v = true -> plain (sv v) -> exists v' : f64, sv v = B2R v' /\ plain (B2R v')).
  { intros v _ Hv. destruct (sv_cases flush v) as [E|[_ E]]; [exists v|exists (B754_zero false)]; rewrite E in *; auto. }
  assert (Hgap : sv vp < sv vx -> bpow radix2 (-953) <= sv vx - sv vp).
  { destruct (Hsx vx Fx Plx) as (x' & Ex & Px). destruct (Hsx vp Fp Plp) as (p' & Ep & Pp). rewrite Ex, Ep. intros Hlt. apply format_gap; auto. }
  assert (Hp0 : 0 <= sv vp).
  { pose proof (bpow_gt_0 radix2 (-900)). destruct Plp as [->|]; lra. }
  destruct (sv_of_Z z ltac:(lia)) as [Fz Vz].
  assert (Hz1 : 1 <= IZR z) by (apply IZR_le; lia).
  assert (Hz31 : IZR z <= bpow radix2 31) by (apply int_le; lia).
  pose proof u64_pos as Hu. pose proof u64_small as Hus.
  (* the difference *)
  change (@n_mul FN (n_of_Z z) (@n_sub FN (lit vx) (lit vp))) with
    [TProd false (pick (lit (b64_of_Z z))) (pick [TVal false vx; TVal true vp])].
  rewrite pick_lit. set (d := pick [TVal false vx; TVal true vp]).
  assert (Hd : op_result flush (sv vx - sv vp) d).
  { pose proof (cp_sum_ok C [TVal false vx; TVal true vp] ltac:(discriminate)) as H. fold d in H.
    remember [TVal false vx; TVal true vp] as l0 eqn:El.
    destruct H as [s' x'|s' x' y' w Hw|l l1 l2 a c w HP H1 H2 Hw|l l1 s' x' y' a w HP H1 Hw].
    - discriminate.
    - discriminate.
    - subst l. pose proof (ev_nonempty _ _ _ H1) as N1. pose proof (ev_nonempty _ _ _ H2) as N2.
      pose proof (Permutation_length HP) as HPL. rewrite app_length in HPL. simpl in HPL.
      destruct l1 as [|t1 [|? ?]]; [simpl in N1; lia| |simpl in HPL, N2; lia].
      destruct l2 as [|t2 [|? ?]]; [simpl in N2; lia| |simpl in HPL; lia].
      apply Permutation_length_2_inv in HP. destruct HP as [HP|HP]; injection HP as -> ->;
        pose proof (single_val _ _ H1 _ _ eq_refl) as Ea; pose proof (single_val _ _ H2 _ _ eq_refl) as Ec; cbv iota in Ea, Ec; subst a c.
      + rewrite is_finite_Bopp in Hw. specialize (Hw Fx Fp). rewrite sv_opp in Hw. exact Hw.
      + rewrite is_finite_Bopp in Hw. specialize (Hw Fp Fx). rewrite sv_opp in Hw.
        replace (- sv vp + sv vx) with (sv vx - sv vp) in Hw by ring. exact Hw.
    - exfalso. subst l. assert (HI : In (TProd s' x' y') [TVal false vx; TVal true vp]) by (eapply Permutation_in; [symmetry; exact HP|left; reflexivity]).
      destruct HI as [HI|[HI|[]]]; discriminate. }
  clearbody d.
  assert (HO : op_result flush (IZR z * sv d) (pick [TProd false (b64_of_Z z) d]) \/ is_finite d = false).
  { pose proof (cp_sum_ok C [TProd false (b64_of_Z z) d] ltac:(discriminate)) as H. 
    destruct (is_finite d) eqn:Fd; [left|auto].
    pose proof (single_prod _ _ H _ _ _ eq_refl Fz Fd) as HO. cbn [sg] in HO. rewrite Vz in HO. exact HO. }
  set (D := sv vx - sv vp) in *.
  assert (HD1 : 0 <= D <= 1) by (unfold D; lra).
  assert (H52 : forall y, Rabs y <= 2 -> Rabs (IZR z * y) <= bpow radix2 52).
  { intros y Hy. rewrite Rabs_mult, (Rabs_pos_eq (IZR z)) by lra.
    apply Rle_trans with (bpow radix2 31 * bpow radix2 1).
    - apply Rmult_le_compat; [lra|apply Rabs_pos|exact Hz31|exact Hy].
    - rewrite <- bpow_plus. apply bpow_le. lia. }
  destruct (Rle_lt_or_eq_dec _ _ (proj1 HD1)) as [Hpos|Hzero].
  - specialize (Hgap ltac:(unfold D in Hpos; lra)). fold D in Hgap.
    destruct (op_rel flush D d) as [Fd Ed]; [|exact Hd|].
    { rewrite Rabs_pos_eq by lra. split; [eapply Rle_trans; [|exact Hgap]; apply bpow_le; lia|].
      apply Rle_trans with 1; [lra|]. change 1 with (bpow radix2 0). apply bpow_le. lia. }
    rewrite (Rabs_pos_eq D) in Ed by lra.
    assert (Hd2 : 0 < sv d <= 2) by (apply Rabs_le_inv in Ed; nra).
    assert (HuD : 0 <= u64 * D <= / 65536 * D) by (split; [apply Rmult_le_pos; lra|apply Rmult_le_compat_r; lra]).
    assert (Hdlo : / 2 * D <= sv d) by (apply Rabs_le_inv in Ed; lra).
    destruct HO as [HO|HO]; [|congruence].
    assert (Hlo : / 2 * D <= IZR z * sv d).
    { apply Rle_trans with (1 * sv d); [lra|]. apply Rmult_le_compat_r; lra. }
    assert (HD954 : bpow radix2 (-954) <= / 2 * D).
    { change (-954)%Z with (-1 + -953)%Z. rewrite bpow_plus. change (bpow radix2 (-1)) with (/ 2). lra. }
    destruct (op_rel flush (IZR z * sv d) (pick [TProd false (b64_of_Z z) d])) as [Fl El].
    { rewrite Rabs_pos_eq by lra. split.
      - eapply Rle_trans; [|eapply Rle_trans; [exact HD954|exact Hlo]]. apply bpow_le. lia.
      - eapply Rle_trans; [apply Rle_abs|]. eapply Rle_trans; [apply H52; rewrite Rabs_pos_eq; lra|]. apply bpow_le. lia. }
    { exact HO. }
    rewrite (Rabs_pos_eq (IZR z * sv d)) in El by lra.
    change (fval [TProd false (b64_of_Z z) d]) with (sv (pick [TProd false (b64_of_Z z) d])).
    set (w := sv (pick [TProd false (b64_of_Z z) d])) in *.
    split; [split; [discriminate|exact Fl]|]. split.
    { exists (TProd false (b64_of_Z z) d). split; [reflexivity|]. split; [split; auto|]. cbn [tval sg]. rewrite Vz.
      apply H52. rewrite Rabs_pos_eq; lra. }
    assert (HzD : Rabs (IZR z * sv d - IZR z * D) <= u64 * (IZR z * D)).
    { replace (IZR z * sv d - IZR z * D) with (IZR z * (sv d - D)) by ring. rewrite Rabs_mult, (Rabs_pos_eq (IZR z)) by lra.
      replace (u64 * (IZR z * D)) with (IZR z * (u64 * D)) by ring. apply Rmult_le_compat_l; lra. }
    assert (HzD0 : 0 <= IZR z * D) by (apply Rmult_le_pos; lra).
    assert (Huz : u64 * (IZR z * sv d) <= 2 * u64 * (IZR z * D)).
    { apply Rle_trans with (u64 * (2 * (IZR z * D))); [|lra]. apply Rmult_le_compat_l; [lra|].
      apply Rabs_le_inv in HzD. assert (u64 * (IZR z * D) <= / 65536 * (IZR z * D)) by (apply Rmult_le_compat_r; lra). lra. }
    assert (HuzD : 0 <= u64 * (IZR z * D)) by (apply Rmult_le_pos; lra).
    split.
    + rewrite fu_u64. replace (w - IZR z * D) with ((w - IZR z * sv d) + (IZR z * sv d - IZR z * D)) by ring.
      eapply Rle_trans; [apply Rabs_triang|]. lra.
    + intros _. apply Rabs_le_inv in El.
      assert (u64 * (IZR z * sv d) <= / 2 * (IZR z * sv d)) by (apply Rmult_le_compat_r; lra).
      apply Rle_trans with (/ 2 * (IZR z * sv d)); [|lra].
      apply Rle_trans with (/ 2 * (/ 2 * D)); [|lra].
      apply Rle_trans with (/ 2 * bpow radix2 (-954)); [|lra].
      change (/ 2) with (bpow radix2 (-1)). rewrite <- bpow_plus. apply bpow_le. lia.
  - rewrite <- Hzero in Hd. destruct (op_zero flush d Hd) as [Fd Vd].
    destruct HO as [HO|HO]; [|congruence]. rewrite Vd, Rmult_0_r in HO.
    destruct (op_zero flush _ HO) as [Fl Vl].
    change (fval [TProd false (b64_of_Z z) d]) with (sv (pick [TProd false (b64_of_Z z) d])).
    rewrite Vl, <- Hzero, !Rmult_0_r, Rminus_0_r, Rabs_R0.
    split; [split; [discriminate|exact Fl]|]. split.
    { exists (TProd false (b64_of_Z z) d). split; [reflexivity|]. split; [split; auto|]. cbn [tval sg]. rewrite Vd, Rmult_0_r, Rabs_R0. apply bpow_ge_0. }
    split; [lra|]. unfold D in Hzero. lra.
Qed.

Lemma fast_exponent l k g q : (0 <= k < 2 ^ 31)%Z -> ffin l -> fone l -> ffin g -> fone g -> ffin q -> fone q ->
  Rabs (fval l) <= bpow radix2 50 -> Rabs (fval g) <= bpow radix2 10 -> Rabs (fval q) <= bpow radix2 50 ->
  let t := @n_sub FN (@n_add FN (n_neg (n := FN) l) (@n_mul FN (n_of_Z k) g)) q in
  ffin t /\ Rabs (fval t - (- fval l + IZR k * fval g - fval q))
           <= 3 * fu * (Rabs (fval l) + Rabs (IZR k * fval g) + Rabs (fval q)) + feta.
Proof.
  intros Hk _ (tl & El & Ftl & Btl) [_ Fg] _ _ (tq & Eq & Ftq & Btq) Bl Bg Bq. cbv zeta.
  destruct (sv_of_Z k ltac:(lia)) as [Fk Vk].
  pose proof (one_err l tl El Ftl Btl) as HEl. pose proof (one_err q tq Eq Ftq Btq) as HEq.
  set (T := [term_neg tl; TProd false (pick (lit (b64_of_Z k))) (pick g); term_neg tq]).
  assert (HT : @n_sub FN (@n_add FN (n_neg (n := FN) l) (@n_mul FN (n_of_Z k) g)) q = T) by (rewrite El, Eq; reflexivity).
  rewrite HT.
  assert (Hneg : forall t, tv (term_neg t) = - tv t) by (intros [s x|s x y]; cbn [tval term_neg]; apply sg_negb).
  assert (Hnf : forall t, tfin t -> tfin (term_neg t)) by (intros [s x|s x y] Ht; exact Ht).
  assert (HS : lsum flush T = - tv tl + IZR k * fval g - tv tq).
  { unfold T. cbn [lsum fold_right]. rewrite !Hneg. cbn [tval sg]. rewrite pick_lit, Vk. unfold fval. ring. }
  assert (HA : labs flush T = Rabs (tv tl) + Rabs (IZR k * fval g) + Rabs (tv tq)).
  { unfold T. cbn [labs fold_right]. rewrite !Hneg, !Rabs_Ropp. cbn [tval sg]. rewrite pick_lit, Vk. unfold fval. ring. }
  assert (Hkg : Rabs (IZR k * fval g) <= bpow radix2 41).
  { rewrite Rabs_mult, (Rabs_pos_eq (IZR k)) by (apply IZR_le; lia). change 41%Z with (31 + 10)%Z. rewrite bpow_plus.
    apply Rmult_le_compat; [apply IZR_le; lia|apply Rabs_pos|apply int_le; lia|exact Bg]. }
  destruct (pick_err T) as [FT HE].
  - discriminate.
  - unfold T. constructor; [apply Hnf, Ftl|]. constructor; [split; [rewrite pick_lit; exact Fk|exact Fg]|]. constructor; [apply Hnf, Ftq|constructor].
  - simpl. lia.
  - rewrite HA. assert (H41 : bpow radix2 41 <= bpow radix2 52) by (apply bpow_le; lia).
    assert (H55 : bpow radix2 55 = 8 * bpow radix2 52) by (change 55%Z with (3 + 52)%Z; rewrite bpow_plus; reflexivity).
    pose proof (bpow_gt_0 radix2 52). lra.
  - split; [exact FT|]. rewrite HS, HA in HE. unfold eb in HE. change (List.length T) with 3%nat in HE.
    pose proof u64_pos as Hu. pose proof u64_small as Hus. pose proof eta0_pos as He.
    assert (HP : (1 + u64) ^ 3 <= 1 + 4 * u64 /\ 1 <= (1 + u64) ^ 3).
    { assert (u64 * u64 <= / 65536 * u64) by (apply Rmult_le_compat_r; lra). assert (0 <= u64 * u64) by nra.
      assert (0 <= u64 * (u64 * u64) <= u64 * u64) by nra.
      replace ((1 + u64) ^ 3) with (1 + 3 * u64 + 3 * (u64 * u64) + u64 * (u64 * u64)) by ring. lra. }
    set (P := (1 + u64) ^ 3) in *. simpl INR in HE.
    assert (Hab2 : forall a v, Rabs (a - v) <= 2 * u64 * Rabs v + 2 * eta0 -> Rabs a <= Rabs v + 2 * u64 * Rabs v + 2 * eta0).
    { intros a v Hav. replace a with ((a - v) + v) by ring. eapply Rle_trans; [apply Rabs_triang|]. lra. }
    apply Hab2 in HEl as HAl. apply Hab2 in HEq as HAq.
    set (vl := fval l) in *. set (vq := fval q) in *. set (m := IZR k * fval g) in *.
    set (al := tv tl) in *. set (aq := tv tq) in *. set (w := fval T) in *.
    pose proof (Rabs_pos vl) as P1. pose proof (Rabs_pos vq) as P2. pose proof (Rabs_pos m) as P3.
    pose proof (Rabs_pos al) as P4. pose proof (Rabs_pos aq) as P5.
    assert (HPA : (P - 1) * (Rabs al + Rabs m + Rabs aq) <= 4 * u64 * (Rabs al + Rabs m + Rabs aq)) by (apply Rmult_le_compat_r; lra).
    assert (Hal : u64 * Rabs al <= u64 * Rabs vl + / 65536 * (2 * u64 * Rabs vl) + / 65536 * (2 * eta0)).
    { apply Rle_trans with (u64 * (Rabs vl + (2 * u64 * Rabs vl + 2 * eta0))); [apply Rmult_le_compat_l; lra|].
      rewrite Rmult_plus_distr_l. assert (0 <= u64 * Rabs vl) by (apply Rmult_le_pos; lra).
      assert (u64 * (2 * u64 * Rabs vl + 2 * eta0) <= / 65536 * (2 * u64 * Rabs vl + 2 * eta0)) by (apply Rmult_le_compat_r; lra). lra. }
    assert (Haq : u64 * Rabs aq <= u64 * Rabs vq + / 65536 * (2 * u64 * Rabs vq) + / 65536 * (2 * eta0)).
    { apply Rle_trans with (u64 * (Rabs vq + (2 * u64 * Rabs vq + 2 * eta0))); [apply Rmult_le_compat_l; lra|].
      rewrite Rmult_plus_distr_l. assert (0 <= u64 * Rabs vq) by (apply Rmult_le_pos; lra).
      assert (u64 * (2 * u64 * Rabs vq + 2 * eta0) <= / 65536 * (2 * u64 * Rabs vq + 2 * eta0)) by (apply Rmult_le_compat_r; lra). lra. }
    assert (HPe : P * eta0 <= 2 * eta0) by (apply Rmult_le_compat_r; lra).
    assert (Q1 : 0 <= u64 * Rabs vl) by (apply Rmult_le_pos; lra).
    assert (Q2 : 0 <= u64 * Rabs vq) by (apply Rmult_le_pos; lra).
    assert (Q3 : 0 <= u64 * Rabs m) by (apply Rmult_le_pos; lra).
    replace (w - (- vl + m - vq)) with ((w - (- al + m - aq)) + (- (al - vl) + - (aq - vq))) by ring.
    eapply Rle_trans; [apply Rabs_triang|].
    assert (HB : Rabs (- (al - vl) + - (aq - vq)) <= Rabs (al - vl) + Rabs (aq - vq)).
    { eapply Rle_trans; [apply Rabs_triang|]. rewrite !Rabs_Ropp. lra. }
    rewrite fu_u64, feta_eta0.
    replace (P * ((2 * (1 + 1 + 1) - 1) * eta0)) with (5 * (P * eta0)) in HE by ring. lra.
Qed.

Lemma dot_terms (x y : nat -> car FN) m :
  @dot FN x y m = TVal false (b64_of_Z 0) :: map (fun k => TProd false (pick (x k)) (pick (y k))) (seq 0 m).
Proof.
  induction m as [|m IH]; [reflexivity|].
  change (@dot FN x y (S m)) with (@dot FN x y m ++ [TProd false (pick (x m)) (pick (y m))]).
  rewrite IH, seq_S, map_app. reflexivity.
Qed.

Lemma lsum_map (f : nat -> term) a m : lsum flush (map f (seq a m)) = rsum m (fun k => tv (f (a + k)%nat)).
Proof.
  induction m as [|m IH]; [reflexivity|]. rewrite seq_S, map_app, lsum_app, IH. simpl. ring.
Qed.
Lemma labs_map (f : nat -> term) a m : labs flush (map f (seq a m)) = rsum m (fun k => Rabs (tv (f (a + k)%nat))).
Proof.
  induction m as [|m IH]; [reflexivity|]. rewrite seq_S, map_app, labs_app, IH. simpl. ring.
Qed.

Lemma fast_dot m (x y : nat -> car FN) : (Z.of_nat m <= 2 ^ 31)%Z ->
  (forall k, (k < m)%nat -> ffin (x k) /\ Rabs (fval (x k)) <= 4) ->
  (forall k, (k < m)%nat -> ffin (y k) /\ Rabs (fval (y k)) <= 4) ->
  ffin (@dot FN x y m) /\
  Rabs (fval (@dot FN x y m) - rsum m (fun k => fval (x k) * fval (y k)))
    <= ((1 + fu) ^ (m + 1) - 1) * rsum m (fun k => Rabs (fval (x k) * fval (y k))) + (1 + fu) ^ (m + 1) * (INR (m + 1) * feta).
Proof.
  intros Hm Hx Hy. rewrite dot_terms.
  set (l := TVal false (b64_of_Z 0) :: map (fun k => TProd false (pick (x k)) (pick (y k))) (seq 0 m)).
  destruct (sv_of_Z 0 ltac:(lia)) as [F0 V0].
  assert (HS : lsum flush l = rsum m (fun k => fval (x k) * fval (y k))).
  { unfold l. cbn [lsum fold_right]. fold (lsum flush (map (fun k => TProd false (pick (x k)) (pick (y k))) (seq 0 m))).
    rewrite lsum_map. cbn [tval sg]. rewrite V0, Rplus_0_l. reflexivity. }
  assert (HA : labs flush l = rsum m (fun k => Rabs (fval (x k) * fval (y k)))).
  { unfold l. cbn [labs fold_right]. fold (labs flush (map (fun k => TProd false (pick (x k)) (pick (y k))) (seq 0 m))).
    rewrite labs_map. cbn [tval sg]. rewrite V0, Rabs_R0, Rplus_0_l. reflexivity. }
  assert (Hlen : List.length l = (m + 1)%nat) by (unfold l; simpl; rewrite map_length, seq_length; lia).
  assert (HAb : rsum m (fun k => Rabs (fval (x k) * fval (y k))) <= bpow radix2 35).
  { apply Rle_trans with (INR m * 16).
    - clear - Hx Hy. induction m as [|m IH]; [simpl; lra|]. rewrite S_INR. cbn [rsum].
      assert (Rabs (fval (x m) * fval (y m)) <= 16).
      { rewrite Rabs_mult. replace 16 with (4 * 4) by ring. apply Rmult_le_compat; try apply Rabs_pos; [apply Hx|apply Hy]; lia. }
      specialize (IH ltac:(intros k Hk; apply Hx; lia) ltac:(intros k Hk; apply Hy; lia)). lra.
    - rewrite INR_IZR_INZ. change 35%Z with (31 + 4)%Z. rewrite bpow_plus. change (bpow radix2 4) with 16.
      apply Rmult_le_compat_r; [lra|]. apply int_le; lia. }
  destruct (pick_err l) as [FT HE].
  - discriminate.
  - unfold l. constructor; [exact F0|]. apply Forall_map, Forall_forall. intros k Hk. apply in_seq in Hk.
    split; [apply Hx; lia|apply Hy; lia].
  - rewrite Hlen. lia.
  - rewrite HA. eapply Rle_trans; [exact HAb|]. apply bpow_le. lia.
  - split; [exact FT|]. rewrite HS, HA, Hlen in HE. eapply Rle_trans; [exact HE|]. unfold eb.
    pose proof u64_pos as Hu. pose proof eta0_pos as He. pose proof fu_u64 as Hfu.
    assert (HPP : (1 + u64) ^ (m + 1) <= (1 + fu) ^ (m + 1)) by (apply pow_incr; lra).
    assert (HP1 : 1 <= (1 + u64) ^ (m + 1)) by (apply pow_R1_Rle; lra).
    assert (Hr0 : 0 <= rsum m (fun k => Rabs (fval (x k) * fval (y k)))) by (rewrite <- HA; apply labs_pos).
    assert (HI : 1 <= INR (m + 1)) by (apply (le_INR 1); lia).
    apply Rplus_le_compat.
    + apply Rmult_le_compat_r; lra.
    + rewrite feta_eta0. apply Rmult_le_compat; [lra| |exact HPP|].
      * apply Rmult_le_pos; lra.
      * replace (INR (m + 1) * (32 * eta0)) with (32 * INR (m + 1) * eta0) by ring. apply Rmult_le_compat_r; lra.
Qed.

Lemma fast_div x y : ffin x -> ffin y -> Rabs (fval x) <= 4 -> bpow radix2 (-30) <= fval y <= 4 ->
  ffin (@n_div FN x y) /\ Rabs (fval (@n_div FN x y) - fval x / fval y) <= 3 * fu * Rabs (fval x / fval y) + feta.
Proof.
  intros [_ Fx] [_ Fy] Hx [Hy1 Hy2]. change (@n_div FN x y) with (lit (cp_div C (pick x) (pick y))).
  rewrite fval_lit. pose proof (cp_div_ok C (pick x) (pick y) Fx Fy) as HD.
  fold (fval x) (fval y) in HD. set (w := cp_div C (pick x) (pick y)) in *.
  pose proof (bpow_gt_0 radix2 (-30)) as H30. specialize (HD ltac:(lra)).
  pose proof u64_pos as Hu. pose proof u64_small as Hus. pose proof eta0_pos as He.
  rewrite fu_u64, feta_eta0.
  assert (HI : 0 < / fval y <= bpow radix2 30).
  { split; [apply Rinv_0_lt_compat; lra|]. change (bpow radix2 30) with (bpow radix2 (- (-30))). rewrite bpow_opp.
    apply Rinv_le_contravar; [exact H30|exact Hy1]. }
  assert (HI4 : / 4 <= / fval y) by (apply Rinv_le_contravar; lra).
  unfold Rdiv in *. set (i := / fval y) in *.
  assert (Hxi : Rabs (fval x * i) <= bpow radix2 32).
  { rewrite Rabs_mult, (Rabs_pos_eq i) by lra. change 32%Z with (2 + 30)%Z. rewrite bpow_plus. change (bpow radix2 2) with 4.
    apply Rmult_le_compat; try lra. apply Rabs_pos. }
  assert (H0 : 0 <= u64 * Rabs (fval x * i)) by (apply Rmult_le_pos; [lra|apply Rabs_pos]).
  destruct HD as [HD|(c & Hc & HD)].
  - destruct (op_err flush _ w ltac:(eapply Rle_trans; [exact Hxi|apply bpow_le; lia]) HD) as [Fw Ew].
    split; [apply ffin_lit, Fw|]. lra.
  - destruct (op_rel flush i c) as [Fc Ec].
    { rewrite Rabs_pos_eq by lra. split.
      - apply Rle_trans with (/ 4); [|exact HI4]. change (/ 4) with (bpow radix2 (-2)). apply bpow_le. lia.
      - eapply Rle_trans; [apply HI|]. apply bpow_le. lia. }
    { exact Hc. }
    specialize (HD Fc). rewrite (Rabs_pos_eq i) in Ec by lra.
    assert (Hxc : Rabs (fval x * sv c - fval x * i) <= u64 * Rabs (fval x * i)).
    { replace (fval x * sv c - fval x * i) with (fval x * (sv c - i)) by ring. rewrite !Rabs_mult, (Rabs_pos_eq i) by lra.
      replace (u64 * (Rabs (fval x) * i)) with (Rabs (fval x) * (u64 * i)) by ring. apply Rmult_le_compat_l; [apply Rabs_pos|exact Ec]. }
    assert (Hxc2 : Rabs (fval x * sv c) <= 2 * Rabs (fval x * i)).
    { replace (fval x * sv c) with ((fval x * sv c - fval x * i) + fval x * i) by ring. eapply Rle_trans; [apply Rabs_triang|].
      assert (u64 * Rabs (fval x * i) <= 1 * Rabs (fval x * i)) by (apply Rmult_le_compat_r; [apply Rabs_pos|lra]). lra. }
    destruct (op_err flush (fval x * sv c) w) as [Fw Ew]; [|exact HD|].
    { eapply Rle_trans; [exact Hxc2|]. apply Rle_trans with (bpow radix2 1 * bpow radix2 32); [change (bpow radix2 1) with 2; lra|].
      rewrite <- bpow_plus. apply bpow_le. lia. }
    split; [apply ffin_lit, Fw|].
    replace (sv w - fval x * i) with ((sv w - fval x * sv c) + (fval x * sv c - fval x * i)) by ring.
    eapply Rle_trans; [apply Rabs_triang|].
    assert (u64 * Rabs (fval x * sv c) <= u64 * (2 * Rabs (fval x * i))) by (apply Rmult_le_compat_l; lra). lra.
Qed.

Lemma fast_arith : eps <= 1 -> arith FN ffin fone fraw fval fu eps feta.
Proof.
  intros Heps1. constructor.
  - intros z Hz. destruct (sv_of_Z z ltac:(lia)) as [F V]. change (@n_of_Z FN z) with (lit (b64_of_Z z)).
    rewrite fval_lit. split; [apply ffin_lit, F|]. split; [|split; [exists (b64_of_Z z); reflexivity|exact V]].
    apply fone_lit; [exact F|]. rewrite V, Rabs_pos_eq by (apply IZR_le; lia).
    apply Rle_trans with (bpow radix2 31); [apply int_le; lia|apply bpow_le; lia].
  - intros x y [_ Fx] [_ Fy]. apply (Bltb_correct 53 1024); apply seen_fin; assumption.
  - intros x y [_ Fx] [_ Fy]. apply (Bleb_correct 53 1024); apply seen_fin; assumption.
  - intros x y [_ Fx] [_ Fy]. apply (Beqb_correct 53 1024); apply seen_fin; assumption.
  - intros x [_ Fx]. change (Bltb (seen flush (pick x)) (seen flush (pick (lit (B754_infinity true)))) = false).
    rewrite pick_lit. pose proof (seen_fin flush _ Fx) as Fs.
    replace (seen flush (B754_infinity true)) with (B754_infinity true : f64).
    + destruct (seen flush (pick x)); simpl in Fs; try discriminate; reflexivity.
    + unfold seen. simpl is_finite. rewrite andb_false_r. reflexivity.
  - exact fast_rate.
  - exact fast_exponent.
  - exact fast_dot.
  - exact fast_div.
  - intros x [_ Fx] _ Hlo. change (@n_log FN x) with (lit (lm_log L (pick x))). rewrite fval_lit.
    assert (Ex : fval x = B2R (pick x)).
    { unfold fval in *. destruct (sv_cases flush (pick x)) as [E|[_ E]]; [exact E|].
      rewrite E in Hlo. pose proof (bpow_gt_0 radix2 (-1000)). lra. }
    rewrite Ex in *. destruct (fl_log _ _ _ HL _ Fx Hlo) as [F V].
    split; [apply ffin_lit, F|]. split; [|exact V]. apply fone_lit; [exact F|].
    (* |log x| <= 710 *)
    pose proof (bpow_gt_0 radix2 (-1000)) as Hb.
    assert (Hln : Rabs (ln (B2R (pick x))) <= 1024).
    { pose proof (abs_B2R_lt_emax 53 1024 (pick x)) as HM. rewrite Rabs_pos_eq in HM by lra.
      assert (Hl2 : 0 < ln 2 <= 1) by (pose proof ln_lt_2; split; [lra|]; rewrite <- (ln_exp 1); apply ln_le; [lra|]; pose proof (exp_ineq1_le 1); lra).
      assert (Hbp : forall e, ln (bpow radix2 e) = IZR e * ln 2).
      { intros e. rewrite bpow_exp. change (IZR radix2) with 2. apply ln_exp. }
      apply Rabs_le. split.
      - apply ln_le in Hlo; [|exact Hb]. rewrite Hbp in Hlo. nra.
      - assert (Hm : ln (B2R (pick x)) <= ln (bpow radix2 1024)) by (apply ln_le; lra). rewrite Hbp in Hm. nra. }
    set (v := sv (lm_log L (pick x))) in *. set (g := ln (B2R (pick x))) in *.
    apply Rle_trans with 2048; [|change 2048 with (bpow radix2 11); apply bpow_le; lia].
    replace v with ((v - g) + g) by ring. eapply Rle_trans; [apply Rabs_triang|].
    assert (eps * Rabs g <= 1 * Rabs g) by (apply Rmult_le_compat_r; [apply Rabs_pos|lra]). lra.
  - intros k Hk. change (@n_lgamma FN k) with (lit (lm_lgamma L k)). rewrite fval_lit.
    destruct (fl_lgamma _ _ _ HL k Hk) as [F V]. split; [apply ffin_lit, F|]. split; [|exact V].
    apply fone_lit; [exact F|].
    set (g := ln (INR (fact (Z.to_nat (k - 1))))) in *. set (v := sv (lm_lgamma L k)) in *.
    assert (Hg : 0 <= g <= bpow radix2 51).
    { assert (Hf : forall j, 0 <= ln (INR (fact j)) <= INR j * INR j).
      { induction j as [|j IH]; [simpl; rewrite ln_1; lra|].
        rewrite fact_simpl, mult_INR. assert (HF : 0 < INR (fact j)) by (apply lt_0_INR, lt_O_fact).
        assert (HS : 1 <= INR (S j)) by (apply (le_INR 1); lia). rewrite ln_mult by lra.
        assert (0 <= ln (INR (S j))) by (rewrite <- ln_1; apply ln_le; lra).
        assert (ln (INR (S j)) <= INR (S j) - 1).
        { pose proof (exp_ineq1_le (ln (INR (S j)))) as HE. rewrite exp_ln in HE by lra. lra. }
        rewrite S_INR in *. pose proof (pos_INR j). nra. }
      split; [apply Hf|].
      (* ln (k-1)! <= (k-1) ln k is enough here *)
      assert (Hf2 : forall j M, 1 <= M -> INR j <= M -> ln (INR (fact j)) <= INR j * ln M).
      { induction j as [|j IH]; intros M HM Hj; [simpl; rewrite ln_1; lra|].
        rewrite fact_simpl, mult_INR. assert (HF : 0 < INR (fact j)) by (apply lt_0_INR, lt_O_fact).
        assert (HS : 1 <= INR (S j)) by (apply (le_INR 1); lia). rewrite ln_mult by lra.
        assert (ln (INR (S j)) <= ln M) by (apply ln_le; lra).
        rewrite S_INR in *. specialize (IH M HM ltac:(lra)). lra. }
      assert (Hj : INR (Z.to_nat (k - 1)) <= bpow radix2 31).
      { rewrite INR_IZR_INZ, Z2Nat.id by lia. apply int_le; lia. }
      assert (H31 : 1 <= bpow radix2 31) by (change 1 with (bpow radix2 0); apply bpow_le; lia).
      eapply Rle_trans; [apply (Hf2 _ _ H31 Hj)|].
      assert (Hln : 0 <= ln (bpow radix2 31) <= 31).
      { rewrite bpow_exp, ln_exp. change (IZR radix2) with 2.
        assert (Hl2 : 0 < ln 2 <= 1) by (pose proof ln_lt_2; split; [lra|]; rewrite <- (ln_exp 1); apply ln_le; [lra|]; pose proof (exp_ineq1_le 1); lra).
        split; nra. }
      apply Rle_trans with (bpow radix2 31 * bpow radix2 5).
      - apply Rmult_le_compat; [apply pos_INR|lra|exact Hj|change (bpow radix2 5) with 32; lra].
      - rewrite <- bpow_plus. apply bpow_le. lia. }
    replace v with ((v - g) + g) by ring. eapply Rle_trans; [apply Rabs_triang|]. rewrite (Rabs_pos_eq g) by lra.
    assert (eps * g <= 1 * g) by (apply Rmult_le_compat_r; lra).
    change 52%Z with (1 + 51)%Z. rewrite bpow_plus. change (bpow radix2 1) with 2. lra.
  - intros x [_ Fx] Hx. change (@n_exp FN x) with (lit (lm_exp L (pick x))). rewrite fval_lit.
    destruct (fl_exp _ _ _ HL _ Fx Hx) as [F V]. split; [apply ffin_lit, F|].
    eapply Rle_trans; [exact V|]. apply Rplus_le_compat_l. unfold feta. apply bpow_le. lia.
Qed.
End Inst.
