(** * FastMnsSum: rounding error of a sum of long doubles evaluated in any order. *)
From Coquelicot Require Import Coquelicot.
From Flocq Require Import Core.Core IEEE754.BinarySingleNaN.
From Coq Require Import ZArith Reals List Bool Lia Lra Permutation.
From Verif Require Import Base Num RSum Binary64 B64Round LongDouble LdRound FastMath FastLong MnsErr.
Import List. Import ListNotations.
Local Open Scope R_scope.

Definition lsm (l : list f80) : R := fold_right (fun x a => B2R x + a) 0 l.
Definition lab (l : list f80) : R := fold_right (fun x a => Rabs (B2R x) + a) 0 l.
Notation fins80 := (Forall (fun x : f80 => is_finite x = true)).

Lemma lsm_app l1 l2 : lsm (l1 ++ l2) = lsm l1 + lsm l2.
Proof. unfold lsm. induction l1 as [|x l1 IH]; cbn [app fold_right]; [ring|]. rewrite IH. ring. Qed.
Lemma lab_app l1 l2 : lab (l1 ++ l2) = lab l1 + lab l2.
Proof. unfold lab. induction l1 as [|x l1 IH]; cbn [app fold_right]; [ring|]. rewrite IH. ring. Qed.
Lemma lsm_perm l l' : Permutation l l' -> lsm l = lsm l'.
Proof. unfold lsm. induction 1; cbn [fold_right]; lra. Qed.
Lemma lab_perm l l' : Permutation l l' -> lab l = lab l'.
Proof. unfold lab. induction 1; cbn [fold_right]; lra. Qed.
Lemma lab_pos l : 0 <= lab l.
Proof. unfold lab. induction l as [|x l IH]; cbn [fold_right]; [lra|]. pose proof (Rabs_pos (B2R x)). lra. Qed.
Lemma lsm_lab l : Rabs (lsm l) <= lab l.
Proof. unfold lab, lsm. induction l as [|x l IH]; cbn [fold_right]; [rewrite Rabs_R0; lra|]. eapply Rle_trans; [apply Rabs_triang|]. lra. Qed.
Lemma lsm_opp l : lsm (map Bopp l) = - lsm l.
Proof. unfold lsm. induction l as [|x l IH]; cbn [map fold_right]; [ring|]. rewrite IH, B2R_Bopp. ring. Qed.
Lemma lab_opp l : lab (map Bopp l) = lab l.
Proof. unfold lab. induction l as [|x l IH]; cbn [map fold_right]; [ring|]. rewrite IH, B2R_Bopp, Rabs_Ropp. ring. Qed.
Lemma fins_opp l : fins80 l -> fins80 (map Bopp l).
Proof. intros H. apply Forall_map. eapply Forall_impl; [|exact H]. intros x Hx. cbv beta. rewrite is_finite_Bopp. exact Hx. Qed.

Lemma sums_nonempty l w : sums_to l w -> (1 <= List.length l)%nat.
Proof.
  induction 1 as [x|l l1 l2 a c HP H1 IH1 H2 IH2]; [simpl; lia|]. apply Permutation_length in HP. rewrite app_length in HP. lia.
Qed.

Lemma pow_u80 m : (Z.of_nat m <= 2 ^ 20)%Z -> 1 <= (1 + u80) ^ m <= 1 + 11 / 10 * (INR m * u80).
Proof.
  pose proof u80_pos as Hu. assert (Hu1 : u80 <= bpow radix2 (-40)) by (apply bpow_le; lia).
  change (bpow radix2 (-40)) with (/ 1099511627776) in Hu1.
  induction m as [|m IH]; intros Hm; [simpl; lra|]. specialize (IH ltac:(lia)). rewrite S_INR.
  assert (HmR : INR m <= 1048576). { rewrite INR_IZR_INZ. apply IZR_le. lia. }
  pose proof (pos_INR m) as H0.
  assert (Hmu : 0 <= INR m * u80 <= / 1000000).
  { split; [apply Rmult_le_pos; lra|]. apply Rle_trans with (1048576 * / 1099511627776); [apply Rmult_le_compat; lra|lra]. }
  cbn [pow]. set (p := (1 + u80) ^ m) in *. set (q := INR m * u80) in *. split; [nra|].
  replace ((INR m + 1) * u80) with (q + u80) by (unfold q; ring).
  apply Rle_trans with ((1 + u80) * (1 + 11 / 10 * q)); [apply Rmult_le_compat_l; lra|]. nra.
Qed.

Lemma sums_err l w : sums_to l w -> fins80 l -> (Z.of_nat (List.length l) <= 2 ^ 20)%Z -> lab l <= bpow radix2 5020 ->
  is_finite w = true /\ Rabs (B2R w - lsm l) <= ((1 + u80) ^ List.length l - 1) * lab l.
Proof.
  pose proof u80_pos as Hu.
  induction 1 as [x|l l1 l2 a c HP H1 IH1 H2 IH2]; intros HF Hl Hb.
  - inversion HF; subst. split; [assumption|]. cbn [lsm lab fold_right List.length pow]. rewrite !Rplus_0_r, Rminus_diag_eq, Rabs_R0 by reflexivity.
    pose proof (Rabs_pos (B2R x)). nra.
  - pose proof (sums_nonempty _ _ H1) as N1. pose proof (sums_nonempty _ _ H2) as N2.
    pose proof (Permutation_length HP) as HL. rewrite app_length in HL.
    assert (HF' : fins80 (l1 ++ l2)) by (eapply Permutation_Forall; eassumption).
    apply Forall_app in HF'. destruct HF' as [F1 F2].
    rewrite (lsm_perm _ _ HP), (lab_perm _ _ HP), lsm_app, lab_app in *.
    pose proof (lab_pos l1) as P1. pose proof (lab_pos l2) as P2.
    destruct (IH1 F1 ltac:(lia) ltac:(lra)) as [Fa Ea]. destruct (IH2 F2 ltac:(lia) ltac:(lra)) as [Fc Ec]. clear IH1 IH2.
    assert (HA : Rabs (lsm l1 + lsm l2) <= lab l1 + lab l2).
    { eapply Rle_trans; [apply Rabs_triang|]. pose proof (lsm_lab l1). pose proof (lsm_lab l2). lra. }
    rewrite HL in Hl |- *.
    set (n1 := List.length l1) in *. set (n2 := List.length l2) in *.
    pose (k := (n1 + n2 - 1)%nat). assert (Hk : (n1 + n2 = S k)%nat) by (unfold k; lia). rewrite Hk in Hl |- *.
    assert (Hp1 : (1 + u80) ^ n1 <= (1 + u80) ^ k) by (apply Rle_pow; [lra|unfold k; lia]).
    assert (Hp2 : (1 + u80) ^ n2 <= (1 + u80) ^ k) by (apply Rle_pow; [lra|unfold k; lia]).
    destruct (pow_u80 k ltac:(lia)) as [Hk1 Hk2].
    assert (Hk3 : (1 + u80) ^ k <= 2).
    { eapply Rle_trans; [exact Hk2|]. assert (INR k <= 1048576) by (rewrite INR_IZR_INZ; apply IZR_le; lia).
      assert (u80 <= / 1099511627776) by (change (/ 1099511627776) with (bpow radix2 (-40)); apply bpow_le; lia).
      assert (INR k * u80 <= 1048576 * / 1099511627776) by (apply Rmult_le_compat; [apply pos_INR|lra|lra|lra]). lra. }
    set (P := (1 + u80) ^ k) in *. set (A := lab l1 + lab l2) in *. set (S := lsm l1 + lsm l2) in *.
    assert (HT : Rabs (B2R a + B2R c - S) <= (P - 1) * A).
    { unfold S, A. replace (B2R a + B2R c - (lsm l1 + lsm l2)) with ((B2R a - lsm l1) + (B2R c - lsm l2)) by ring.
      eapply Rle_trans; [apply Rabs_triang|].
      assert (((1 + u80) ^ n1 - 1) * lab l1 <= (P - 1) * lab l1) by (apply Rmult_le_compat_r; lra).
      assert (((1 + u80) ^ n2 - 1) * lab l2 <= (P - 1) * lab l2) by (apply Rmult_le_compat_r; lra). lra. }
    assert (HA0 : 0 <= A) by (unfold A; lra).
    assert (HTA : Rabs (B2R a + B2R c) <= P * A).
    { replace (B2R a + B2R c) with ((B2R a + B2R c - S) + S) by ring. eapply Rle_trans; [apply Rabs_triang|]. lra. }
    destruct (plus80 a c Fa Fc) as (Fs & _ & Es).
    { eapply Rle_trans; [exact HTA|]. apply Rle_trans with (2 * bpow radix2 5020); [apply Rmult_le_compat; lra|].
      change 2 with (bpow radix2 1). rewrite <- bpow_plus. unfold big80. apply bpow_le. lia. }
    split; [exact Fs|].
    replace (B2R (Bplus mode_NE a c) - S) with ((B2R (Bplus mode_NE a c) - (B2R a + B2R c)) + (B2R a + B2R c - S)) by ring.
    eapply Rle_trans; [apply Rabs_triang|].
    assert (u80 * Rabs (B2R a + B2R c) <= u80 * (P * A)) by (apply Rmult_le_compat_l; lra).
    cbn [pow]. fold P. lra.
Qed.

Section Sum.
Context (D : lcompiler).
Notation ls := (lc_sum D).

Lemma sum_err l : l <> [] -> fins80 l -> (Z.of_nat (List.length l) <= 2 ^ 20)%Z -> lab l <= bpow radix2 5020 ->
  is_finite (ls l) = true /\ Rabs (B2R (ls l) - lsm l) <= 11 / 10 * (INR (List.length l) * u80) * lab l.
Proof.
  intros H HF Hl Hb. destruct (sums_err l (ls l) (lc_sum_ok D l H) HF Hl Hb) as [F E]. split; [exact F|].
  eapply Rle_trans; [exact E|]. apply Rmult_le_compat_r; [apply lab_pos|]. pose proof (pow_u80 _ Hl). lra.
Qed.
Lemma sums_one l w : sums_to l w -> forall x, l = [x] -> w = x.
Proof.
  destruct 1 as [x'|l l1 l2 a c HP H1 H2]; intros x Hx; [injection Hx; auto|].
  pose proof (sums_nonempty _ _ H1) as N1. pose proof (sums_nonempty _ _ H2) as N2.
  apply Permutation_length in HP. subst l. rewrite app_length in HP. simpl in HP. lia.
Qed.
Lemma ls_one x : ls [x] = x.
Proof. apply (sums_one [x]); [|reflexivity]. apply lc_sum_ok. discriminate. Qed.
Lemma ls_two x y : is_finite x = true -> is_finite y = true -> Rabs (B2R x + B2R y) <= big80 ->
  is_finite (ls [x; y]) = true /\ B2R (ls [x; y]) = rndl (B2R x + B2R y) /\
  Rabs (B2R (ls [x; y]) - (B2R x + B2R y)) <= u80 * Rabs (B2R x + B2R y).
Proof.
  intros Fx Fy Hb. pose proof (lc_sum_ok D [x; y] ltac:(discriminate)) as H. set (w := ls [x; y]) in *. clearbody w.
  remember [x; y] as l0 eqn:El. destruct H as [x'|l l1 l2 a c HP H1 H2]; [discriminate|].
  subst l. pose proof (sums_nonempty _ _ H1) as N1. pose proof (sums_nonempty _ _ H2) as N2.
  pose proof (Permutation_length HP) as HPL. rewrite app_length in HPL. simpl in HPL.
  destruct l1 as [|t1 [|? ?]]; [simpl in N1; lia| |simpl in HPL, N2; lia].
  destruct l2 as [|t2 [|? ?]]; [simpl in N2; lia| |simpl in HPL; lia].
  apply Permutation_length_2_inv in HP. pose proof (sums_one _ _ H1 _ eq_refl) as ->. pose proof (sums_one _ _ H2 _ eq_refl) as ->.
  destruct HP as [HP|HP]; injection HP as -> ->.
  - apply plus80; assumption.
  - rewrite (Rplus_comm (B2R x)) in *. apply plus80; assumption.
Qed.
End Sum.
