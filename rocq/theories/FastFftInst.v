(** * FastFftInst: the arithmetic of the FFT convolver under -ffast-math. *)
From Coquelicot Require Import Coquelicot.
From Flocq Require Import Core.Core IEEE754.BinarySingleNaN Relative.
From Coq Require Import ZArith Reals List Bool Lia Lra Permutation.
From Verif Require Import Base Num RSum Binary64 Binary64Facts ErrBound B64Round FastNum FastMath FastInst.
Import List. Import ListNotations.
Local Open Scope R_scope.

Section Inst.
Context (C : compiler) (L : libm).
Notation flush := (cp_flush C).
Notation FN := (Fnum C L).
Notation pick := (cp_sum C).
Notation sv := (sv flush).

Lemma fast_scale z : (1 <= z <= 2 ^ 33)%Z -> let c := @n_div FN n1 (n_of_Z z) in
  ffin C c /\ Rabs (fval C c - / IZR z) <= 4 * fu * / IZR z.
Proof.
  intros Hz c. change c with (lit (cp_div C (pick (lit (b64_of_Z 1))) (pick (lit (b64_of_Z z))))).
  rewrite !pick_lit, fval_lit.
  destruct (sv_of_Z C 1 ltac:(lia)) as [F1 V1]. destruct (sv_of_Z C z ltac:(lia)) as [Fz Vz].
  pose proof (cp_div_ok C (b64_of_Z 1) (b64_of_Z z) F1 Fz) as HD.
  assert (Hz1 : 1 <= IZR z) by (apply IZR_le; lia).
  assert (Hz33 : IZR z <= bpow radix2 33) by (apply int_le; lia).
  rewrite V1, Vz in HD. specialize (HD ltac:(lra)).
  pose proof u64_pos as Hu. pose proof u64_small as Hus. rewrite fu_u64.
  assert (HI : bpow radix2 (-33) <= / IZR z <= 1).
  { split; [|rewrite <- Rinv_1; apply Rinv_le_contravar; lra].
    change (bpow radix2 (-33)) with (bpow radix2 (- (33))). rewrite bpow_opp. apply Rinv_le_contravar; [lra|exact Hz33]. }
  assert (H33 : bpow radix2 (-1000) <= / 2 * bpow radix2 (-33)).
  { change (/ 2) with (bpow radix2 (-1)). rewrite <- bpow_plus. apply bpow_le. lia. }
  pose proof (bpow_gt_0 radix2 (-33)) as Hp33.
  assert (H60 : 4 <= bpow radix2 60) by (change 4 with (bpow radix2 2); apply bpow_le; lia).
  set (w := cp_div C (b64_of_Z 1) (b64_of_Z z)) in *. unfold Rdiv in HD. rewrite Rmult_1_l in HD.
  set (i := / IZR z) in *.
  pose proof (bpow_gt_0 radix2 (-1000)) as Hp1000.
  assert (Hi0 : 0 < i) by lra.
  assert (Hui : 0 <= u64 * i) by (apply Rmult_le_pos; lra).
  assert (Huu : u64 * i <= / 65536 * i) by (apply Rmult_le_compat_r; lra).
  destruct HD as [HD|(k & Hk & HD)].
  - destruct (op_rel flush i w) as [Fw Ew]; [rewrite Rabs_pos_eq by lra; lra|exact HD|].
    rewrite (Rabs_pos_eq i) in Ew by lra. split; [apply ffin_lit, Fw|lra].
  - destruct (op_rel flush i k) as [Fk Ek]; [rewrite Rabs_pos_eq by lra; lra|exact Hk|].
    rewrite (Rabs_pos_eq i) in Ek by lra. specialize (HD Fk). rewrite Rmult_1_l in HD.
    assert (Hkr : / 2 * i <= sv k <= 2 * i) by (apply Rabs_le_inv in Ek; lra).
    destruct (op_rel flush (sv k) w) as [Fw Ew]; [rewrite Rabs_pos_eq by lra; lra|exact HD|].
    rewrite (Rabs_pos_eq (sv k)) in Ew by lra. split; [apply ffin_lit, Fw|].
    replace (sv w - i) with ((sv w - sv k) + (sv k - i)) by ring. eapply Rle_trans; [apply Rabs_triang|].
    assert (u64 * sv k <= u64 * (2 * i)) by (apply Rmult_le_compat_l; lra). lra.
Qed.

(** c*x1*y1 plus or minus c*x2*y2 *)
Lemma fast_pair (s : bool) c x1 y1 x2 y2 : ffin C c -> ffin C x1 -> ffin C y1 -> ffin C x2 -> ffin C y2 ->
  Rabs (fval C c) <= 4 -> Rabs (fval C x1) <= 4 -> Rabs (fval C y1) <= 4 -> Rabs (fval C x2) <= 4 -> Rabs (fval C y2) <= 4 ->
  let t := [TProd false (pick [TProd false (pick c) (pick x1)]) (pick y1); TProd s (pick [TProd false (pick c) (pick x2)]) (pick y2)] in
  ffin C t /\ Rabs (fval C t - (fval C c * fval C x1 * fval C y1 + sg s (fval C c * fval C x2 * fval C y2)))
    <= 6 * fu * (Rabs (fval C c * fval C x1 * fval C y1) + Rabs (fval C c * fval C x2 * fval C y2)) + feta.
Proof.
  intros [_ Fc] [_ F1] [_ G1] [_ F2] [_ G2] Hc H1 K1 H2 K2 t.
  pose proof u64_pos as Hu. pose proof u64_small as Hus. pose proof eta0_pos as He.
  assert (He1 : eta0 <= / 65536).
  { unfold eta0. change (/ 65536) with (bpow radix2 (-16)). apply bpow_le. lia. }
  assert (HM : forall x y, is_finite (pick x) = true -> Rabs (fval C x) <= 4 -> Rabs (fval C y) <= 4 ->
    let m := pick [TProd false (pick c) (pick x)] in is_finite m = true /\
    Rabs (sv m * fval C y - fval C c * fval C x * fval C y) <= u64 * Rabs (fval C c * fval C x * fval C y) + 4 * eta0 /\
    Rabs (fval C c * fval C x * fval C y) <= 64).
  { intros x y Fx Hx Hy m.
    pose proof (cp_sum_ok C [TProd false (pick c) (pick x)] ltac:(discriminate)) as HE.
    pose proof (single_prod C _ _ HE _ _ _ eq_refl Fc Fx) as HO. fold m in HO. cbn [sg] in HO. fold (fval C c) (fval C x) in HO.
    assert (Hcx : Rabs (fval C c * fval C x) <= 16).
    { rewrite Rabs_mult. replace 16 with (4 * 4) by ring. apply Rmult_le_compat; auto using Rabs_pos. }
    destruct (op_err flush _ m ltac:(eapply Rle_trans; [exact Hcx|]; change 16 with (bpow radix2 4); apply bpow_le; lia) HO) as [Fm Em].
    split; [exact Fm|]. split.
    - rewrite <- Rmult_minus_distr_r, !(Rabs_mult _ (fval C y)).
      apply Rle_trans with ((u64 * Rabs (fval C c * fval C x) + eta0) * Rabs (fval C y)).
      + apply Rmult_le_compat_r; [apply Rabs_pos|exact Em].
      + rewrite Rmult_plus_distr_r, Rmult_assoc. apply Rplus_le_compat_l. rewrite (Rmult_comm 4).
        apply Rmult_le_compat_l; lra.
    - rewrite Rabs_mult. replace 64 with (16 * 4) by ring. apply Rmult_le_compat; auto using Rabs_pos. }
  destruct (HM x1 y1 F1 H1 K1) as (M1 & E1 & B1). destruct (HM x2 y2 F2 H2 K2) as (M2 & E2 & B2).
  set (m1 := pick [TProd false (pick c) (pick x1)]) in *. set (m2 := pick [TProd false (pick c) (pick x2)]) in *.
  set (A1 := fval C c * fval C x1 * fval C y1) in *. set (A2 := fval C c * fval C x2 * fval C y2) in *.
  set (P1 := sv m1 * fval C y1) in *. set (P2 := sv m2 * fval C y2) in *.
  pose proof (Rabs_pos A1) as Z1. pose proof (Rabs_pos A2) as Z2.
  assert (HT : forall a b d, Rabs (a - b) <= d -> Rabs a <= Rabs b + d).
  { intros a b d H. replace a with ((a - b) + b) by ring. eapply Rle_trans; [apply Rabs_triang|]. lra. }
  pose proof (HT _ _ _ E1) as D1. pose proof (HT _ _ _ E2) as D2.
  assert (Hls : lsum flush t = P1 + sg s P2) by (unfold t; cbn [lsum fold_right tval sg]; fold (fval C y1) (fval C y2); fold P1 P2; ring).
  assert (Hla : labs flush t = Rabs P1 + Rabs P2).
  { unfold t. cbn [labs fold_right tval sg]. fold (fval C y1) (fval C y2). fold P1 P2. rewrite sg_abs. ring. }
  assert (U1 : 0 <= u64 * Rabs A1 <= / 65536 * Rabs A1) by (split; [apply Rmult_le_pos|apply Rmult_le_compat_r]; lra).
  assert (U2 : 0 <= u64 * Rabs A2 <= / 65536 * Rabs A2) by (split; [apply Rmult_le_pos|apply Rmult_le_compat_r]; lra).
  destruct (pick_err C t) as [Ft Et].
  - discriminate.
  - unfold t. repeat constructor; auto.
  - unfold t. cbn [List.length]. lia.
  - rewrite Hla. apply Rle_trans with (bpow radix2 10); [change (bpow radix2 10) with 1024; lra|apply bpow_le; lia].
  - split; [exact Ft|]. change (List.length t) with 2%nat in Et. rewrite Hls, Hla in Et.
    unfold eb in Et. replace (INR 2) with 2 in Et by (simpl; ring). rewrite fu_u64, feta_eta0.
    set (q := (1 + u64) ^ 2) in *.
    assert (Hq : 1 <= q <= 1 + 3 * u64).
    { unfold q. cbn [pow]. assert (u64 * u64 <= u64 * / 65536) by (apply Rmult_le_compat_l; lra).
      assert (0 <= u64 * u64) by (apply Rmult_le_pos; lra). lra. }
    assert (Q1 : (q - 1) * (Rabs P1 + Rabs P2) <= 3 * u64 * (2 * Rabs A1 + 2 * Rabs A2 + 8 * eta0)).
    { pose proof (Rabs_pos P1). pose proof (Rabs_pos P2). apply Rmult_le_compat; lra. }
    assert (Q2 : q * ((2 * 2 - 1) * eta0) <= 2 * (3 * eta0)) by (apply Rmult_le_compat; lra).
    assert (Q3 : u64 * eta0 <= / 65536 * eta0) by (apply Rmult_le_compat_r; lra).
    assert (Q4 : Rabs (sg s P2 - sg s A2) <= u64 * Rabs A2 + 4 * eta0).
    { replace (sg s P2 - sg s A2) with (sg s (P2 - A2)) by (destruct s; simpl; ring). rewrite sg_abs. exact E2. }
    replace (fval C t - (A1 + sg s A2)) with ((fval C t - (P1 + sg s P2)) + ((P1 - A1) + (sg s P2 - sg s A2))) by ring.
    eapply Rle_trans; [apply Rabs_triang|]. eapply Rle_trans; [apply Rplus_le_compat_l, Rabs_triang|].
    rewrite !Rmult_plus_distr_l in Q1 |- *. rewrite !Rmult_assoc in *. lra.
Qed.

Lemma fast_arith_fft : arith_fft FN (ffin C) (fval C) fu feta.
Proof.
  constructor.
  - exact fast_scale.
  - intros c xr xi yr yi Fc F1 F2 F3 F4 Hc H1 H2 H3 H4. exact (fast_pair true c xr yr xi yi Fc F1 F3 F2 F4 Hc H1 H3 H2 H4).
  - intros c xr xi yr yi Fc F1 F2 F3 F4 Hc H1 H2 H3 H4. exact (fast_pair false c xr yi xi yr Fc F1 F4 F2 F3 Hc H1 H4 H2 H3).
Qed.
End Inst.
