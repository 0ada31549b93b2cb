(** * FastMnsEval: rounding error of evaluating a polynomial in long double under -ffast-math. *)
From Coquelicot Require Import Coquelicot.
From Flocq Require Import Core.Core IEEE754.BinarySingleNaN.
From Coq Require Import ZArith Reals List Bool Lia Lra Factorial Permutation.
From Verif Require Import Base Num RSum Binary64 B64Round LongDouble LdRound Ecdf1Mns MnsErr MnsRun AccMnsEval FastMath FastLong FastMnsSum.
Import List. Import ListNotations.
Local Open Scope R_scope.

Section Eval.
Context (C : compiler) (L : libm) (D : lcompiler) (M : libml) (eps : R).
Notation LD := (fast87 C L D M).
Notation ls := (lc_sum D).
Hypothesis HM : libml_accurate M eps.
Hypothesis Heps : u80 <= eps.
Hypothesis Heps1 : eps <= bpow radix2 (-40).

(** one term, d being the evaluated x + a *)
Lemma term_fast (mi d : f80) (i : nat) (DD ms z : R) : is_finite mi = true -> is_finite d = true ->
  0 <= DD <= 1 -> B2R d = rndl DD -> Rabs (B2R d - DD) <= u80 * DD -> INR i <= 4096 ->
  Rabs (B2R mi - ms) <= 3 * INR i * u80 * Rabs ms + 3 * INR i * z ->
  eta80 * Rabs ms <= z -> eta80 <= z -> z <= 1 -> Rabs ms <= bpow radix2 5000 ->
  let P := DD ^ i in
  let t := Bmult mode_NE mi (lm_powl M d (Z.of_nat i)) in
  is_finite t = true /\ Rabs (B2R t - ms * P) <= (26 / 5 * INR i + 16 / 5) * eps * (Rabs ms * P) + (3 * INR i + 6) * z.
Proof.
  intros Fm Fd HD Vd Ed Hi Hms Hz1 Hz2 Hz3 HB P t.
  pose proof (eps0 eps Heps) as He0. pose proof (eps_40 eps Heps1) as He. pose proof u80_pos as Hu0. pose proof u_64 as Hu. pose proof eta80_pos as Ht0.
  pose proof (pos_INR i) as Hi0.
  assert (Hbig : bpow radix2 5010 <= big80) by (apply bpow_le; lia).
  assert (H5 : bpow radix2 5010 = bpow radix2 5000 * 1024).
  { replace 5010%Z with (5000 + 10)%Z by reflexivity. rewrite bpow_plus. reflexivity. }
  assert (H5' : 1048576 <= bpow radix2 5000) by (change 1048576 with (bpow radix2 20); apply bpow_le; lia).
  set (big := bpow radix2 5000) in *. clearbody big.
  assert (Hd01 : 0 <= B2R d <= 1) by (rewrite Vd; apply rndl_between; [apply rndl_0|apply rndl_1|exact HD]).
  destruct (accl_pow M eps HM d (Z.of_nat i) Fd Hd01 ltac:(lia)) as [Fp Ep]. rewrite Nat2Z.id in Ep.
  set (p := lm_powl M d (Z.of_nat i)) in *. fold eta80 in Ep.
  assert (Hiu : 2 * INR i * u80 <= / 1000000) by nra.
  pose proof (pow_near (B2R d) DD u80 i ltac:(lra) ltac:(lra) ltac:(lra) Ed ltac:(lra)) as HN.
  assert (HP0 : 0 <= P) by (apply pow_le; lra).
  assert (HP1 : P <= 1) by (unfold P; rewrite <- (pow1 i); apply pow_incr; lra).
  fold P in HN. set (a1 := 2 * INR i * u80) in *.
  assert (Ha1 : 0 <= a1) by (unfold a1; nra).
  assert (Hdi : B2R d ^ i <= (1 + a1) * P) by (apply Rabs_le_inv in HN; lra).
  assert (Hpw : Rabs (B2R p - P) <= (a1 + 11 / 10 * eps) * P + eta80).
  { replace (B2R p - P) with ((B2R p - B2R d ^ i) + (B2R d ^ i - P)) by ring.
    eapply Rle_trans; [apply Rabs_triang|].
    assert (eps * B2R d ^ i <= eps * ((1 + a1) * P)) by (apply Rmult_le_compat_l; lra).
    assert (0 <= eps * P) by (apply Rmult_le_pos; lra).
    assert (eps * ((1 + a1) * P) <= 11 / 10 * eps * P) by nra. lra. }
  set (q := a1 + 11 / 10 * eps) in *.
  assert (Hq0 : 0 <= q <= / 500000) by (unfold q; lra).
  assert (HIq : INR i * q <= / 100).
  { unfold q. rewrite Rmult_plus_distr_l. unfold a1. nra. }
  assert (Hz0 : 0 <= z) by lra.
  set (am := Rabs ms) in *. assert (Ham : 0 <= am) by apply Rabs_pos.
  replace (3 * INR i * u80) with (3 / 2 * a1) in Hms by (unfold a1; field).
  assert (Hmi : Rabs (B2R mi) <= (1 + 3 / 2 * a1) * am + 3 * INR i * z).
  { replace (B2R mi) with ((B2R mi - ms) + ms) by ring. eapply Rle_trans; [apply Rabs_triang|]. fold am. lra. }
  assert (Heta1 : eta80 <= / 1000000).
  { apply Rle_trans with (bpow radix2 (-20)); [apply bpow_le; lia|simpl; lra]. }
  assert (HqP : 0 <= q * P <= q) by (split; nra).
  assert (Hx1 : 0 <= am * P) by (apply Rmult_le_pos; assumption).
  assert (HIz : 0 <= INR i * z) by (apply Rmult_le_pos; assumption).
  (* exact product *)
  assert (HE : Rabs (B2R mi * B2R p - ms * P) <= (26 / 10 * a1 + 12 / 10 * eps) * (am * P) + (3 * INR i + 3) * z).
  { replace (B2R mi * B2R p - ms * P) with (B2R mi * (B2R p - P) + (B2R mi - ms) * P) by ring.
    eapply Rle_trans; [apply Rabs_triang|]. rewrite !Rabs_mult, (Rabs_pos_eq P) by exact HP0.
    assert (H1 : Rabs (B2R mi) * Rabs (B2R p - P) <= ((1 + 3 / 2 * a1) * am + 3 * INR i * z) * (q * P + eta80)).
    { apply Rmult_le_compat; [apply Rabs_pos|apply Rabs_pos|exact Hmi|exact Hpw]. }
    assert (H2 : Rabs (B2R mi - ms) * P <= (3 / 2 * a1 * am + 3 * INR i * z) * P) by (apply Rmult_le_compat_r; assumption).
    assert (H3 : ((1 + 3 / 2 * a1) * am + 3 * INR i * z) * (q * P + eta80) =
       (1 + 3 / 2 * a1) * q * (am * P) + (1 + 3 / 2 * a1) * (eta80 * am) + 3 * (INR i * (q * P)) * z + 3 * eta80 * (INR i * z)) by ring.
    assert (H4 : (1 + 3 / 2 * a1) * q * (am * P) <= (11 / 10 * a1 + 12 / 10 * eps) * (am * P)).
    { apply Rmult_le_compat_r; [exact Hx1|]. unfold q. nra. }
    assert (H6 : (1 + 3 / 2 * a1) * (eta80 * am) <= 11 / 10 * z).
    { assert (0 <= eta80 * am) by (apply Rmult_le_pos; lra). nra. }
    assert (H7 : 3 * (INR i * (q * P)) * z <= / 10 * z).
    { apply Rmult_le_compat_r; [exact Hz0|]. assert (INR i * (q * P) <= INR i * q) by (apply Rmult_le_compat_l; lra). lra. }
    assert (H8 : 3 * eta80 * (INR i * z) <= / 10 * z).
    { assert (eta80 * INR i <= / 1000000 * 4096) by (apply Rmult_le_compat; lra). 
      replace (3 * eta80 * (INR i * z)) with (3 * (eta80 * INR i) * z) by ring. apply Rmult_le_compat_r; lra. }
    assert (H9 : 3 * INR i * z * P <= 3 * INR i * z) by nra.
    assert (H10 : (3 / 2 * a1 * am + 3 * INR i * z) * P = 3 / 2 * a1 * (am * P) + 3 * INR i * z * P) by ring.
    lra. }
  set (e1 := 26 / 10 * a1 + 12 / 10 * eps) in *.
  assert (He1 : 0 <= e1 <= / 10) by (unfold e1; lra).
  assert (Hpr : Rabs (B2R mi * B2R p) <= 2 * (am * P) + (3 * INR i + 3) * z).
  { replace (B2R mi * B2R p) with ((B2R mi * B2R p - ms * P) + ms * P) by ring.
    eapply Rle_trans; [apply Rabs_triang|]. rewrite (Rabs_mult ms), (Rabs_pos_eq P) by exact HP0. fold am.
    assert (e1 * (am * P) <= 1 * (am * P)) by (apply Rmult_le_compat_r; lra). lra. }
  destruct (mult80 mi p Fm Fp) as [Ft Et].
  { eapply Rle_trans; [exact Hpr|]. assert (am * P <= am * 1) by (apply Rmult_le_compat_l; lra).
    assert ((3 * INR i + 3) * z <= 12291 * 1) by (apply Rmult_le_compat; lra). lra. }
  fold t in Ft, Et. split; [exact Ft|].
  replace (B2R t - ms * P) with ((B2R t - B2R mi * B2R p) + (B2R mi * B2R p - ms * P)) by ring.
  eapply Rle_trans; [apply Rabs_triang|].
  assert (Hr1 : u80 * Rabs (B2R mi * B2R p) <= 2 * u80 * (am * P) + z).
  { apply Rle_trans with (u80 * (2 * (am * P) + (3 * INR i + 3) * z)); [apply Rmult_le_compat_l; lra|].
    assert (u80 * ((3 * INR i + 3) * z) <= z); [|lra].
    rewrite <- Rmult_assoc. rewrite <- (Rmult_1_l z) at 2. apply Rmult_le_compat_r; [exact Hz0|nra]. }
  assert (HF : (e1 + 2 * u80) * (am * P) <= (26 / 5 * INR i + 16 / 5) * eps * (am * P)).
  { apply Rmult_le_compat_r; [exact Hx1|]. unfold e1, a1. assert (INR i * u80 <= INR i * eps) by (apply Rmult_le_compat_l; lra). lra. }
  lra.
Qed.

(** the sum *)
Section Sum.
Variables (m : nat -> list f80) (a : nat -> f80) (x : f80) (ms z : nat -> R) (k : nat).
Notation P i := ((B2R x + B2R (a i)) ^ i).
Hypothesis Fx : is_finite x = true.
Hypothesis Fm : forall i, (i <= k)%nat -> is_finite (ls (m i)) = true.
Hypothesis Fa : forall i, (i <= k)%nat -> is_finite (a i) = true.
Hypothesis HD : forall i, (i <= k)%nat -> 0 <= B2R x + B2R (a i) <= 1.
Hypothesis Hk : (k <= 4096)%nat.
Hypothesis Hms : forall i, (i <= k)%nat -> Rabs (B2R (ls (m i)) - ms i) <= 3 * INR i * u80 * Rabs (ms i) + 3 * INR i * z i.
Hypothesis Hz1 : forall i, (i <= k)%nat -> eta80 * Rabs (ms i) <= z i.
Hypothesis Hz2 : forall i, (i <= k)%nat -> eta80 <= z i.
Hypothesis Hz3 : rsum (S k) z <= 1.
Hypothesis HB : rsum (S k) (fun i => Rabs (ms i)) <= bpow radix2 5000.

Definition tm (i : nat) : f80 := Bmult mode_NE (ls (m i)) (lm_powl M (ls [x; a i]) (Z.of_nat i)).
Notation ev := (@evalf (Fnum C L) LD m (fun i => [a i]) [x]).

Lemma ev_S j : ev (S j) = ev j ++ [tm j].
Proof.
  cbn [evalf]. unfold tm. 
  change (@n_add (ld LD) (ev j) (@n_mul (ld LD) (m j) (@n_pow (ld LD) (@n_add (ld LD) [x] [a j]) (Z.of_nat j)))) with
    (ev j ++ [Bmult mode_NE (ls (m j)) (ls [lm_powl M (ls [x; a j]) (Z.of_nat j)])]).
  rewrite ls_one. reflexivity.
Qed.
Lemma ev_facts j : (j <= S k)%nat -> (forall i, (i <= k)%nat -> is_finite (tm i) = true) ->
  fins80 (ev j) /\ lsm (ev j) = rsum j (fun i => B2R (tm i)) /\ lab (ev j) = rsum j (fun i => Rabs (B2R (tm i))) /\
  List.length (ev j : list f80) = S j.
Proof.
  intros Hj HF. induction j as [|j IH].
  - cbn [evalf rsum]. change (@n0 (ld LD)) with [f80_of_Z 0]. destruct (ofZ80 0 ltac:(lia)) as [F0 V0].
    cbn [lsm lab fold_right List.length]. rewrite V0, Rabs_R0. split; [constructor; [exact F0|constructor]|].
    split; [simpl; ring|]. split; [simpl; ring|reflexivity].
  - destruct (IH ltac:(lia)) as (I1 & I2 & I3 & I4). rewrite ev_S, lsm_app, lab_app, app_length, !rsum_S, I2, I3, I4.
    cbn [lsm lab fold_right List.length]. split; [|split; [ring|split; [ring|lia]]].
    apply Forall_app. split; [exact I1|]. constructor; [apply HF; lia|constructor].
Qed.

Definition target : R := rsum (S k) (fun i => ms i * P i).
Definition within (v : R) : Prop :=
  Rabs v <= 7 * INR (S k) * eps * rsum (S k) (fun i => Rabs (ms i) * P i) + (3 * INR k + 7) * rsum (S k) z.

Lemma eval_fast : is_finite (ls (ev (S k))) = true /\ within (B2R (ls (ev (S k))) - target) /\
  is_finite (ls (map Bopp (ev (S k)))) = true /\ within (B2R (ls (map Bopp (ev (S k)))) + target).
Proof.
  pose proof (eps0 eps Heps) as He0. pose proof (eps_40 eps Heps1) as He. pose proof u80_pos as Hu0. pose proof u_64 as Hu. pose proof eta80_pos as Ht0.
  assert (HkR : INR k <= 4096) by (change 4096 with (IZR (Z.of_nat 4096)); rewrite <- INR_IZR_INZ; apply le_INR; exact Hk).
  pose proof (pos_INR k) as Hk0.
  assert (HP : forall i, (i <= k)%nat -> 0 <= P i <= 1).
  { intros i Hi. pose proof (HD i Hi). split; [apply pow_le; lra|]. rewrite <- (pow1 i). apply pow_incr. lra. }
  assert (Hzp : forall i, (i <= k)%nat -> 0 <= z i) by (intros i Hi; pose proof (Hz2 i Hi); lra).
  assert (Habs : forall i, (i <= k)%nat -> 0 <= Rabs (ms i)) by (intros; apply Rabs_pos).
  set (A := rsum (S k) (fun i => Rabs (ms i) * P i)). set (Z := rsum (S k) z) in *.
  assert (HA0 : 0 <= A) by (apply rsum_nonneg; intros i Hi; apply Rmult_le_pos; [apply Rabs_pos|apply HP; lia]).
  assert (HZ0 : 0 <= Z) by (apply rsum_nonneg; intros i Hi; apply Hzp; lia).
  assert (HAb : A <= bpow radix2 5000).
  { eapply Rle_trans; [|exact HB]. apply rsum_le. intros i Hi. pose proof (HP i ltac:(lia)). pose proof (Rabs_pos (ms i)). nra. }
  assert (HT : forall i, (i <= k)%nat -> is_finite (tm i) = true /\
     Rabs (B2R (tm i) - ms i * P i) <= (26 / 5 * INR k + 16 / 5) * eps * (Rabs (ms i) * P i) + (3 * INR k + 6) * z i).
  { intros i Hi. pose proof (HD i Hi) as Hd.
    assert (HiR : INR i <= INR k) by (apply le_INR; exact Hi). pose proof (pos_INR i) as Hi0.
    destruct (ls_two D x (a i) Fx (Fa i Hi)) as (F2 & V2 & E2).
    { rewrite Rabs_pos_eq by lra. unfold big80. apply Rle_trans with (bpow radix2 0); [simpl; lra|apply bpow_le; lia]. }
    rewrite (Rabs_pos_eq (B2R x + B2R (a i))) in E2 by lra.
    destruct (term_fast (ls (m i)) (ls [x; a i]) i (B2R x + B2R (a i)) (ms i) (z i)) as [Ft Et]; auto.
    - lra.
    - eapply Rle_trans; [apply (single_le k Hk z i Hzp Hi)|exact Hz3].
    - eapply Rle_trans; [apply (single_le k Hk (fun i => Rabs (ms i)) i Habs Hi)|exact HB].
    - cbv zeta in Ft, Et. fold (tm i) in Ft, Et. split; [exact Ft|]. eapply Rle_trans; [exact Et|].
      assert (0 <= Rabs (ms i) * P i) by (apply Rmult_le_pos; [apply Rabs_pos|apply HP; lia]). pose proof (Hzp i Hi).
      apply Rplus_le_compat; apply Rmult_le_compat_r; try assumption; [apply Rmult_le_compat_r; lra|lra]. }
  destruct (ev_facts (S k) (le_n _) (fun i Hi => proj1 (HT i Hi))) as (F1 & F2 & F3 & F4).
  set (l := ev (S k) : list f80) in *.
  set (c1 := (26 / 5 * INR k + 16 / 5) * eps) in *.
  assert (Hc1 : 0 <= c1 <= / 100) by (unfold c1; split; nra).
  assert (HS : Rabs (lsm l - target) <= c1 * A + (3 * INR k + 6) * Z).
  { rewrite F2. unfold target. rewrite <- rsum_minus. eapply Rle_trans; [apply rsum_abs|].
    unfold A, Z. rewrite <- !rsum_scal, <- rsum_plus. apply rsum_le. intros i Hi. apply HT. lia. }
  assert (HL : lab l <= 11 / 10 * A + (3 * INR k + 6) * Z).
  { apply Rle_trans with ((1 + c1) * A + (3 * INR k + 6) * Z); [|apply Rplus_le_compat_r, Rmult_le_compat_r; lra].
    rewrite F3. unfold A, Z. rewrite <- !rsum_scal, <- rsum_plus. apply rsum_le. intros i Hi.
    destruct (HT i ltac:(lia)) as [_ E]. 
    replace (B2R (tm i)) with ((B2R (tm i) - ms i * P i) + ms i * P i) by ring. eapply Rle_trans; [apply Rabs_triang|].
    rewrite (Rabs_mult (ms i)), (Rabs_pos_eq (P i)) by (apply HP; lia). lra. }
  assert (HZ6 : (3 * INR k + 6) * Z <= 12294 * 1) by (apply Rmult_le_compat; lra).
  assert (HLb : lab l <= bpow radix2 5020).
  { eapply Rle_trans; [exact HL|]. replace 5020%Z with (5000 + 20)%Z by reflexivity. rewrite bpow_plus.
    assert (1 <= bpow radix2 5000) by (change 1 with (bpow radix2 0); apply bpow_le; lia).
    change (bpow radix2 20) with 1048576. lra. }
  assert (HlZ : (Z.of_nat (S (S k)) <= 2 ^ 20)%Z) by lia.
  assert (HR : 11 / 10 * (INR (S (S k)) * u80) * lab l <= 5 / 4 * (INR k + 2) * eps * A + Z).
  { replace (INR (S (S k))) with (INR k + 2) by (rewrite !S_INR; ring).
    apply Rle_trans with (11 / 10 * ((INR k + 2) * u80) * (11 / 10 * A + (3 * INR k + 6) * Z)).
    - apply Rmult_le_compat_l; [nra|exact HL].
    - assert (U1 : (INR k + 2) * u80 <= (INR k + 2) * eps) by (apply Rmult_le_compat_l; lra).
      assert (U2 : (INR k + 2) * u80 <= / 1000000000) by nra.
      assert (U3 : 0 <= (INR k + 2) * u80) by (apply Rmult_le_pos; lra).
      assert (V1 : (INR k + 2) * u80 * A <= (INR k + 2) * eps * A) by (apply Rmult_le_compat_r; assumption).
      assert (V2 : (INR k + 2) * u80 * (3 * INR k + 6) <= / 1000000000 * 20000) by (apply Rmult_le_compat; lra).
      assert (V3 : (INR k + 2) * u80 * (3 * INR k + 6) * Z <= / 1000000000 * 20000 * Z) by (apply Rmult_le_compat_r; assumption).
      assert (V0 : 0 <= (INR k + 2) * eps * A) by (apply Rmult_le_pos; [apply Rmult_le_pos; lra|exact HA0]).
      replace (11 / 10 * ((INR k + 2) * u80) * (11 / 10 * A + (3 * INR k + 6) * Z)) with
        (121 / 100 * ((INR k + 2) * u80 * A) + 11 / 10 * ((INR k + 2) * u80 * (3 * INR k + 6) * Z)) by field. lra. }
  assert (HW : forall v e, Rabs v <= c1 * A + (3 * INR k + 6) * Z -> Rabs e <= 11 / 10 * (INR (S (S k)) * u80) * lab l -> within (v + e)).
  { intros v e Hv He'. unfold within. fold A Z. eapply Rle_trans; [apply Rabs_triang|].
    assert (c1 * A + 5 / 4 * (INR k + 2) * eps * A <= 7 * INR (S k) * eps * A).
    { rewrite <- Rmult_plus_distr_r. apply Rmult_le_compat_r; [exact HA0|]. unfold c1. rewrite S_INR.
      replace ((26 / 5 * INR k + 16 / 5) * eps + 5 / 4 * (INR k + 2) * eps) with ((129 / 20 * INR k + 57 / 10) * eps) by field.
      apply Rmult_le_compat_r; lra. }
    lra. }
  assert (ML : List.length (map Bopp l) = S (S k)) by (rewrite map_length; exact F4).
  destruct (sum_err D l) as [G1 G2]; [destruct l; [discriminate|discriminate]|exact F1|rewrite F4; exact HlZ|exact HLb|].
  destruct (sum_err D (map Bopp l)) as [G3 G4].
  - destruct l; discriminate.
  - apply fins_opp, F1.
  - exact (eq_ind_r (fun q => (Z.of_nat q <= 2 ^ 20)%Z) HlZ ML).
  - rewrite lab_opp. exact HLb.
  - rewrite F4 in G2.
    assert (G5 : Rabs (B2R (ls (map Bopp l)) - - lsm l) <= 11 / 10 * (INR (S (S k)) * u80) * lab l).
    { rewrite <- ML, <- lsm_opp, <- lab_opp. exact G4. }
    split; [exact G1|]. split; [|split; [exact G3|]].
    + replace (B2R (ls l) - target) with ((lsm l - target) + (B2R (ls l) - lsm l)) by ring. apply HW; assumption.
    + replace (B2R (ls (map Bopp l)) + target) with (- (lsm l - target) + (B2R (ls (map Bopp l)) - - lsm l)) by ring.
      apply HW; [rewrite Rabs_Ropp|]; assumption.
Qed.
End Sum.
End Eval.
