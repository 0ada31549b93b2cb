(** * AccMnsEval: rounding error of evaluating a polynomial in long double. *)
From Coquelicot Require Import Coquelicot.
From Flocq Require Import Core.Core IEEE754.BinarySingleNaN.
From Coq Require Import ZArith Reals List Bool Lia Lra Factorial.
From Verif Require Import Base Num RSum Binary64 B64Round LongDouble LdRound Ecdf1Mns MnsErr MnsRun.
Local Open Scope R_scope.

(** What is assumed of the C library: relative errors of at most eps, up to underflow. *)
Record libml_accurate (M : libml) (eps : R) : Prop := {
  accl_pow : forall (x : f80) (i : Z), is_finite x = true -> 0 <= B2R x <= 1 -> (0 <= i)%Z ->
    is_finite (lm_powl M x i) = true /\
    Rabs (B2R (lm_powl M x i) - B2R x ^ Z.to_nat i) <= eps * B2R x ^ Z.to_nat i + bpow radix2 (-16445);
  accl_log : forall x : f80, is_finite x = true -> 0 < B2R x ->
    is_finite (lm_logl M x) = true /\ Rabs (B2R (lm_logl M x) - ln (B2R x)) <= eps * Rabs (ln (B2R x));
  accl_lgamma : forall k : Z, (1 <= k <= 2 ^ 31)%Z ->
    is_finite (lm_lgammal M k) = true /\
    Rabs (B2R (lm_lgammal M k) - ln (INR (fact (Z.to_nat (k - 1))))) <= eps * ln (INR (fact (Z.to_nat (k - 1))));
  accl_exp : forall x : f80, is_finite x = true -> B2R x <= 1 ->
    is_finite (lm_expl M x) = true /\
    Rabs (B2R (lm_expl M x) - exp (B2R x)) <= eps * exp (B2R x) + bpow radix2 (-16445)
}.

Lemma pow_near d D u i : 0 <= u -> 0 <= D -> 0 <= d -> Rabs (d - D) <= u * D -> 2 * INR i * u <= 1 ->
  Rabs (d ^ i - D ^ i) <= 2 * INR i * u * D ^ i.
Proof.
  intros Hu HD Hd Hdd. induction i as [|i IH]; intros Hi.
  - simpl. rewrite Rminus_diag_eq, Rabs_R0 by reflexivity. lra.
  - rewrite S_INR in Hi. pose proof (pos_INR i) as Hi0. specialize (IH ltac:(nra)).
    assert (HP : 0 <= D ^ i) by (apply pow_le; exact HD).
    simpl pow. replace (d * d ^ i - D * D ^ i) with (d * (d ^ i - D ^ i) + (d - D) * D ^ i) by ring.
    eapply Rle_trans; [apply Rabs_triang|]. rewrite !Rabs_mult, (Rabs_pos_eq d), (Rabs_pos_eq (D ^ i)) by assumption.
    assert (Hd1 : d <= (1 + u) * D) by (apply Rabs_le_inv in Hdd; lra).
    assert (H1 : d * Rabs (d ^ i - D ^ i) <= (1 + u) * D * (2 * INR i * u * D ^ i)).
    { apply Rmult_le_compat; [exact Hd|apply Rabs_pos|exact Hd1|exact IH]. }
    assert (H2 : Rabs (d - D) * D ^ i <= u * D * D ^ i) by (apply Rmult_le_compat_r; assumption).
    assert (H3 : 0 <= D * D ^ i) by (apply Rmult_le_pos; assumption).
    rewrite S_INR.
    assert (H4 : (1 + u) * D * (2 * INR i * u * D ^ i) + u * D * D ^ i = (2 * INR i * u * (1 + u) + u) * (D * D ^ i)) by ring.
    assert (H5 : 2 * INR i * u * (1 + u) + u <= 2 * (INR i + 1) * u) by nra.
    assert (H6 : (2 * INR i * u * (1 + u) + u) * (D * D ^ i) <= 2 * (INR i + 1) * u * (D * D ^ i)) by (apply Rmult_le_compat_r; assumption).
    lra.
Qed.

Section Eval.
Context (L : libm) (M : libml) (eps : R).
Notation LD := (x87 L M).
Hypothesis HM : libml_accurate M eps.
Hypothesis Heps : u80 <= eps.
Hypothesis Heps1 : eps <= bpow radix2 (-40).

Lemma eps0 : 0 < eps.
Proof. pose proof u80_pos. lra. Qed.
Lemma eps_40 : eps <= / 1099511627776.
Proof. exact Heps1. Qed.
Lemma u_64 : u80 <= / 1099511627776 * / 16777216.
Proof. unfold u80. simpl. lra. Qed.

(** one term *)
Lemma term_acc (mi x a : f80) (i : nat) (ms z : R) : is_finite mi = true -> is_finite x = true -> is_finite a = true ->
  0 <= B2R x + B2R a <= 1 -> INR i <= 4096 ->
  Rabs (B2R mi - ms) <= 2 * INR i * u80 * Rabs ms + 2 * INR i * z ->
  eta80 * Rabs ms <= z -> eta80 <= z -> z <= 1 -> Rabs ms <= bpow radix2 5000 ->
  let P := (B2R x + B2R a) ^ i in
  let t := Bmult mode_NE mi (lm_powl M (Bplus mode_NE x a) (Z.of_nat i)) in
  is_finite t = true /\ Rabs (B2R t - ms * P) <= (5 * INR i + 5) * eps * (Rabs ms * P) + (2 * INR i + 6) * z.
Proof.
  intros Fm Fx Fa HD Hi Hms Hz1 Hz2 Hz3 HB P t.
  pose proof eps0 as He0. pose proof eps_40 as He. pose proof u80_pos as Hu0. pose proof u_64 as Hu. pose proof eta80_pos as Ht0.
  pose proof (pos_INR i) as Hi0.
  set (D := B2R x + B2R a) in *.
  assert (Hbig : bpow radix2 5010 <= big80) by (apply bpow_le; lia).
  assert (H5 : bpow radix2 5010 = bpow radix2 5000 * 1024).
  { replace 5010%Z with (5000 + 10)%Z by reflexivity. rewrite bpow_plus. reflexivity. }
  assert (H5' : 1048576 <= bpow radix2 5000) by (change 1048576 with (bpow radix2 20); apply bpow_le; lia).
  set (big := bpow radix2 5000) in *. clearbody big.
  destruct (plus80 x a Fx Fa) as (Fd & Vd & Ed).
  { fold D. rewrite Rabs_pos_eq by lra. lra. }
  fold D in Vd, Ed. rewrite (Rabs_pos_eq D) in Ed by lra.
  set (d := Bplus mode_NE x a) in *.
  assert (Hd01 : 0 <= B2R d <= 1) by (rewrite Vd; apply rndl_between; [apply rndl_0|apply rndl_1|exact HD]).
  destruct (accl_pow M eps HM d (Z.of_nat i) Fd Hd01 ltac:(lia)) as [Fp Ep]. rewrite Nat2Z.id in Ep.
  set (p := lm_powl M d (Z.of_nat i)) in *. fold eta80 in Ep.
  assert (Hiu : 2 * INR i * u80 <= / 1000000) by nra.
  pose proof (pow_near (B2R d) D u80 i ltac:(lra) ltac:(lra) ltac:(lra) Ed ltac:(lra)) as HN.
  assert (HP0 : 0 <= P) by (apply pow_le; lra).
  assert (HP1 : P <= 1) by (unfold P; rewrite <- (pow1 i); apply pow_incr; lra).
  fold P in HN. set (a1 := 2 * INR i * u80) in *.
  assert (Ha1 : 0 <= a1) by (unfold a1; nra).
  assert (Hdi : B2R d ^ i <= (1 + a1) * P) by (apply Rabs_le_inv in HN; lra).
  assert (Hpw : Rabs (B2R p - P) <= (a1 + 11 / 10 * eps) * P + eta80).
  { replace (B2R p - P) with ((B2R p - B2R d ^ i) + (B2R d ^ i - P)) by ring.
    eapply Rle_trans; [apply Rabs_triang|].
    assert (eps * B2R d ^ i <= eps * ((1 + a1) * P)) by (apply Rmult_le_compat_l; lra).
    assert (0 <= eps * P) by (apply Rmult_le_pos; lra).
    assert (eps * ((1 + a1) * P) <= 11 / 10 * eps * P) by nra. lra. }
  set (q := a1 + 11 / 10 * eps) in *.
  assert (Hq0 : 0 <= q <= / 500000) by (unfold q; lra).
  assert (HIq : INR i * q <= / 100).
  { unfold q. rewrite Rmult_plus_distr_l. unfold a1. nra. }
  assert (Hz0 : 0 <= z) by lra.
  set (am := Rabs ms) in *. assert (Ham : 0 <= am) by apply Rabs_pos.
  assert (Hmi : Rabs (B2R mi) <= (1 + a1) * am + 2 * INR i * z).
  { replace (B2R mi) with ((B2R mi - ms) + ms) by ring. eapply Rle_trans; [apply Rabs_triang|]. fold am. fold a1 in Hms. lra. }
  fold a1 in Hms.
  assert (Heta1 : eta80 <= / 1000000).
  { apply Rle_trans with (bpow radix2 (-20)); [apply bpow_le; lia|simpl; lra]. }
  assert (HqP : 0 <= q * P <= q) by (split; nra).
  assert (Hx1 : 0 <= am * P) by (apply Rmult_le_pos; assumption).
  assert (HIz : 0 <= INR i * z) by (apply Rmult_le_pos; assumption).
  (* exact product *)
  assert (HE : Rabs (B2R mi * B2R p - ms * P) <= (21 / 10 * a1 + 12 / 10 * eps) * (am * P) + (2 * INR i + 3) * z).
  { replace (B2R mi * B2R p - ms * P) with (B2R mi * (B2R p - P) + (B2R mi - ms) * P) by ring.
    eapply Rle_trans; [apply Rabs_triang|]. rewrite !Rabs_mult, (Rabs_pos_eq P) by exact HP0.
    assert (H1 : Rabs (B2R mi) * Rabs (B2R p - P) <= ((1 + a1) * am + 2 * INR i * z) * (q * P + eta80)).
    { apply Rmult_le_compat; [apply Rabs_pos|apply Rabs_pos|exact Hmi|exact Hpw]. }
    assert (H2 : Rabs (B2R mi - ms) * P <= (a1 * am + 2 * INR i * z) * P) by (apply Rmult_le_compat_r; assumption).
    assert (H3 : ((1 + a1) * am + 2 * INR i * z) * (q * P + eta80) =
       (1 + a1) * q * (am * P) + (1 + a1) * (eta80 * am) + 2 * (INR i * (q * P)) * z + 2 * eta80 * (INR i * z)) by ring.
    assert (H4 : (1 + a1) * q * (am * P) <= (11 / 10 * a1 + 12 / 10 * eps) * (am * P)).
    { apply Rmult_le_compat_r; [exact Hx1|]. unfold q. nra. }
    assert (H6 : (1 + a1) * (eta80 * am) <= 11 / 10 * z).
    { assert (0 <= eta80 * am) by (apply Rmult_le_pos; lra). nra. }
    assert (H7 : 2 * (INR i * (q * P)) * z <= / 10 * z).
    { apply Rmult_le_compat_r; [exact Hz0|]. assert (INR i * (q * P) <= INR i * q) by (apply Rmult_le_compat_l; lra). lra. }
    assert (H8 : 2 * eta80 * (INR i * z) <= / 10 * z).
    { assert (eta80 * INR i <= / 1000000 * 4096) by (apply Rmult_le_compat; lra). 
      replace (2 * eta80 * (INR i * z)) with (2 * (eta80 * INR i) * z) by ring. apply Rmult_le_compat_r; lra. }
    assert (H9 : 2 * INR i * z * P <= 2 * INR i * z) by nra.
    assert (H10 : (a1 * am + 2 * INR i * z) * P = a1 * (am * P) + 2 * INR i * z * P) by ring.
    lra. }
  set (e1 := 21 / 10 * a1 + 12 / 10 * eps) in *.
  assert (He1 : 0 <= e1 <= / 10) by (unfold e1; lra).
  assert (Hpr : Rabs (B2R mi * B2R p) <= 2 * (am * P) + (2 * INR i + 3) * z).
  { replace (B2R mi * B2R p) with ((B2R mi * B2R p - ms * P) + ms * P) by ring.
    eapply Rle_trans; [apply Rabs_triang|]. rewrite (Rabs_mult ms), (Rabs_pos_eq P) by exact HP0. fold am.
    assert (e1 * (am * P) <= 1 * (am * P)) by (apply Rmult_le_compat_r; lra). lra. }
  destruct (mult80 mi p Fm Fp) as [Ft Et].
  { eapply Rle_trans; [exact Hpr|]. assert (am * P <= am * 1) by (apply Rmult_le_compat_l; lra).
    assert ((2 * INR i + 3) * z <= 8195 * 1) by (apply Rmult_le_compat; lra). lra. }
  fold t in Ft, Et. split; [exact Ft|].
  replace (B2R t - ms * P) with ((B2R t - B2R mi * B2R p) + (B2R mi * B2R p - ms * P)) by ring.
  eapply Rle_trans; [apply Rabs_triang|].
  assert (Hr1 : u80 * Rabs (B2R mi * B2R p) <= 2 * u80 * (am * P) + z).
  { apply Rle_trans with (u80 * (2 * (am * P) + (2 * INR i + 3) * z)); [apply Rmult_le_compat_l; lra|].
    assert (u80 * ((2 * INR i + 3) * z) <= z); [|lra].
    rewrite <- Rmult_assoc. rewrite <- (Rmult_1_l z) at 2. apply Rmult_le_compat_r; [exact Hz0|nra]. }
  assert (HF : (e1 + 2 * u80) * (am * P) <= (5 * INR i + 5) * eps * (am * P)).
  { apply Rmult_le_compat_r; [exact Hx1|]. unfold e1, a1. nra. }
  lra.
Qed.

(** the sum *)
Section Sum.
Variables (m a : nat -> f80) (x : f80) (ms z : nat -> R) (k : nat).
Notation P i := ((B2R x + B2R (a i)) ^ i).
Hypothesis Fx : is_finite x = true.
Hypothesis Fm : forall i, (i <= k)%nat -> is_finite (m i) = true.
Hypothesis Fa : forall i, (i <= k)%nat -> is_finite (a i) = true.
Hypothesis HD : forall i, (i <= k)%nat -> 0 <= B2R x + B2R (a i) <= 1.
Hypothesis Hk : (k <= 4096)%nat.
Hypothesis Hms : forall i, (i <= k)%nat -> Rabs (B2R (m i) - ms i) <= 2 * INR i * u80 * Rabs (ms i) + 2 * INR i * z i.
Hypothesis Hz1 : forall i, (i <= k)%nat -> eta80 * Rabs (ms i) <= z i.
Hypothesis Hz2 : forall i, (i <= k)%nat -> eta80 <= z i.
Hypothesis Hz3 : rsum (S k) z <= 1.
Hypothesis HB : rsum (S k) (fun i => Rabs (ms i)) <= bpow radix2 5000.

Lemma part_le (f : nat -> R) (j : nat) : (forall i, (i <= k)%nat -> 0 <= f i) -> (j <= S k)%nat -> rsum j f <= rsum (S k) f.
Proof.
  intros Hf Hj. replace (S k) with (j + (S k - j))%nat by lia. rewrite rsum_add.
  assert (0 <= rsum (S k - j) (fun i => f (j + i)%nat)) by (apply rsum_nonneg; intros; apply Hf; lia). lra.
Qed.
Lemma single_le (f : nat -> R) (j : nat) : (forall i, (i <= k)%nat -> 0 <= f i) -> (j <= k)%nat -> f j <= rsum (S k) f.
Proof.
  intros Hf Hj. pose proof (part_le f (S j) Hf ltac:(lia)) as H. rewrite rsum_S in H.
  assert (0 <= rsum j f) by (apply rsum_nonneg; intros; apply Hf; lia). lra.
Qed.

Lemma eval_acc : let r := @evalf (Bnum L) LD m a x (S k) in
  is_finite (r : f80) = true /\
  Rabs (B2R (r : f80) - rsum (S k) (fun i => ms i * P i)) <=
    7 * INR (S k) * eps * rsum (S k) (fun i => Rabs (ms i) * P i) + (3 * INR k + 7) * rsum (S k) z.
Proof.
  cbv zeta.
  pose proof eps0 as He0. pose proof eps_40 as He. pose proof u80_pos as Hu0. pose proof u_64 as Hu. pose proof eta80_pos as Ht0.
  assert (HkR : INR k <= 4096) by (change 4096 with (IZR (Z.of_nat 4096)); rewrite <- INR_IZR_INZ; apply le_INR; exact Hk).
  pose proof (pos_INR k) as Hk0.
  assert (HP : forall i, (i <= k)%nat -> 0 <= P i <= 1).
  { intros i Hi. pose proof (HD i Hi). split; [apply pow_le; lra|]. rewrite <- (pow1 i). apply pow_incr. lra. }
  assert (Hzp : forall i, (i <= k)%nat -> 0 <= z i) by (intros i Hi; pose proof (Hz2 i Hi); lra).
  assert (Habs : forall i, (i <= k)%nat -> 0 <= Rabs (ms i)) by (intros; apply Rabs_pos).
  assert (Hbig : bpow radix2 5010 <= big80) by (apply bpow_le; lia).
  assert (H5 : bpow radix2 5010 = bpow radix2 5000 * 1024).
  { replace 5010%Z with (5000 + 10)%Z by reflexivity. rewrite bpow_plus. reflexivity. }
  assert (H5' : 1048576 <= bpow radix2 5000) by (change 1048576 with (bpow radix2 20); apply bpow_le; lia).
  set (big := bpow radix2 5000) in *.
  enough (H : forall j, (j <= S k)%nat ->
    is_finite (@evalf (Bnum L) LD m a x j : f80) = true /\
    Rabs (B2R (@evalf (Bnum L) LD m a x j : f80) - rsum j (fun i => ms i * P i)) <=
      (5 * INR k + 5 + 2 * INR j) * eps * rsum j (fun i => Rabs (ms i) * P i) + (2 * INR k + 6 + INR j) * rsum j z).
  { destruct (H (S k) ltac:(lia)) as [H1 H2]. split; [exact H1|]. eapply Rle_trans; [exact H2|]. rewrite S_INR. apply Req_le. ring. }
  induction j as [|j IH]; intros Hj.
  - cbn [evalf rsum]. destruct (ofZ80 0 ltac:(lia)) as [F0 V0].
    change (@n0 (ld LD)) with (f80_of_Z 0). rewrite V0. split; [exact F0|]. rewrite Rminus_0_r, Rabs_R0. lra.
  - destruct (IH ltac:(lia)) as [Fr Er]. clear IH.
    assert (Hj' : (j <= k)%nat) by lia. assert (HjR : INR j <= INR k) by (apply le_INR; exact Hj'). pose proof (pos_INR j) as Hj0.
    assert (Hzj : z j <= 1) by (eapply Rle_trans; [apply (single_le z j Hzp Hj')|exact Hz3]).
    assert (Hmj : Rabs (ms j) <= big) by (eapply Rle_trans; [apply (single_le (fun i => Rabs (ms i)) j Habs Hj')|exact HB]).
    destruct (term_acc (m j) x (a j) j (ms j) (z j) (Fm j Hj') Fx (Fa j Hj') (HD j Hj') ltac:(lra) (Hms j Hj') (Hz1 j Hj') (Hz2 j Hj') Hzj Hmj) as [Ft Et].
    change (@evalf (Bnum L) LD m a x (S j)) with
      (Bplus mode_NE (@evalf (Bnum L) LD m a x j : f80) (Bmult mode_NE (m j) (lm_powl M (Bplus mode_NE x (a j)) (Z.of_nat j)))).
    set (t := Bmult mode_NE (m j) (lm_powl M (Bplus mode_NE x (a j)) (Z.of_nat j))) in *.
    set (r := @evalf (Bnum L) LD m a x j : f80) in *.
    rewrite !rsum_S. set (Sj := rsum j (fun i => ms i * P i)) in *. set (Aj := rsum j (fun i => Rabs (ms i) * P i)) in *.
    set (Zj := rsum j z) in *. set (aj := Rabs (ms j) * P j) in *.
    assert (HAj : 0 <= Aj) by (apply rsum_nonneg; intros i Hi; apply Rmult_le_pos; [apply Rabs_pos|apply HP; lia]).
    assert (Haj : 0 <= aj) by (apply Rmult_le_pos; [apply Rabs_pos|apply HP; lia]).
    assert (HZj : 0 <= Zj) by (apply rsum_nonneg; intros i Hi; apply Hzp; lia).
    pose proof (Hzp j Hj') as Hzj0.
    assert (HS : Rabs (Sj + ms j * P j) <= Aj + aj).
    { eapply Rle_trans; [apply Rabs_triang|]. apply Rplus_le_compat.
      - eapply Rle_trans; [apply rsum_abs|]. apply Req_le, rsum_ext. intros i Hi.
        rewrite Rabs_mult, (Rabs_pos_eq (P i)) by (apply HP; lia). reflexivity.
      - rewrite Rabs_mult, (Rabs_pos_eq (P j)) by (apply HP; lia). apply Rle_refl. }
    assert (HA1 : Aj + aj <= big).
    { eapply Rle_trans; [|exact HB]. apply Rle_trans with (rsum (S j) (fun i => Rabs (ms i))).
      - unfold Aj, aj. rewrite <- (rsum_S j (fun i => Rabs (ms i) * P i)). apply rsum_le. intros i Hi.
        pose proof (HP i ltac:(lia)). pose proof (Rabs_pos (ms i)). nra.
      - apply part_le; [exact Habs|lia]. }
    assert (HZ1 : Zj + z j <= 1).
    { eapply Rle_trans; [|exact Hz3]. unfold Zj. rewrite <- (rsum_S j z). apply part_le; [exact Hzp|lia]. }
    (* the two errors together *)
    assert (Hsum : Rabs (B2R r + B2R t - (Sj + ms j * P j)) <=
      (5 * INR k + 5 + 2 * INR j) * eps * (Aj + aj) + (2 * INR k + 6 + INR j) * (Zj + z j)).
    { replace (B2R r + B2R t - (Sj + ms j * P j)) with ((B2R r - Sj) + (B2R t - ms j * P j)) by ring.
      eapply Rle_trans; [apply Rabs_triang|].
      assert (H1 : (5 * INR j + 5) * eps * aj <= (5 * INR k + 5 + 2 * INR j) * eps * aj) by (apply Rmult_le_compat_r; [exact Haj|nra]).
      assert (H2 : (2 * INR j + 6) * z j <= (2 * INR k + 6 + INR j) * z j) by (apply Rmult_le_compat_r; lra).
      lra. }
    assert (Hc1 : 0 <= (5 * INR k + 5 + 2 * INR j) * eps <= / 100) by (split; nra).
    assert (Hrt : Rabs (B2R r + B2R t) <= 2 * (Aj + aj) + (2 * INR k + 6 + INR j) * (Zj + z j)).
    { replace (B2R r + B2R t) with ((B2R r + B2R t - (Sj + ms j * P j)) + (Sj + ms j * P j)) by ring.
      eapply Rle_trans; [apply Rabs_triang|].
      assert ((5 * INR k + 5 + 2 * INR j) * eps * (Aj + aj) <= 1 * (Aj + aj)) by (apply Rmult_le_compat_r; lra). lra. }
    assert (H6 : (2 * INR k + 6 + INR j) * (Zj + z j) <= 20000 * 1) by (apply Rmult_le_compat; lra).
    destruct (plus80 r t Fr Ft) as (Fs & _ & Es); [lra|]. split; [exact Fs|].
    replace (B2R (Bplus mode_NE r t) - (Sj + ms j * P j)) with
      ((B2R (Bplus mode_NE r t) - (B2R r + B2R t)) + (B2R r + B2R t - (Sj + ms j * P j))) by ring.
    eapply Rle_trans; [apply Rabs_triang|]. rewrite S_INR.
    assert (H8 : u80 * Rabs (B2R r + B2R t) <= 2 * eps * (Aj + aj) + (Zj + z j)).
    { apply Rle_trans with (u80 * (2 * (Aj + aj) + (2 * INR k + 6 + INR j) * (Zj + z j))); [apply Rmult_le_compat_l; lra|].
      assert (u80 * (2 * (Aj + aj)) <= eps * (2 * (Aj + aj))) by (apply Rmult_le_compat_r; lra).
      assert (u80 * (2 * INR k + 6 + INR j) * (Zj + z j) <= 1 * (Zj + z j)) by (apply Rmult_le_compat_r; [lra|nra]). lra. }
    lra.
Qed.
End Sum.
End Eval.
