(** * BjSearch: the binary search of benchmarks/exactbj.py in binary64. *)
From Coquelicot Require Import Coquelicot.
From Flocq Require Import Core.Core IEEE754.BinarySingleNaN.
From Coq Require Import ZArith Reals List Bool Lia Lra String Permutation Sorted.
From Verif Require Import Base Num Common Ecdf1New Cli Binary64 Binary64Facts Binary64Main B64Round SafeFft ExactBj.
Import List. Import ListNotations.
Local Open Scope R_scope.

(** k / 2^i *)
Definition dy (k i : Z) : R := IZR k * bpow radix2 (- i).

Lemma dy_shift k i : dy (2 * k) (i + 1) = dy k i.
Proof. unfold dy. replace (- i)%Z with (- (i + 1) + 1)%Z by lia. rewrite bpow_plus, mult_IZR. change (bpow radix2 1) with (IZR 2). ring. Qed.
Lemma dy_lt k k' i : (k < k')%Z -> dy k i < dy k' i.
Proof. intros H. unfold dy. apply Rmult_lt_compat_r; [apply bpow_gt_0|apply IZR_lt; exact H]. Qed.
Lemma dy_le k k' i : (k <= k')%Z -> dy k i <= dy k' i.
Proof. intros H. unfold dy. apply Rmult_le_compat_r; [apply bpow_ge_0|apply IZR_le; exact H]. Qed.
Lemma dy_inj k k' i : dy k i = dy k' i -> k = k'.
Proof.
  intros H. destruct (Z.lt_trichotomy k k') as [L|[L|L]]; auto; pose proof (dy_lt _ _ i L); lra.
Qed.
Lemma dy_half k i : dy k (i + 1) = dy k i / 2.
Proof. rewrite <- (dy_shift k i). unfold dy. rewrite mult_IZR. field. Qed.
Lemma dy_pow t i : (0 <= t)%Z -> dy (2 ^ t) i = bpow radix2 (t - i).
Proof.
  intros H. unfold dy. change (2 ^ t)%Z with (Zpower radix2 t). rewrite IZR_Zpower by exact H. rewrite <- bpow_plus. f_equal; lia.
Qed.
Lemma dy_format k i : (0 <= i <= 1000)%Z -> (Z.abs k <= 2 ^ 53)%Z -> rnd (dy k i) = dy k i.
Proof.
  intros Hi Hk. destruct (Z.eq_dec (Z.abs k) (2 ^ 53)) as [He|Hn].
  - assert (Hk' : k = (2 ^ 53)%Z \/ k = (- 2 ^ 53)%Z) by lia. destruct Hk' as [->| ->].
    + rewrite dy_pow by lia. apply bpow_format. lia.
    + replace (dy (- 2 ^ 53) i) with (- dy (2 ^ 53) i) by (unfold dy; rewrite opp_IZR; ring).
      rewrite rnd_opp, dy_pow, bpow_format by lia. reflexivity.
  - apply round_generic; auto with typeclass_instances.
    change (SpecFloat.fexp 53 1024) with (FLT_exp (-1074) 53). apply generic_format_FLT.
    exists (Float radix2 k (- i)); simpl; try lia. reflexivity.
Qed.

(** Doubles from 2^(52-i) on are multiples of 2^-i. *)
Lemma multiple (y : f64) i : bpow radix2 (52 - i) <= B2R y -> exists m, B2R y = dy m i.
Proof.
  intros H. pose proof (generic_format_B2R 53 1024 y) as G. change (SpecFloat.fexp 53 1024) with (FLT_exp (-1074) 53) in G.
  assert (Hp : 0 < B2R y) by (pose proof (bpow_gt_0 radix2 (52 - i)); lra).
  rewrite G. set (m := Ztrunc (scaled_mantissa radix2 (FLT_exp (-1074) 53) (B2R y))). set (e := cexp radix2 (FLT_exp (-1074) 53) (B2R y)).
  assert (He : (- i <= e)%Z).
  { unfold e, cexp, FLT_exp. assert (52 - i + 1 <= mag radix2 (B2R y))%Z; [|lia].
    apply mag_ge_bpow. rewrite Rabs_pos_eq by lra. replace (52 - i + 1 - 1)%Z with (52 - i)%Z by lia. exact H. }
  exists (m * 2 ^ (e + i))%Z. unfold dy, F2R. cbn [Fnum Fexp]. rewrite mult_IZR.
  change (2 ^ (e + i))%Z with (Zpower radix2 (e + i)). rewrite IZR_Zpower by lia.
  rewrite Rmult_assoc, <- bpow_plus. do 2 f_equal. lia.
Qed.
Lemma no_double_between (lo hi z : f64) k i : (2 ^ 52 <= k)%Z -> B2R lo = dy k i -> B2R hi = dy (k + 1) i ->
  ~ (B2R lo < B2R z < B2R hi).
Proof.
  intros Hk E1 E2 (H1 & H2). destruct (multiple z i) as (m & Em).
  { rewrite <- dy_pow by lia. rewrite E1 in H1. pose proof (dy_le _ _ i Hk). lra. }
  rewrite E1, Em in H1. rewrite E2, Em in H2.
  assert (k < m)%Z by (apply Znot_ge_lt; intros G; pose proof (dy_le m k i ltac:(lia)); lra).
  pose proof (dy_le (k + 1) m i ltac:(lia)). lra.
Qed.

Section Search.
Context (L : libm).
Notation BN := (Bnum L).

Definition midpoint (low high : f64) : f64 := Bdiv mode_NE (Bplus mode_NE low high) (b64_of_Z 2).

Lemma mid_sum (low high : f64) s i : is_finite low = true -> is_finite high = true -> (0 <= i <= 500)%Z -> (0 <= s <= 2 ^ 53)%Z ->
  rnd (B2R low + B2R high) = dy s i -> dy s i <= bpow radix2 60 ->
  is_finite (midpoint low high) = true /\ B2R (midpoint low high) = dy s (i + 1).
Proof.
  intros F1 F2 Hi Hs HS HB. unfold midpoint.
  assert (Hd : 0 <= dy s i) by (unfold dy; apply Rmult_le_pos; [apply IZR_le; lia|apply bpow_ge_0]).
  assert (HP : is_finite (Bplus mode_NE low high) = true /\ B2R (Bplus mode_NE low high) = dy s i).
  { pose proof (Bplus_correct 53 1024 prec_ok emax_ok mode_NE low high F1 F2) as H. cbn [round_mode] in H.
    rewrite HS in H. rewrite Rlt_bool_true in H; [tauto|]. rewrite Rabs_pos_eq by exact Hd.
    eapply Rle_lt_trans; [exact HB|]. apply bpow_lt. lia. }
  destruct HP as (Fp & Vp). destruct (of_Z_ok 2) as (_ & V2); [lia|].
  assert (H2 : B2R (b64_of_Z 2) <> 0) by (rewrite V2; lra).
  pose proof (Bdiv_correct 53 1024 prec_ok emax_ok mode_NE (Bplus mode_NE low high) (b64_of_Z 2) H2) as H. cbn [round_mode] in H.
  rewrite Vp, V2 in H. rewrite <- dy_half in H. rewrite dy_format in H by lia.
  assert (Hh : 0 <= dy s (i + 1) <= dy s i) by (rewrite dy_half; lra).
  rewrite Rlt_bool_true in H.
  - destruct H as (E1 & E2 & _). rewrite E2. auto.
  - rewrite Rabs_pos_eq by lra. eapply Rle_lt_trans; [|apply (bpow_lt radix2 60 1024); lia]. lra.
Qed.

Lemma dy_small s i : (0 <= i)%Z -> (0 <= s <= 2 ^ 54)%Z -> dy s i <= bpow radix2 60.
Proof.
  intros Hi Hs. eapply Rle_trans; [apply (dy_le s (2 ^ 54) i); lia|]. rewrite dy_pow by lia. apply bpow_le. lia.
Qed.

Lemma mid_exact (low high : f64) k i : is_finite low = true -> is_finite high = true -> (0 <= i <= 500)%Z -> (0 <= k)%Z -> (2 * k + 1 < 2 ^ 53)%Z ->
  B2R low = dy k i -> B2R high = dy (k + 1) i ->
  is_finite (midpoint low high) = true /\ B2R (midpoint low high) = dy (2 * k + 1) (i + 1).
Proof.
  intros F1 F2 Hi Hk Hs E1 E2. apply mid_sum; auto; try lia; [|apply dy_small; lia].
  rewrite E1, E2. replace (dy k i + dy (k + 1) i) with (dy (2 * k + 1) i).
  - apply dy_format; lia.
  - unfold dy. rewrite !plus_IZR, mult_IZR. ring.
Qed.

Lemma mid_tie (low high : f64) k i : is_finite low = true -> is_finite high = true -> (0 <= i <= 500)%Z -> (2 ^ 52 <= k < 2 ^ 53)%Z ->
  B2R low = dy k i -> B2R high = dy (k + 1) i ->
  is_finite (midpoint low high) = true /\ (B2R (midpoint low high) = B2R low \/ B2R (midpoint low high) = B2R high).
Proof.
  intros F1 F2 Hi Hk E1 E2.
  assert (HS : rnd (B2R low + B2R high) = dy (2 * k) i \/ rnd (B2R low + B2R high) = dy (2 * k + 2) i).
  { assert (X : dy (2 * k) i <= rnd (B2R low + B2R high) <= dy (2 * k + 2) i).
    { apply rnd_between.
      - destruct (Z.eq_dec i 0) as [->|].
        + replace (dy (2 * k) 0) with (IZR k * bpow radix2 1) by (unfold dy; rewrite mult_IZR; change (bpow radix2 1) with (IZR 2); simpl; ring).
          apply round_generic; auto with typeclass_instances.
          change (SpecFloat.fexp 53 1024) with (FLT_exp (-1074) 53). apply generic_format_FLT.
          exists (Float radix2 k 1); simpl; try lia. reflexivity.
        + replace i with ((i - 1) + 1)%Z by lia. rewrite dy_shift. apply dy_format; lia.
      - replace (2 * k + 2)%Z with (2 * (k + 1))%Z by lia. destruct (Z.eq_dec i 0) as [->|].
        + destruct (Z.eq_dec (k + 1) (2 ^ 53)) as [->|].
          * change (2 * 2 ^ 53)%Z with (2 ^ 54)%Z. rewrite dy_pow by lia. apply bpow_format. lia.
          * replace (dy (2 * (k + 1)) 0) with (IZR (k + 1) * bpow radix2 1) by (unfold dy; rewrite mult_IZR; change (bpow radix2 1) with (IZR 2); simpl; ring).
            apply round_generic; auto with typeclass_instances.
            change (SpecFloat.fexp 53 1024) with (FLT_exp (-1074) 53). apply generic_format_FLT.
            exists (Float radix2 (k + 1) 1); simpl; try lia. reflexivity.
        + replace i with ((i - 1) + 1)%Z by lia. rewrite dy_shift. apply dy_format; lia.
      - rewrite E1, E2. replace (dy k i + dy (k + 1) i) with (dy (2 * k + 1) i) by (unfold dy; rewrite !plus_IZR, mult_IZR; ring).
        split; apply dy_le; lia. }
    pose proof (Bplus_correct 53 1024 prec_ok emax_ok mode_NE low high F1 F2) as H. cbn [round_mode] in H.
    rewrite Rlt_bool_true in H.
    2:{ rewrite Rabs_pos_eq by (eapply Rle_trans; [|apply X]; unfold dy; apply Rmult_le_pos; [apply IZR_le; lia|apply bpow_ge_0]).
        eapply Rle_lt_trans; [apply X|]. eapply Rle_lt_trans; [apply (dy_small (2 * k + 2)); lia|]. apply bpow_lt. lia. }
    destruct H as (Vp & _). rewrite <- Vp in X |- *.
    destruct (multiple (Bplus mode_NE low high) (i - 1)) as (m & Em).
    { replace (52 - (i - 1))%Z with (53 - i)%Z by lia. rewrite <- dy_pow by lia.
      eapply Rle_trans; [|apply X]. apply dy_le. lia. }
    rewrite Em in X |- *. replace (dy m (i - 1)) with (dy (2 * m) i) in X |- * by (rewrite <- (dy_shift m (i - 1)); f_equal; lia).
    assert (2 * k <= 2 * m <= 2 * k + 2)%Z.
    { split; apply Znot_gt_le; intros G; apply Z.gt_lt in G; apply (dy_lt _ _ i) in G; lra. }
    assert (Hm : m = k \/ m = (k + 1)%Z) by lia. destruct Hm as [->| ->]; [left|right]; f_equal; lia. }
  (* halving is exact *)
  assert (HD : forall s, (2 ^ 52 <= s <= 2 ^ 53)%Z -> rnd (B2R low + B2R high) = dy (2 * s) i ->
    is_finite (midpoint low high) = true /\ B2R (midpoint low high) = dy s i).
  { intros s Hs HE. destruct (Z.eq_dec i 0) as [->|Hne].
    - unfold midpoint. pose proof (Bplus_correct 53 1024 prec_ok emax_ok mode_NE low high F1 F2) as H. cbn [round_mode] in H.
      rewrite HE in H. assert (Hd : 0 <= dy (2 * s) 0 <= bpow radix2 60).
      { split; [unfold dy; apply Rmult_le_pos; [apply IZR_le; lia|apply bpow_ge_0]|apply dy_small; lia]. }
      rewrite Rlt_bool_true in H by (rewrite Rabs_pos_eq by lra; eapply Rle_lt_trans; [apply Hd|apply bpow_lt; lia]).
      destruct H as (Vp & Fp & _). destruct (of_Z_ok 2) as (_ & V2); [lia|].
      assert (H2 : B2R (b64_of_Z 2) <> 0) by (rewrite V2; lra).
      pose proof (Bdiv_correct 53 1024 prec_ok emax_ok mode_NE (Bplus mode_NE low high) (b64_of_Z 2) H2) as H. cbn [round_mode] in H.
      rewrite Vp, V2 in H. rewrite <- dy_half, dy_shift in H. rewrite dy_format in H by lia.
      assert (Hh : 0 <= dy s 0 <= bpow radix2 60).
      { split; [unfold dy; apply Rmult_le_pos; [apply IZR_le; lia|apply bpow_ge_0]|apply dy_small; lia]. }
      rewrite Rlt_bool_true in H by (rewrite Rabs_pos_eq by lra; eapply Rle_lt_trans; [apply Hh|apply bpow_lt; lia]).
      destruct H as (V & F & _). rewrite F. auto.
    - replace i with ((i - 1) + 1)%Z by lia. apply mid_sum; auto; try lia.
      + rewrite HE. replace i with ((i - 1) + 1)%Z at 1 by lia. apply dy_shift.
      + apply dy_small; lia. }
  destruct HS as [HS|HS].
  - destruct (HD k ltac:(lia) HS) as (F & V). split; auto. left. rewrite V. auto.
  - replace (2 * k + 2)%Z with (2 * (k + 1))%Z in HS by lia. destruct (HD (k + 1)%Z ltac:(lia) HS) as (F & V). split; auto. right. rewrite V. auto.
Qed.

Lemma le_fin (x y : f64) : is_finite x = true -> is_finite y = true -> @n_le BN x y = Rle_bool (B2R x) (B2R y).
Proof. intros. apply Bleb_correct; auto. Qed.
Lemma eq_fin (x y : f64) : is_finite x = true -> is_finite y = true -> @n_eq BN x y = Req_bool (B2R x) (B2R y).
Proof. intros. apply Beqb_correct; auto. Qed.
Lemma pos_inj (x y : f64) : is_finite x = true -> is_finite y = true -> 0 < B2R x -> B2R x = B2R y -> x = y.
Proof.
  intros Fx Fy Hp He.
  assert (Hx : is_finite_strict x = true) by (destruct x; auto; simpl in *; discriminate || lra).
  assert (Hy : is_finite_strict y = true) by (destruct y; auto; simpl in *; discriminate || lra).
  apply (B2R_inj 53 1024); auto.
Qed.

Context (distribution : f64 -> script f64) (alpha : f64).

(** The test of line 87 succeeds at x. *)
Definition below (x : f64) : Prop := exists d, distribution x = Value d /\ Bltb d alpha = true.
Definition defined_on : Prop := forall x : f64, is_finite x = true -> 0 < B2R x <= 1 -> exists d, distribution x = Value d.

Hypothesis DD : defined_on.

(** Before iteration i: low = k/2^i, high = (k+1)/2^i, and both were tested if they are not the first ones. *)
Record state (k i : Z) (low high : f64) : Prop := mkState {
  st_low : is_finite low = true; st_high : is_finite high = true;
  st_vlow : B2R low = dy k i; st_vhigh : B2R high = dy (k + 1) i;
  st_k : (0 <= k)%Z; st_i : (0 <= i <= 110)%Z; st_le1 : dy (k + 1) i <= 1;
  st_below : (0 < k)%Z -> below low; st_above : B2R high < 1 -> ~ below high
}.

Definition differs (last_range : option (f64 * f64)) (low high : f64) : Prop :=
  match last_range with Some (l, h) => @n_eq BN l low && @n_eq BN h high = false | None => True end.

Lemma differs_step (low high low' high' : f64) : is_finite low = true -> is_finite high = true -> is_finite low' = true -> is_finite high' = true ->
  B2R low <> B2R low' \/ B2R high <> B2R high' -> differs (Some (low, high)) low' high'.
Proof.
  intros F1 F2 F3 F4 H. unfold differs. rewrite !eq_fin by auto.
  destruct H as [H|H]; rewrite (Req_bool_false _ _ H); auto. apply andb_false_r.
Qed.

Lemma dy_pos k i : (0 < k)%Z -> 0 < dy k i.
Proof. intros H. unfold dy. apply Rmult_lt_0_compat; [apply IZR_lt; exact H|apply bpow_gt_0]. Qed.

(** One iteration with an exact midpoint. *)
Lemma step_exact k i low high last mid steps : state k i low high -> differs last low high -> (i < 110)%Z -> (2 * k + 1 < 2 ^ 53)%Z ->
  exists k' low' high', state k' (i + 1) low' high' /\ differs (Some (low, high)) low' high' /\
    (k' = 2 * k \/ k' = 2 * k + 1)%Z /\ (k' = (2 * k)%Z -> B2R high' < 1 -> ~ below high') /\
    (k' = (2 * k)%Z <-> ~ below (midpoint low high)) /\
    @binary_search BN distribution alpha (S steps) i low high last mid =
    @binary_search BN distribution alpha steps (i + 1) low' high' (Some (low, high)) (midpoint low high).
Proof.
  intros [F1 F2 V1 V2 Hk Hi H1 HB HA] HD Hi' Hs.
  destruct (mid_exact low high k i F1 F2 ltac:(lia) Hk Hs V1 V2) as (Fm & Vm).
  assert (Hm : 0 < B2R (midpoint low high) <= 1).
  { rewrite Vm. split; [apply dy_pos; lia|]. eapply Rle_trans; [|exact H1]. rewrite <- (dy_shift (k + 1) i). apply dy_le. lia. }
  destruct (DD _ Fm Hm) as (d & Ed).
  cbn [binary_search]. match goal with |- context [if ?c then Value (i, mid) else _] => replace c with false by (destruct last as [[l h]|]; [symmetry; exact HD|reflexivity]) end.
  change (@n_div BN (@n_add BN low high) (@n_of_Z BN 2)) with (midpoint low high). rewrite Ed. cbn [sbind].
  change (@n_lt BN d alpha) with (Bltb d alpha).
  assert (W1 : dy (2 * k) (i + 1) < dy (2 * k + 1) (i + 1)) by (apply dy_lt; lia).
  assert (W2 : dy (2 * k + 1) (i + 1) < dy (2 * k + 2) (i + 1)) by (apply dy_lt; lia).
  destruct (Bltb d alpha) eqn:Ec.
  - assert (Bm : below (midpoint low high)) by (exists d; auto).
    assert (V2' : B2R high = dy (2 * k + 1 + 1) (i + 1)) by (rewrite V2, <- dy_shift; f_equal; lia).
    exists (2 * k + 1)%Z, (midpoint low high), high. split; [|split; [|split; [|split; [|split]]]].
    + constructor; auto; try lia. rewrite <- V2', V2. exact H1.
    + apply differs_step; auto. left. rewrite V1, Vm, <- (dy_shift k i). lra.
    + lia.
    + lia.
    + split; [lia|tauto].
    + rewrite le_fin by auto. rewrite Rle_bool_false; [reflexivity|]. rewrite V2', Vm. replace (2 * k + 1 + 1)%Z with (2 * k + 2)%Z by lia. exact W2.
  - assert (Bm : ~ below (midpoint low high)) by (intros (d' & E' & H'); congruence).
    assert (V1' : B2R low = dy (2 * k) (i + 1)) by (rewrite V1, dy_shift; reflexivity).
    exists (2 * k)%Z, low, (midpoint low high). split; [|split; [|split; [|split; [|split]]]].
    + constructor; auto; try lia.
      * eapply Rle_trans; [|exact H1]. rewrite <- (dy_shift (k + 1) i). apply dy_le. lia.
      * intros Hp. apply HB. lia.
    + apply differs_step; auto. right. rewrite V2, Vm, <- (dy_shift (k + 1) i). replace (2 * (k + 1))%Z with (2 * k + 2)%Z by lia. lra.
    + lia.
    + auto.
    + tauto.
    + rewrite le_fin by auto. rewrite Rle_bool_false; [reflexivity|]. rewrite V1', Vm. exact W1.
Qed.

(** The iteration after which nothing changes. *)
Lemma step_tie k i low high last mid steps : state k i low high -> differs last low high -> (i < 110)%Z -> (2 ^ 52 <= k < 2 ^ 53)%Z ->
  exists r, (r = low \/ r = high) /\
   (@binary_search BN distribution alpha (S steps) i low high last mid =
      @binary_search BN distribution alpha steps (i + 1) low high (Some (low, high)) r \/
    (B2R high = 1 /\ @binary_search BN distribution alpha (S steps) i low high last mid = Value (i, r))).
Proof.
  intros [F1 F2 V1 V2 Hk Hi H1 HB HA] HD Hi' Hs.
  destruct (mid_tie low high k i F1 F2 ltac:(lia) Hs V1 V2) as (Fm & Vm).
  assert (P1 : 0 < B2R low) by (rewrite V1; apply dy_pos; lia).
  assert (P2 : 0 < B2R high) by (rewrite V2; apply dy_pos; lia).
  assert (Hlt : B2R low < B2R high) by (rewrite V1, V2; apply dy_lt; lia).
  assert (Hr : midpoint low high = low \/ midpoint low high = high).
  { destruct Vm as [Vm|Vm]; [left|right]; symmetry; apply pos_inj; auto. }
  exists (midpoint low high). split; auto.
  assert (Hm : 0 < B2R (midpoint low high) <= 1).
  { destruct Vm as [-> | ->]; split; auto; lra. }
  destruct (DD _ Fm Hm) as (d & Ed).
  cbn [binary_search]. match goal with |- context [if ?c then Value (i, mid) else _] => replace c with false by (destruct last as [[l h]|]; [symmetry; exact HD|reflexivity]) end.
  change (@n_div BN (@n_add BN low high) (@n_of_Z BN 2)) with (midpoint low high). rewrite Ed. cbn [sbind].
  change (@n_lt BN d alpha) with (Bltb d alpha).
  destruct Hr as [Hr|Hr].
  - assert (Ec : Bltb d alpha = true).
    { destruct (HB ltac:(lia)) as (d' & E' & H'). rewrite Hr in Ed. congruence. }
    rewrite Ec. left. rewrite le_fin by auto. rewrite Hr at 1. rewrite Rle_bool_false by exact Hlt. rewrite Hr. reflexivity.
  - destruct (Bltb d alpha) eqn:Ec.
    + assert (Eh : B2R high = 1).
      { destruct (Rle_lt_or_eq_dec (B2R high) 1) as [HL|HE]; auto; [lra|]. exfalso. apply (HA HL). exists d. split; auto. rewrite <- Hr. exact Ed. }
      right. split; auto. rewrite le_fin by auto. rewrite Hr, Rle_bool_true by lra. reflexivity.
    + left. rewrite le_fin by auto. rewrite Hr at 1. rewrite Rle_bool_false by exact Hlt. rewrite Hr. reflexivity.
Qed.

Lemma stop_here steps i (low high : f64) mid : is_finite low = true -> is_finite high = true ->
  @binary_search BN distribution alpha (S steps) i low high (Some (low, high)) mid = Value (i, mid).
Proof. intros F1 F2. cbn [binary_search]. rewrite !eq_fin by auto. rewrite !Req_bool_true by reflexivity. reflexivity. Qed.

(** ** Inside one binade *)
Lemma refine : forall m t k i low high last mid steps, (m = 52 - t)%nat -> (t <= 52)%nat ->
  state k i low high -> differs last low high -> (2 ^ Z.of_nat t <= k < 2 ^ (Z.of_nat t + 1))%Z ->
  (i + Z.of_nat m <= 107)%Z -> (Z.of_nat steps = 110 - i)%Z ->
  exists j r k' i' lo hi, @binary_search BN distribution alpha steps i low high last mid = Value (j, r) /\ (j < 109)%Z /\
    state k' i' lo hi /\ (2 ^ 52 <= k')%Z /\ (r = lo \/ r = hi).
Proof.
  induction m as [|m IH]; intros t k i low high last mid steps Em Ht HS HD Hk Hi Hst.
  - assert (t = 52)%nat by lia. subst t. destruct steps as [|[|steps]]; try lia.
    destruct (step_tie k i low high last mid (S steps) HS HD ltac:(lia) ltac:(lia)) as (r & Hr & [HE|(_ & HE)]).
    + rewrite stop_here in HE by apply HS. exists (i + 1)%Z, r, k, i, low, high. split; auto. split; [lia|]. split; auto. split; [lia|auto].
    + exists i, r, k, i, low, high. split; auto. split; [lia|]. split; auto. split; [lia|auto].
  - destruct steps as [|steps]; [lia|].
    assert (Hb : (2 * k + 1 < 2 ^ 53)%Z).
    { assert (2 ^ (Z.of_nat t + 1) <= 2 ^ 52)%Z by (apply Z.pow_le_mono_r; lia). lia. }
    destruct (step_exact k i low high last mid steps HS HD ltac:(lia) Hb) as (k' & low' & high' & HS' & HD' & Hk' & _ & _ & ->).
    apply (IH (S t) k'); auto; try lia.
    rewrite Nat2Z.inj_succ, <- Z.add_1_r. rewrite !Z.pow_add_r in * by lia. lia.
Qed.

(** ** Before the first success: low is still 0 *)
Lemma descend : forall m i low high last mid steps j (x : f64), (Z.of_nat m = j - 1 - i)%Z ->
  state 0 i low high -> differs last low high -> (j <= 55)%Z -> (Z.of_nat steps = 110 - i)%Z ->
  is_finite x = true -> B2R x = bpow radix2 (- j) -> below x ->
  exists ji r k' i' lo hi, @binary_search BN distribution alpha steps i low high last mid = Value (ji, r) /\ (ji < 109)%Z /\
    state k' i' lo hi /\ (2 ^ 52 <= k')%Z /\ (r = lo \/ r = hi).
Proof.
  induction m as [|m IH]; intros i low high last mid steps j x Em HS HD Hj Hst Fx Vx Bx; (destruct steps as [|steps]; [lia|]);
    pose proof (st_i _ _ _ _ HS) as Hi;
    destruct (step_exact 0 i low high last mid steps HS HD ltac:(lia) ltac:(lia)) as (k' & low' & high' & HS' & HD' & Hk' & _ & Hiff & HE).
  - assert (k' = 1)%Z.
    { destruct Hk' as [Hk'|Hk']; [|lia]. exfalso. apply Hiff; auto.
      replace (midpoint low high) with x; auto. symmetry. 
      destruct HS. destruct (mid_exact low high 0 i) as (Fm & Vm); auto; try lia.
      apply pos_inj; auto.
      - rewrite Vm. apply dy_pos. lia.
      - rewrite Vm, Vx. replace (2 * 0 + 1)%Z with (2 ^ 0)%Z by reflexivity. rewrite dy_pow by lia. f_equal. lia. }
    subst k'. rewrite HE. apply (refine 52 0 1 (i + 1) low' high' (Some (low, high)) (midpoint low high) steps); auto; try lia; simpl; lia.
  - rewrite HE. destruct Hk' as [->| ->].
    + apply (IH (i + 1)%Z low' high' _ _ steps j x); auto; lia.
    + apply (refine 52 0 1 (i + 1) low' high' (Some (low, high)) (midpoint low high) steps); auto; try lia; simpl; lia.
Qed.

(** ** No success among 2^-1, ..., 2^-55: the assertion of line 96 fails *)
Lemma late : forall m k i low high last mid steps, (Z.of_nat m = 108 - i)%Z ->
  state k i low high -> differs last low high -> (55 <= i)%Z -> (k < 2 ^ (i - 55))%Z -> dy (k + 1) i < 1 -> (Z.of_nat steps = 110 - i)%Z ->
  exists r, @binary_search BN distribution alpha steps i low high last mid = Value (109%Z, r).
Proof.
  induction m as [|m IH]; intros k i low high last mid steps Em HS HD Hi Hk Hlt Hst.
  - assert (i = 108)%Z by lia. subst i. destruct steps as [|[|[|steps]]]; try lia.
    assert (LAST : forall low high last mid, is_finite low = true -> is_finite high = true -> 0 <= B2R low < B2R high -> B2R high <= 1 ->
      (exists d, distribution (midpoint low high) = Value d) ->
      exists r, @binary_search BN distribution alpha 1 109 low high last mid = Value (109%Z, r)).
    { clear. intros low high last mid F1 F2 _ _ (d & Ed). cbn [binary_search].
      destruct (match last with Some (l, h) => @n_eq BN l low && @n_eq BN h high | None => false end); [eauto|].
      change (@n_div BN (@n_add BN low high) (@n_of_Z BN 2)) with (midpoint low high). rewrite Ed. cbn [sbind].
      destruct (@n_lt BN d alpha); match goal with |- context [@n_le BN ?a ?b] => destruct (@n_le BN a b) end; eexists; reflexivity. }
    assert (H53 : (k < 2 ^ 53)%Z) by exact Hk.
    destruct (Z_lt_le_dec (2 * k + 1) (2 ^ 53)) as [Hs|Hs].
    + destruct (step_exact k 108 low high last mid 1 HS HD ltac:(lia) Hs) as (k' & low' & high' & HS' & HD' & Hk' & _ & _ & ->).
      apply LAST; try apply HS'.
      * destruct HS' as [? ? V1 V2 ? ? ? ? ?]. rewrite V1, V2. split; [unfold dy; apply Rmult_le_pos; [apply IZR_le; lia|apply bpow_ge_0]|apply dy_lt; lia].
      * destruct HS' as [? ? V1 V2 ? ? ? ? ?]. rewrite V2. auto.
      * (* the midpoint of two doubles of [0,1] whose sum is at least the smaller one *)
        apply DD.
        -- destruct HS' as [F1 F2 V1 V2 ? ? ? ? ?]. destruct (Z_lt_le_dec (2 * k' + 1) (2 ^ 53)).
           ++ apply (mid_exact low' high' k' (108 + 1)); auto; lia.
           ++ apply (mid_tie low' high' k' (108 + 1)); auto; lia.
        -- destruct HS' as [F1 F2 V1 V2 ? ? ? ? ?]. destruct (Z_lt_le_dec (2 * k' + 1) (2 ^ 53)).
           ++ destruct (mid_exact low' high' k' (108 + 1)) as (_ & ->); auto; try lia. split; [apply dy_pos; lia|].
              eapply Rle_trans; [|exact st_le2]. rewrite <- (dy_shift (k' + 1)). apply dy_le. lia.
           ++ destruct (mid_tie low' high' k' (108 + 1)) as (_ & [-> | ->]); auto; try lia; rewrite ?V1, ?V2.
              ** split; [apply dy_pos; lia|]. eapply Rle_trans; [|exact st_le2]. apply dy_le. lia.
              ** split; [apply dy_pos; lia|auto].
    + destruct (step_tie k 108 low high last mid 1 HS HD ltac:(lia) ltac:(lia)) as (r & Hr & [HE|(He & _)]).
      * rewrite HE. rewrite stop_here by apply HS. eexists. reflexivity.
      * exfalso. rewrite (st_vhigh _ _ _ _ HS) in He. lra.
  - destruct steps as [|steps]; [lia|].
    assert (Hs : (2 * k + 1 < 2 ^ 53)%Z).
    { assert (2 ^ (i - 55) <= 2 ^ 52)%Z by (apply Z.pow_le_mono_r; lia). lia. }
    destruct (step_exact k i low high last mid steps HS HD ltac:(lia) Hs) as (k' & low' & high' & HS' & HD' & Hk' & _ & _ & ->).
    apply (IH k' (i + 1)%Z); auto; try lia.
    + replace (i + 1 - 55)%Z with (i - 55 + 1)%Z by lia. rewrite Z.pow_add_r by lia. lia.
    + eapply Rle_lt_trans; [|exact Hlt]. rewrite <- (dy_shift (k + 1) i). apply dy_le. lia.
Qed.

Lemma fruitless : forall m i low high last mid steps, (Z.of_nat m = 55 - i)%Z ->
  state 0 i low high -> differs last low high -> (Z.of_nat steps = 110 - i)%Z ->
  (forall j (x : f64), (1 <= j <= 55)%Z -> is_finite x = true -> B2R x = bpow radix2 (- j) -> ~ below x) ->
  exists r, @binary_search BN distribution alpha steps i low high last mid = Value (109%Z, r).
Proof.
  induction m as [|m IH]; intros i low high last mid steps Em HS HD Hst HN; pose proof (st_i _ _ _ _ HS) as Hi.
  - assert (i = 55)%Z by lia. subst i. apply (late 53 0 55); auto; try lia.
    replace (0 + 1)%Z with (2 ^ 0)%Z by reflexivity. rewrite dy_pow by lia. apply (bpow_lt radix2 _ 0). lia.
  - destruct steps as [|steps]; [lia|].
    destruct (step_exact 0 i low high last mid steps HS HD ltac:(lia) ltac:(lia)) as (k' & low' & high' & HS' & HD' & Hk' & _ & Hiff & ->).
    assert (k' = 0)%Z.
    { apply Hiff. destruct HS. destruct (mid_exact low high 0 i) as (Fm & Vm); auto; try lia.
      apply (HN (i + 1)%Z); auto; [lia|].
      rewrite Vm. replace (2 * 0 + 1)%Z with (2 ^ 0)%Z by reflexivity. rewrite dy_pow by lia. f_equal. }
    subst k'. apply (IH (i + 1)%Z); auto; lia.
Qed.

Lemma start : state 0 0 (b64_of_Z 0) (b64_of_Z 1).
Proof.
  destruct zero_ok as (F0 & V0). destruct one_ok as (F1 & V1). constructor; auto; try lia; rewrite ?V0, ?V1; unfold dy; simpl; try lra; lia.
Qed.

Theorem search_converges j (x : f64) : (1 <= j <= 55)%Z -> is_finite x = true -> B2R x = bpow radix2 (- j) -> below x ->
  exists i r lo hi, @binary_search BN distribution alpha 110 0 n0 n1 None n0 = Value (i, r) /\ (i < 109)%Z /\
    is_finite lo = true /\ is_finite hi = true /\ 0 < B2R lo < B2R hi /\ B2R hi <= 1 /\
    (forall z : f64, ~ (B2R lo < B2R z < B2R hi)) /\ B2R hi - B2R lo <= bpow radix2 (-53) /\
    below lo /\ (B2R hi < 1 -> ~ below hi) /\ (r = lo \/ r = hi).
Proof.
  intros Hj Fx Vx Bx.
  destruct (descend (Z.to_nat (j - 1)) 0 (b64_of_Z 0) (b64_of_Z 1) None (b64_of_Z 0) 110 j x) as (i & r & k & i' & lo & hi & HE & Hi & HS & Hk & Hr); auto; try lia;
    [exact start|exact I|].
  exists i, r, lo, hi. split; [exact HE|]. split; auto. pose proof HS as [F1 F2 V1 V2 ? ? ? HB HA].
  split; auto. split; auto. split; [rewrite V1, V2; split; [apply dy_pos; lia|apply dy_lt; lia]|].
  split; [rewrite V2; auto|]. split; [intros z; apply (no_double_between lo hi z k i'); auto|].
  split; [|split; [apply HB; lia|auto]].
  (* lo < 1 *)
  assert (H53 : (53 <= i')%Z).
  { apply Znot_gt_le. intros G. assert (1 <= dy k i'); [|pose proof (dy_lt k (k + 1) i' ltac:(lia)); lra].
    eapply Rle_trans; [|apply (dy_le (2 ^ 52) k i'); auto]. rewrite dy_pow by lia. apply (bpow_le radix2 0). lia. }
  rewrite V1, V2. replace (dy (k + 1) i' - dy k i') with (bpow radix2 (- i')) by (unfold dy; rewrite plus_IZR; ring).
  apply bpow_le. lia.
Qed.

Theorem search_fails : (forall j (x : f64), (1 <= j <= 55)%Z -> is_finite x = true -> B2R x = bpow radix2 (- j) -> ~ below x) ->
  exists r, @binary_search BN distribution alpha 110 0 n0 n1 None n0 = Value (109%Z, r).
Proof. intros H. apply (fruitless 55 0 (b64_of_Z 0) (b64_of_Z 1) None (b64_of_Z 0) 110); auto; try lia; [exact start|exact I]. Qed.

End Search.
