(** * Binary64Facts: rounding facts and the outcome of the library in binary64. *)
From Coquelicot Require Import Coquelicot.
From Flocq Require Import Core.Core IEEE754.BinarySingleNaN.
From Coq Require Import ZArith Reals List Bool Lia Lra String Permutation Sorted.
From Verif Require Import Base Num Hoare Common PoissonPmf FFTConv Ecdf2 Ecdf1New Ecdf1Mns Binary64.
From Verif Require Import Spec SpecFacts Cells Events XEcdf2Main SafeFft SafeEcdf2 SafeNew SafeMns.
Import List. Import ListNotations.
Local Open Scope R_scope.

Notation rnd := (round radix2 (SpecFloat.fexp 53 1024) ZnearestE).

(** A vector of finite numbers whose values form an allowed boundary. *)
Definition accepted64 (v : list f64) : Prop :=
  Forall (fun x => is_finite x = true) v /\ valid_boundary (map B2R v).

#[global] Instance fexp_valid : Valid_exp (SpecFloat.fexp 53 1024).
Proof. exact (fexp_correct 53 1024 prec_ok). Qed.
#[global] Instance fexp_mono : Monotone_exp (SpecFloat.fexp 53 1024).
Proof. exact (fexp_monotone 53 1024). Qed.

Lemma rnd_le x y : x <= y -> rnd x <= rnd y.
Proof. apply round_le; auto with typeclass_instances. Qed.
Lemma rnd_0 : rnd 0 = 0.
Proof. apply round_0; auto with typeclass_instances. Qed.
Lemma rnd_int (z : Z) : (Z.abs z < 2 ^ 53)%Z -> rnd (IZR z) = IZR z.
Proof.
  intros Hz. apply round_generic; auto with typeclass_instances.
  replace (IZR z) with (F2R (Float radix2 z 0)) by (unfold F2R; simpl; ring).
  change (SpecFloat.fexp 53 1024) with (FLT_exp (-1074) 53).
  apply generic_format_FLT. exists (Float radix2 z 0); simpl; try lia; reflexivity.
Qed.
Lemma rnd_1 : rnd 1 = 1.
Proof. apply (rnd_int 1). reflexivity. Qed.
Lemma rnd_B2R (x : f64) : rnd (B2R x) = B2R x.
Proof. apply round_generic; auto with typeclass_instances. apply generic_format_B2R. Qed.
Lemma rnd_between x y z : rnd x = x -> rnd z = z -> x <= y <= z -> x <= rnd y <= z.
Proof. intros Hx Hz [H1 H2]. apply rnd_le in H1. apply rnd_le in H2. lra. Qed.
Lemma big_bound : IZR (2 ^ 53) < bpow radix2 1024.
Proof.
  change (IZR (2 ^ 53)) with (IZR (Zpower radix2 53)). rewrite IZR_Zpower by lia. apply bpow_lt. lia.
Qed.
Lemma no_overflow x y : 0 <= y <= B2R (x : f64) -> Rlt_bool (Rabs (rnd y)) (bpow radix2 1024) = true.
Proof.
  intros Hy. apply Rlt_bool_true.
  pose proof (rnd_between 0 y (B2R x) rnd_0 (rnd_B2R x) Hy) as Hr.
  rewrite Rabs_pos_eq by lra. eapply Rle_lt_trans; [apply Hr|].
  eapply Rle_lt_trans; [apply Rle_abs|]. apply (abs_B2R_lt_emax 53 1024 x).
Qed.

(** ** Conversion of integers *)
Lemma of_Z_ok z : (0 <= z < 2 ^ 53)%Z -> is_finite (b64_of_Z z) = true /\ B2R (b64_of_Z z) = IZR z.
Proof.
  intros Hz. pose proof (binary_normalize_correct 53 1024 prec_ok emax_ok mode_NE z 0 false) as H.
  cbv zeta in H. cbn [round_mode] in H.
  replace (F2R (Float radix2 z 0)) with (IZR z) in H by (unfold F2R; simpl; ring).
  rewrite rnd_int in H by lia. rewrite Rlt_bool_true in H.
  - unfold b64_of_Z. tauto.
  - rewrite Rabs_pos_eq by (apply IZR_le; lia).
    eapply Rle_lt_trans; [apply IZR_le, Z.lt_le_incl, (proj2 Hz)|exact big_bound].
Qed.
Lemma zero_ok : is_finite (b64_of_Z 0) = true /\ B2R (b64_of_Z 0) = 0.
Proof. apply of_Z_ok. lia. Qed.
Lemma one_ok : is_finite (b64_of_Z 1) = true /\ B2R (b64_of_Z 1) = 1.
Proof. apply of_Z_ok. lia. Qed.

(** ** Subtraction and multiplication in [0,1] *)
Lemma minus_ok (x y : f64) : is_finite x = true -> is_finite y = true -> 0 <= B2R y <= B2R x ->
  is_finite (Bminus mode_NE x y) = true /\ B2R (Bminus mode_NE x y) = rnd (B2R x - B2R y) /\
  0 <= B2R (Bminus mode_NE x y) <= B2R x.
Proof.
  intros Hx Hy Hle. pose proof (Bminus_correct 53 1024 prec_ok emax_ok mode_NE x y Hx Hy) as H.
  cbn [round_mode] in H. rewrite (no_overflow x) in H by lra. destruct H as (H1 & H2 & _).
  rewrite H1. split; [exact H2|split; [reflexivity|]].
  apply rnd_between; [apply rnd_0|apply rnd_B2R|lra].
Qed.
Lemma mult_ok (a d : f64) : is_finite a = true -> is_finite d = true -> 0 <= B2R a -> 0 <= B2R d <= 1 ->
  is_finite (Bmult mode_NE a d) = true /\ B2R (Bmult mode_NE a d) = rnd (B2R a * B2R d) /\
  0 <= B2R (Bmult mode_NE a d) <= B2R a.
Proof.
  intros Ha Hd H0 H1. pose proof (Bmult_correct 53 1024 prec_ok emax_ok mode_NE a d) as H.
  assert (Hr : 0 <= B2R a * B2R d <= B2R a) by nra.
  cbn [round_mode] in H. rewrite (no_overflow a) in H by exact Hr. destruct H as (H2 & H3 & _).
  rewrite H2, H3, Ha, Hd. split; [reflexivity|split; [reflexivity|]].
  apply rnd_between; [apply rnd_0|apply rnd_B2R|exact Hr].
Qed.

(** ** Validation *)
Section Check.
Context (L : libm).
Notation BN := (Bnum L).

Lemma lt_fin (x y : f64) : is_finite x = true -> is_finite y = true ->
  @n_lt BN x y = Rlt_bool (B2R x) (B2R y).
Proof. apply (Bltb_correct 53 1024). Qed.

Lemma lt_one (x : f64) : is_finite x = true -> @n_lt BN n1 x = Rlt_bool 1 (B2R x).
Proof. intros Fx. destruct one_ok as [F1 V1]. rewrite <- V1. exact (lt_fin _ _ F1 Fx). Qed.
Lemma lt_zero (x : f64) : is_finite x = true -> @n_lt BN x n0 = Rlt_bool (B2R x) 0.
Proof. intros Fx. destruct zero_ok as [F1 V1]. rewrite <- V1. exact (lt_fin _ _ Fx F1). Qed.
Lemma gt_zero (x : f64) : is_finite x = true -> @n_lt BN n0 x = Rlt_bool 0 (B2R x).
Proof. intros Fx. destruct zero_ok as [F1 V1]. rewrite <- V1. exact (lt_fin _ _ F1 Fx). Qed.

(** after a +infinity only +infinity is accepted *)
Lemma monotone_inf (v : list f64) : Forall (fun x => is_nan x = false) v ->
  @is_monotone_from BN (B754_infinity false) v = true -> Forall (fun x => x = B754_infinity false) v.
Proof.
  induction v as [|x v IH]; intros HN H; [constructor|]. inversion HN as [|? ? Hx HN']; subst.
  cbn [is_monotone_from] in H.
  destruct x as [s|[|]| |s m e Hb]; try discriminate; constructor; auto.
Qed.

Lemma last_map_inf (v : list f64) : v <> [] -> Forall (fun x => x = B754_infinity false) v ->
  forall d, last v d = B754_infinity false.
Proof.
  induction v as [|x v IH]; intros Hne H d; [congruence|]. inversion H; subst.
  destruct v as [|y v]; [reflexivity|]. change (last (y :: v) d = B754_infinity false).
  apply IH; [discriminate|auto].
Qed.

Lemma monotone_fin (v : list f64) : Forall (fun x => is_nan x = false) v -> forall prev d,
  is_finite prev = true -> @is_monotone_from BN prev v = true ->
  (v <> [] -> @n_lt BN n1 (last v d) = false) -> B2R prev <= 1 ->
  Forall (fun x => is_finite x = true) v /\ Forall (fun x => B2R prev <= x <= 1) (map B2R v) /\
  StronglySorted Rle (map B2R v).
Proof.
  induction v as [|x v IH]; intros HN prev d Hp Hm Hl Hp1.
  { repeat split; constructor. }
  inversion HN as [|? ? Hx HN']; subst. cbn [is_monotone_from] in Hm.
  destruct (@n_lt BN x prev) eqn:Elt; [discriminate|].
  specialize (Hl ltac:(discriminate)).
  destruct (is_finite x) eqn:Fx.
  - rewrite lt_fin in Elt by auto.
    assert (Hle : B2R prev <= B2R x).
    { destruct (Rlt_bool_spec (B2R x) (B2R prev)); [discriminate|lra]. }
    assert (Hx1 : B2R x <= 1).
    { destruct v as [|y v].
      - cbn [last] in Hl. rewrite (lt_one x Fx) in Hl.
        destruct (Rlt_bool_spec 1 (B2R x)); [discriminate|lra].
      - destruct (Rle_or_lt (B2R x) 1) as [H|H]; [exact H|exfalso].
        (* walk to the end *)
        assert (HW : forall (w : list f64) (p : f64), Forall (fun x => is_nan x = false) w -> is_finite p = true ->
           1 < B2R p -> @is_monotone_from BN p w = true -> @n_lt BN n1 (last w p) = true).
        { clear. induction w as [|z w IHw]; intros p HN Hp Hlt Hm.
          - cbn [last]. rewrite (lt_one p Hp).
            apply Rlt_bool_true; exact Hlt.
          - inversion HN as [|? ? Hz HN']; subst. cbn [is_monotone_from] in Hm.
            destruct (@n_lt BN z p) eqn:Ez; [discriminate|].
            assert (Hlast : last (z :: w) p = last w z).
            { clear. revert z p. induction w as [|a w IH]; intros z p; [reflexivity|].
              change (last (a :: w) p = last (a :: w) z). rewrite !(IH a). reflexivity. }
            rewrite Hlast. destruct (is_finite z) eqn:Fz.
            + apply IHw; auto. rewrite lt_fin in Ez by auto.
              destruct (Rlt_bool_spec (B2R z) (B2R p)); [discriminate|lra].
            + assert (z = B754_infinity false) as ->.
              { destruct z as [s|[|]| |s m e Hb]; try discriminate; auto.
                destruct p; discriminate. }
              destruct w as [|a w]; [reflexivity|].
              rewrite (last_map_inf (a :: w)); [reflexivity|discriminate|].
              apply monotone_inf; auto. }
        assert (Hlast : last (x :: y :: v) d = last (y :: v) x).
        { change (last (x :: y :: v) d) with (last (y :: v) d). clear.
          revert y. induction v as [|a v IH]; intros y; [reflexivity|]. apply (IH a). }
        rewrite Hlast in Hl. rewrite (HW (y :: v) x) in Hl; auto; discriminate. }
    destruct (IH HN' x d Fx Hm) as (I1 & I2 & I3); auto.
    { intros Hne. destruct v; [congruence|]. exact Hl. }
    cbn [map]. split; [constructor; auto|]. split.
    + constructor; [lra|]. eapply Forall_impl; [|exact I2]. cbv beta. intros; lra.
    + constructor; auto. eapply Forall_impl; [|exact I2]. cbv beta. intros; lra.
  - exfalso. assert (x = B754_infinity false) as ->.
    { destruct x as [s|[|]| |s m e Hb]; try discriminate; auto. destruct prev; discriminate. }
    assert (last (B754_infinity false :: v) d = B754_infinity false) as Hi.
    { apply last_map_inf; [discriminate|]. constructor; auto. apply monotone_inf; auto. }
    pose proof (eq_trans (eq_sym Hl) (f_equal (fun z : f64 => @n_lt BN n1 z) Hi)) as Hq. discriminate Hq.
Qed.

Lemma monotone_ninf (x : f64) v : is_nan x = false ->
  @is_monotone_increasing BN (x :: v) = @is_monotone_from BN x v.
Proof. intros Hx. unfold is_monotone_increasing. destruct x as [s|[|]| |[|] m e Hb]; try discriminate; reflexivity. Qed.

Lemma monotone_complete (v : list f64) : forall prev, is_finite prev = true ->
  Forall (fun x => is_finite x = true) v -> Forall (Rle (B2R prev)) (map B2R v) -> StronglySorted Rle (map B2R v) ->
  @is_monotone_from BN prev v = true.
Proof.
  induction v as [|x v IH]; intros prev Hp HF Hl HS; [reflexivity|].
  inversion HF; subst. inversion Hl; subst. inversion HS; subst.
  cbn [is_monotone_from]. rewrite lt_fin by auto. rewrite Rlt_bool_false by assumption. apply IH; auto.
Qed.

Lemma last_nth_f64 (v : list f64) d : v <> [] -> nth (List.length v - 1) v d = last v d.
Proof.
  induction v as [|x v IH]; intros Hne; [congruence|]. destruct v as [|y v]; [reflexivity|].
  change (last (x :: y :: v) d) with (last (y :: v) d). rewrite <- IH by discriminate.
  cbn [List.length]. rewrite !Nat.sub_succ, !Nat.sub_0_r. reflexivity.
Qed.
Lemma back_last (v : list f64) : v <> [] -> @back BN v = Ok (last v (b64_of_Z 0)).
Proof.
  intros Hne. unfold back. rewrite (rd_get (b64_of_Z 0)).
  - f_equal. unfold get, size. rewrite <- last_nth_f64 by auto.
    change (nth (Z.to_nat (Z.of_nat (@List.length f64 v) - 1)) v (b64_of_Z 0) = nth (@List.length f64 v - 1) v (b64_of_Z 0)).
    f_equal. lia.
  - change (0 <= Z.of_nat (@List.length f64 v) - 1 < Z.of_nat (@List.length f64 v))%Z.
    destruct v; [congruence|]. cbn [List.length]. lia.
Qed.

(** NaN-free vectors pass validation exactly when they are allowed boundaries. *)
Lemma check_iff name n (v : list f64) : Forall (fun x => is_nan x = false) v ->
  (@check_boundary_vector BN name n v = Ok tt <-> Z.of_nat (List.length v) = n /\ accepted64 v).
Proof.
  intros HN. unfold check_boundary_vector. change (size v) with (Z.of_nat (List.length v)).
  destruct zero_ok as [F0 V0]. destruct one_ok as [F1 V1].
  destruct (Z.eqb_spec (Z.of_nat (List.length v)) n) as [Hn|Hn]; cbn [negb].
  2:{ split; [discriminate|tauto]. }
  destruct v as [|x v].
  { simpl. split; auto. intros _. split; auto. split; [constructor|split; constructor]. }
  inversion HN as [|? ? Hx HN']; subst n x0 l. rewrite monotone_ninf by auto.
  rewrite (proj2 (Z.ltb_lt 0 _)) by (cbn [List.length]; lia).
  rewrite back_last by discriminate.
  change (@front BN (x :: v)) with (@Ok f64 x). cbn [bind].
  split.
  - destruct (@is_monotone_from BN x v) eqn:Hm; cbn [negb]; [|discriminate].
    destruct (@n_lt BN x n0) eqn:E0; [discriminate|].
    destruct (@n_lt BN n1 (last (x :: v) (b64_of_Z 0))) eqn:E1; [discriminate|]. intros _. split; auto.
    destruct (is_finite x) eqn:Fx.
    + rewrite (lt_zero x Fx) in E0.
      assert (0 <= B2R x). { destruct (Rlt_bool_spec (B2R x) 0); [discriminate|lra]. }
      destruct (monotone_fin (x :: v) HN (b64_of_Z 0) (b64_of_Z 0) F0) as (G1 & G2 & G3).
      * cbn [is_monotone_from]. rewrite lt_fin by auto. rewrite V0, Rlt_bool_false by lra. exact Hm.
      * intros _. exact E1.
      * rewrite V0. lra.
      * split; [exact G1|]. split; [apply StronglySorted_Sorted, G3|]. rewrite V0 in G2. exact G2.
    + exfalso. destruct x as [s|[|]| |s m e Hb]; try discriminate.
      rewrite (last_map_inf (B754_infinity false :: v)) in E1; [discriminate|discriminate|].
      constructor; auto. apply monotone_inf; auto.
  - intros [_ [HF [HS HR]]]. inversion HF as [|? ? Fx HF']; subst.
    apply Sorted_strong in HS. cbn [map] in HS, HR. inversion HS; subst. inversion HR as [|? ? Hr HR']; subst.
    rewrite monotone_complete by auto. cbn [negb].
    rewrite (lt_zero x Fx), Rlt_bool_false by lra.
    assert (Hlast : forall u : list f64, u <> [] -> Forall (fun x => is_finite x = true) u ->
       Forall (fun x => 0 <= x <= 1) (map B2R u) -> is_finite (last u (b64_of_Z 0)) = true /\ B2R (last u (b64_of_Z 0)) <= 1).
    { clear. induction u as [|a u IH]; intros Hne HF HR; [congruence|].
      inversion HF; subst. inversion HR; subst. destruct u as [|c u]; [cbn [last]; split; auto; lra|].
      apply IH; auto. discriminate. }
    destruct (Hlast (x :: v)) as [Fl Vl]; [discriminate|auto|exact HR|].
    rewrite (lt_one _ Fl), Rlt_bool_false by lra. reflexivity.
Qed.

Lemma finite_not_nan (v : list f64) : Forall (fun x => is_finite x = true) v -> Forall (fun x => is_nan x = false) v.
Proof. apply Forall_impl. intros [ | | | ]; auto; discriminate. Qed.

Lemma check_accepted name (v : list f64) : accepted64 v -> @check_boundary_vector BN name (@size (car BN) v) v = Ok tt.
Proof. intros H. apply check_iff; [apply finite_not_nan, H|split; auto]. Qed.

(** The reflected vector 1 - v_n, ..., 1 - v_1 is accepted again. *)
Lemma one_minus (x : f64) : is_finite x = true -> 0 <= B2R x <= 1 ->
  is_finite (@n_sub BN n1 x) = true /\ B2R (@n_sub BN n1 x) = rnd (1 - B2R x) /\ 0 <= B2R (@n_sub BN n1 x) <= 1.
Proof.
  intros Fx Hx. destruct one_ok as [F1 V1].
  destruct (minus_ok (b64_of_Z 1) x F1 Fx) as (H1 & H2 & H3); [rewrite V1; lra|].
  rewrite V1 in H2, H3. auto.
Qed.

Lemma sorted_reflect (l : list R) : StronglySorted Rle l ->
  StronglySorted Rle (map (fun x => rnd (1 - x)) (rev l)).
Proof.
  induction 1 as [|a l HS IH Ha]; [constructor|]. cbn [rev]. rewrite map_app. cbn [map].
  assert (HF : Forall (fun y => y <= rnd (1 - a)) (map (fun x => rnd (1 - x)) (rev l))).
  { apply Forall_map. apply Forall_rev. eapply Forall_impl; [|exact Ha]. cbv beta. intros y Hy. apply rnd_le. lra. }
  revert HF IH. generalize (map (fun x => rnd (1 - x)) (rev l)). generalize (rnd (1 - a)). clear.
  intros c l HF HS. induction HS as [|y l HS IH Hy]; cbn [app]; [repeat constructor|].
  inversion HF; subst. constructor; auto. apply Forall_app; split; auto.
Qed.

Lemma accepted_reflected (v : list f64) : accepted64 v -> accepted64 (@reflected BN v).
Proof.
  intros [HF [HS HR]]. apply Sorted_strong in HS.
  assert (HR' : Forall (fun x : f64 => is_finite x = true /\ 0 <= B2R x <= 1) (rev v)).
  { apply Forall_rev. rewrite Forall_forall in *. intros x Hx. split; auto. apply HR. apply in_map, Hx. }
  unfold reflected. split; [|split].
  - apply Forall_map. eapply Forall_impl; [|exact HR']. cbv beta. intros x [H1 H2]. apply one_minus; auto.
  - apply StronglySorted_Sorted. rewrite map_map.
    change (StronglySorted Rle (@map f64 R (fun x => B2R (@n_sub BN n1 x)) (@rev f64 v))).
    assert (HE : @map f64 R (fun x => B2R (@n_sub BN n1 x)) (rev v) = map (fun x => rnd (1 - x)) (rev (map B2R v))).
    { rewrite <- map_rev, map_map. apply map_ext_in. intros x Hx. rewrite Forall_forall in HR'.
      destruct (HR' x Hx). apply one_minus; auto. }
    rewrite HE. apply sorted_reflect, HS.
  - apply Forall_map, Forall_map. eapply Forall_impl; [|exact HR']. cbv beta. intros x [H1 H2]. apply one_minus; auto.
Qed.

(** ** Rates: intensity * (later - earlier) *)
Lemma rate_ok (a x y : f64) : is_finite a = true -> 0 <= B2R a -> is_finite x = true -> is_finite y = true ->
  0 <= B2R y -> B2R y <= B2R x -> B2R x <= 1 ->
  let r := @n_mul BN a (@n_sub BN x y) in is_finite r = true /\ 0 <= B2R r.
Proof.
  intros Fa Ha Fx Fy Hy Hyx Hx. destruct (minus_ok x y Fx Fy) as (H1 & _ & H2); [lra|].
  destruct (mult_ok a (Bminus mode_NE x y) Fa H1 Ha) as (H3 & _ & H4); [lra|].
  cbv zeta. split; [exact H3|apply H4].
Qed.
Lemma fin_neg (r : f64) : is_finite r = true -> 0 <= B2R r -> @n_lt BN r n0 = false.
Proof.
  intros Fr Hr. rewrite (lt_zero r Fr). apply Rlt_bool_false, Hr.
Qed.
Lemma fin_le (r : f64) : is_finite r = true -> 0 <= B2R r -> @n_le BN n0 r = true.
Proof.
  intros Fr Hr. destruct zero_ok as [F0 V0].
  change (@n_le BN n0 r) with (Bleb (b64_of_Z 0) r). rewrite Bleb_correct, V0 by auto. apply Rle_bool_true, Hr.
Qed.
Lemma fin_cases (r : f64) : is_finite r = true -> 0 <= B2R r ->
  @n_lt BN n0 r = false -> @n_eq BN r n0 = true.
Proof.
  intros Fr Hr H. destruct zero_ok as [F0 V0]. rewrite (gt_zero r Fr) in H.
  change (@n_eq BN r n0) with (Beqb r (b64_of_Z 0)). rewrite Beqb_correct, V0 by auto.
  apply Req_bool_true. destruct (Rlt_bool_spec 0 (B2R r)); [discriminate|lra].
Qed.
End Check.
