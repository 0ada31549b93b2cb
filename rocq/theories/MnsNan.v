(** * MnsNan: boundaries of positive probability for which ecdf1_mns2016_b returns NaN in long double. *)
From Coquelicot Require Import Coquelicot.
From Flocq Require Import Core.Core IEEE754.BinarySingleNaN.
From Coq Require Import ZArith Reals List Bool Lia Lra String Factorial Sorted.
From Verif Require Import Base Num Common RSum Binary64 Binary64Facts B64Round LongDouble LdRound Ecdf1Mns NewMath MnsMath.
From Verif Require Import Binary64Cases Binary64Main AccMnsTail AccMns AccMnsCase Spec SpecFacts.
Import List. Import ListNotations.

(** powl correctly rounded on [0,1] *)
Record powl_correct (M : libml) : Prop := {
  pc_pow : forall (x : f80) (i : Z), is_finite x = true -> (0 < B2R x <= 1)%R -> (0 <= i)%Z ->
    is_finite (lm_powl M x i) = true /\
    B2R (lm_powl M x i) = round radix2 (SpecFloat.fexp 64 16384) ZnearestE (B2R x ^ Z.to_nat i)%R;
  pc_zero : forall i, (0 < i)%Z -> lm_powl M (B754_zero false) i = B754_zero false;
  pc_one : lm_powl M (B754_zero false) 0 = f80_of_Z 1
}.

(** what the mns algorithm computes does not depend on how powl is written *)
Lemma loop_ext {S} (f g : Z -> S -> outcome S) : (forall i s, f i s = g i s) -> forall k i s, loop k i f s = loop k i g s.
Proof.
  intros H k. induction k as [|k IH]; intros i s; [reflexivity|]. cbn [loop]. rewrite H. destruct (g i s); cbn [bind]; auto.
Qed.
Definition with_pow (M : libml) (pw : f80 -> Z -> f80) : libml :=
  mkLibml (lm_expl M) (lm_logl M) (lm_lgammal M) pw (lm_frexpl_special M).

Section Ext.
Context (L : libm) (E : env (Bnum L)) (M : libml) (pw : f80 -> Z -> f80).
Hypothesis Hpw : forall x i, lm_powl M x i = pw x i.
Notation F1 := (Lnum M).
Notation F2 := (Lnum (with_pow M pw)).

Lemma evaluate_ext (d : Z) (m a : list f80) (x : f80) :
  @evaluate F1 (@mkPtm F1 d m a) x = @evaluate F2 (@mkPtm F2 d m a) x.
Proof.
  unfold evaluate, for_. cbn [degree mult addc].
  apply (loop_ext (S := f80)). intros i s. change (car F1) with f80. change (car F2) with f80.
  destruct (rd m i); cbn [bind]; try reflexivity. destruct (rd a i); cbn [bind]; try reflexivity.
  change (@n_pow F1) with (lm_powl M). change (@n_pow F2) with pw. rewrite Hpw. reflexivity.
Qed.

Definition conv_ptm (p : ptm F1) : ptm F2 := @mkPtm F2 (degree p) (mult p : list f80) (addc p : list f80).
Definition conv_st (o : outcome (ptm F1 * Z)) : outcome (ptm F2 * Z) :=
  s <- o ;; Ok (conv_ptm (fst s), snd s).
Definition conv_o (o : outcome (ptm F1)) : outcome (ptm F2) := p <- o ;; Ok (conv_ptm p).

Lemma integrate_ext p : @integrate F2 (conv_ptm p) = conv_o (@integrate F1 p).
Proof.
  unfold integrate, conv_o. cbn [conv_ptm degree mult addc].
  change (@for_down (list (car F2) * list (car F2))) with (@for_down (list f80 * list f80)).
  change (@for_down (list (car F1) * list (car F1))) with (@for_down (list f80 * list f80)).
  match goal with |- bind ?A _ = bind (bind ?B _) _ => change A with B; destruct B as [[m a]| | | |] end; cbn [bind]; try reflexivity.
  change (car F1) with f80. change (car F2) with f80. change (@n0 F1) with (f80_of_Z 0). change (@n0 F2) with (f80_of_Z 0).
  destruct (wr (a : list f80) 1 (f80_of_Z 0)) as [a1| | | |]; cbn [bind]; try reflexivity.
  destruct (wr a1 0 (f80_of_Z 0)) as [a2| | | |]; cbn [bind]; try reflexivity.
  destruct (wr (m : list f80) 0 (f80_of_Z 0)); cbn [bind]; reflexivity.
Qed.
Lemma set_add_ext p d (v : f80) : @set_additive_coefficient (Bnum L) E F2 (conv_ptm p) d v = conv_o (@set_additive_coefficient (Bnum L) E F1 p d v).
Proof.
  unfold set_additive_coefficient, check_degree, conv_o. cbn [conv_ptm degree mult addc].
  change (car F1) with f80. change (car F2) with f80.
  destruct (cassert (asserts E) (0 <=? d)%Z _); cbn [bind]; try reflexivity.
  destruct (cassert (asserts E) (d <=? degree p)%Z _); cbn [bind]; try reflexivity.
  match goal with |- bind ?A _ = bind (bind ?B _) _ => change A with B; destruct B end; reflexivity.
Qed.
Lemma set_mult_ext p d (v : f80) : @set_multiplicative_coefficient (Bnum L) E F2 (conv_ptm p) d v = conv_o (@set_multiplicative_coefficient (Bnum L) E F1 p d v).
Proof.
  unfold set_multiplicative_coefficient, check_degree, conv_o. cbn [conv_ptm degree mult addc].
  change (car F1) with f80. change (car F2) with f80.
  destruct (cassert (asserts E) (0 <=? d)%Z _); cbn [bind]; try reflexivity.
  destruct (cassert (asserts E) (d <=? degree p)%Z _); cbn [bind]; try reflexivity.
  match goal with |- bind ?A _ = bind (bind ?B _) _ => change A with B; destruct B end; reflexivity.
Qed.
Lemma max_ext p : @maximum_multiplicative_coefficient (Bnum L) E F2 (conv_ptm p) = @maximum_multiplicative_coefficient (Bnum L) E F1 p.
Proof. reflexivity. Qed.
Lemma ldexp_ext p e : @ldexp_all_multiplicative_coefficients F2 (conv_ptm p) e = conv_o (@ldexp_all_multiplicative_coefficients F1 p e).
Proof.
  unfold ldexp_all_multiplicative_coefficients, conv_o. cbn [conv_ptm degree mult addc].
  match goal with |- bind ?A _ = bind (bind ?B _) _ => change A with B; destruct B end; reflexivity.
Qed.
Lemma eval_conv p (x : f80) : @evaluate F2 (conv_ptm p) x = @evaluate F1 p x.
Proof. destruct p as [d m a]. symmetry. apply evaluate_ext. Qed.

Lemma step_ext b i p delta : @mns_step (Bnum L) E (x87 L (with_pow M pw)) b i (conv_ptm p, delta) =
  conv_st (@mns_step (Bnum L) E (x87 L M) b i (p, delta)).
Proof.
  unfold mns_step, conv_st. change (ld (x87 L M)) with F1. change (ld (x87 L (with_pow M pw))) with F2.
  rewrite integrate_ext. unfold conv_o. destruct (@integrate F1 p) as [p1| | | |]; cbn [bind]; try reflexivity.
  change (car (Bnum L)) with f64. destruct (@rd f64 b i) as [bi| | | |]; cbn [bind]; try reflexivity.
  change (@widen _ (x87 L (with_pow M pw))) with f80_of_f64. change (@widen _ (x87 L M)) with f80_of_f64.
  rewrite set_add_ext. unfold conv_o. destruct (@set_additive_coefficient (Bnum L) E F1 p1 1 _) as [p2| | | |]; cbn [bind]; try reflexivity.
  rewrite eval_conv. change (car F1) with f80. change (car F2) with f80. destruct (@evaluate F1 p2 _) as [v| | | |]; cbn [bind]; try reflexivity.
  change (@n_neg F1) with (@Bopp 64 16384). change (@n_neg F2) with (@Bopp 64 16384).
  rewrite set_mult_ext. unfold conv_o. destruct (@set_multiplicative_coefficient (Bnum L) E F1 p2 0 _) as [p3| | | |]; cbn [bind]; try reflexivity.
  destruct (Z.rem i NUM_ITERATIONS_BETWEEN_EXP_FIXES =? 0)%Z; [|reflexivity].
  rewrite max_ext. change (car F1) with f80. destruct (@maximum_multiplicative_coefficient (Bnum L) E F1 p3) as [mx| | | |]; cbn [bind]; try reflexivity.
  change (@extract_exponent F2 mx) with (@extract_exponent F1 mx).
  destruct (@extract_exponent F1 mx <? 0)%Z; [|reflexivity].
  rewrite ldexp_ext. unfold conv_o. destruct (@ldexp_all_multiplicative_coefficients F1 p3 _) as [p4| | | |]; cbn [bind]; reflexivity.
Qed.
Lemma loop_conv b k : forall i p delta, loop k i (@mns_step (Bnum L) E (x87 L (with_pow M pw)) b) (conv_ptm p, delta) =
  conv_st (loop k i (@mns_step (Bnum L) E (x87 L M) b) (p, delta)).
Proof.
  induction k as [|k IH]; intros i p delta; [reflexivity|]. cbn [loop]. rewrite step_ext.
  destruct (@mns_step (Bnum L) E (x87 L M) b i (p, delta)) as [[p1 d1]| | | |]; cbn [bind conv_st fst snd]; try reflexivity.
  apply IH.
Qed.
Lemma mns_ext b : @mns_b (Bnum L) E (x87 L M) b = @mns_b (Bnum L) E (x87 L (with_pow M pw)) b.
Proof.
  unfold mns_b. change (ld (x87 L M)) with F1. change (ld (x87 L (with_pow M pw))) with F2.
  destruct (check_boundary_vector _ _ _); cbn [bind]; try reflexivity.
  assert (HM : @ptm_make (Bnum L) E F2 (size b + 1) = conv_o (@ptm_make (Bnum L) E F1 (size b + 1))).
  { unfold ptm_make, conv_o. destruct (cassert _ _ _); reflexivity. }
  rewrite HM. unfold conv_o at 1. destruct (@ptm_make (Bnum L) E F1 (size b + 1)) as [p| | | |]; cbn [bind]; try reflexivity.
  change (@n1 F2) with (f80_of_Z 1). change (@n1 F1) with (f80_of_Z 1).
  rewrite set_mult_ext. unfold conv_o. destruct (@set_multiplicative_coefficient (Bnum L) E F1 p 0 _) as [p1| | | |]; cbn [bind]; try reflexivity.
  unfold for_. rewrite loop_conv. unfold conv_st.
  match goal with |- bind ?B _ = bind (bind ?A _) _ => change B with A; destruct A as [[p2 delta]| | | |] end; cbn [bind fst snd]; try reflexivity.
  rewrite eval_conv. change (car F1) with f80. change (car F2) with f80. destruct (@evaluate F1 p2 (f80_of_Z 1)); reflexivity.
Qed.
End Ext.

(** powl replaced by an explicit computation where it is specified *)
Definition pow_spec (x : f80) (i : Z) : bool :=
  (0 <=? i)%Z &&
  match x with
  | B754_zero false => true
  | B754_finite false _ _ _ => Bleb x (f80_of_Z 1) && is_finite_strict (pow_cr x i)
  | _ => false
  end.
Definition pow' (M : libml) (x : f80) (i : Z) : f80 := if pow_spec x i then pow_cr x i else lm_powl M x i.

Lemma finite_strict_nz (x : f80) : is_finite x = true -> B2R x <> 0%R -> is_finite_strict x = true.
Proof. destruct x; intros F H; try discriminate; auto; elim H; reflexivity. Qed.
Lemma strict_nz (x : f80) : is_finite_strict x = true -> is_finite x = true /\ B2R x <> 0%R.
Proof.
  destruct x as [| | |s m e H]; try discriminate. intros _. split; [reflexivity|]. simpl.
  intros HC. apply eq_0_F2R in HC. destruct s; discriminate.
Qed.
Lemma pow'_eq M : powl_correct M -> forall x i, lm_powl M x i = pow' M x i.
Proof.
  intros [HP HZ H1] x i. unfold pow', pow_spec. destruct (Z.leb_spec 0 i) as [Hi|Hi]; cbn [andb]; [|reflexivity].
  destruct x as [[]|s| |[] m e Hb]; try reflexivity.
  - cbn [pow_cr]. destruct (Z.eqb_spec i 0) as [->|Hne]; [exact H1|]. cbn [andb]. apply HZ. lia.
  - set (x := B754_finite false m e Hb). destruct (Bleb x (f80_of_Z 1)) eqn:HL; cbn [andb]; [|reflexivity].
    destruct (is_finite_strict (pow_cr x i)) eqn:HS; [|reflexivity].
    assert (Fx : is_finite x = true) by reflexivity.
    destruct (ofZ80 1) as [F1 V1]; [lia|]. rewrite Bleb_correct in HL by auto.
    assert (Hx : (0 < B2R x <= 1)%R).
    { split; [apply F2R_gt_0; reflexivity|]. destruct (Rle_bool_spec (B2R x) (B2R (f80_of_Z 1))); [|discriminate]. lra. }
    destruct (HP x i Fx Hx Hi) as [Fp Vp]. destruct (pow_cr_ok x i Fx ltac:(lra) Hi) as [Fc Vc].
    destruct (strict_nz _ HS) as [_ Hnz].
    apply B2R_inj; [|exact HS|congruence]. apply finite_strict_nz; [exact Fp|]. congruence.
Qed.

(** the integral and the exponent before the last line of ecdf1_mns2016_b *)
Section Parts.
Context {N : num} (E : env N) (LD : long_double N).
Definition mns_parts (b : list (car N)) : outcome (car (ld LD) * Z) :=
  let n := size b in
  do check_boundary_vector "b" n b ;;
  p <- ptm_make E (n + 1) ;;
  p <- set_multiplicative_coefficient E p 0 n1 ;;
  s <- for_ 0 n (p, 0%Z) (mns_step E LD b) ;;
  let '(p, d) := s in
  r <- evaluate p n1 ;; Ok (r, d).
Lemma mns_b_parts b : mns_b E LD b = 
  (rd <- mns_parts b ;; let '(r, d) := rd in
   Ok (narrow LD (n_exp (n_sub (n_add (n_lgamma (size b + 1)) (n_log r)) (n_mul (n_of_Z d) (n_log (n_of_Z 2))))))).
Proof.
  unfold mns_b, mns_parts. destruct (check_boundary_vector _ _ _); cbn [bind]; try reflexivity.
  destruct (ptm_make E _); cbn [bind]; try reflexivity.
  destruct (set_multiplicative_coefficient E _ _ _); cbn [bind]; try reflexivity.
  destruct (for_ 0 _ _ _) as [[p d]| | | |]; cbn [bind]; try reflexivity.
  destruct (evaluate _ _); reflexivity.
Qed.
End Parts.

(** 1/8 and the largest double below 1 *)
Definition f_eighth : f64 := @B754_finite 53 1024 false 4503599627370496 (-55) eq_refl.
Definition f_below1 : f64 := @B754_finite 53 1024 false 9007199254740991 (-53) eq_refl.
Definition f_zero : f64 := B754_zero false.
Definition nan_b : list f64 := [f_zero; f_eighth; f_eighth; f_below1; f_below1].

Lemma nan_parts L (E : env (Bnum L)) M :
  match @mns_parts (Bnum L) E (x87 L (with_pow M (pow' M))) nan_b with
  | Ok (r, _) => andb (is_finite (r : f80)) (Bltb (r : f80) (B754_zero false))
  | _ => false
  end = true.
Proof. destruct E as [a ? ? ? ? ? ?]. destruct a; vm_compute; reflexivity. Qed.

(** positive volume: every location before the k-th below x *)
Lemma h_pos (b : list R) : Sorted.Sorted Rle b -> forall k, (k <= List.length b)%nat ->
  forall x, (forall j, (j < k)%nat -> (Bf b j < x)%R) -> (0 < h b k x)%R.
Proof.
  intros HS k. induction k as [|k IH]; intros Hk x Hx.
  - rewrite h_0. lra.
  - assert (Hlt : (Bf b k < x)%R) by (apply Hx; lia).
    destruct (MVT_cor2 (h b (S k)) (h b k) (Bf b k) x Hlt) as (c & Hc & Hcc).
    { intros y _. apply is_derive_Reals, h_derive. }
    rewrite h_at, Rminus_0_r in Hc. rewrite Hc. apply Rmult_lt_0_compat; [|lra].
    apply IH; [lia|]. intros j Hj. apply Rle_lt_trans with (Bf b k); [|lra].
    unfold Bf. apply nth_sorted; [|lia]. apply Sorted.Sorted_StronglySorted; [intros ? ? ?; apply Rle_trans|exact HS].
Qed.
Lemma prob_pos (b : list R) n p : valid_boundary b -> List.length b = n -> List.Forall (fun x => (x < 1)%R) b ->
  is_prob n (noncrossing_b b) p -> (0 < p)%R.
Proof.
  intros Hb Hl HF Hp. pose proof (prob_is_D_b n b Hb Hl) as H.
  rewrite (is_prob_unique _ _ _ _ Hp H). apply Rmult_lt_0_compat; [apply INR_fact_lt_0|].
  apply h_pos; [apply Hb|lia|]. intros j Hj. unfold Bf. rewrite Forall_forall in HF. apply HF, nth_In. lia.
Qed.

Lemma v_eighth : B2R f_eighth = (1 / 8)%R.
Proof. unfold B2R, f_eighth, F2R. cbn [Fnum Fexp cond_Zopp]. change (bpow radix2 (-55)) with (/ 36028797018963968)%R. lra. Qed.
Lemma v_below1 : B2R f_below1 = (9007199254740991 / 9007199254740992)%R.
Proof. unfold B2R, f_below1, F2R. cbn [Fnum Fexp cond_Zopp]. change (bpow radix2 (-53)) with (/ 9007199254740992)%R. lra. Qed.
Lemma nan_b_accepted : accepted64 nan_b.
Proof.
  pose proof v_eighth. pose proof v_below1. assert (B2R f_zero = 0)%R by reflexivity.
  split; [repeat (apply Forall_cons || apply Forall_nil); reflexivity|]. cbn [map nan_b]. split.
  - repeat (apply Sorted_cons || apply Sorted_nil || apply HdRel_cons || apply HdRel_nil); lra.
  - repeat (apply Forall_cons || apply Forall_nil); cbv beta; lra.
Qed.
Lemma nan_b_below1 : List.Forall (fun x => (x < 1)%R) (map B2R nan_b).
Proof.
  pose proof v_eighth. pose proof v_below1. assert (B2R f_zero = 0)%R by reflexivity.
  cbn [map nan_b]. repeat (apply Forall_cons || apply Forall_nil); lra.
Qed.

Lemma mns_nan L (E : env (Bnum L)) M : powl_correct M -> libml_special M -> long_dbl E = x87 L M ->
  @ecdf1_mns2016_b (Bnum L) E nan_b = Ok (B754_nan : f64).
Proof.
  intros HP HS HLD. unfold ecdf1_mns2016_b. rewrite HLD, (mns_ext L E M (pow' M) (pow'_eq M HP)), mns_b_parts.
  pose proof (nan_parts L E M) as H. destruct (mns_parts E _ nan_b) as [[r d]| | | |]; try discriminate.
  cbn [bind]. apply andb_prop in H. destruct H as [Fr Hr]. 
  rewrite Bltb_correct in Hr by auto.
  assert (Hneg : (B2R (r : f80) < 0)%R) by (destruct (Rlt_bool_spec (B2R (r : f80)) (B2R (B754_zero false : f80))); [assumption|discriminate]).
  pose proof (accl_log_neg M HS r Fr Hneg) as HN.
  change (@n_log (ld (x87 L (with_pow M (pow' M)))) r) with (lm_logl M r). rewrite HN.
  f_equal.
  change (f64_of_f80 (lm_expl M (Bminus mode_NE (Bplus mode_NE (lm_lgammal M (size nan_b + 1)) B754_nan)
     (Bmult mode_NE (f80_of_Z d) (lm_logl M (f80_of_Z 2))))) = B754_nan).
  replace (Bplus mode_NE (lm_lgammal M (size nan_b + 1)) B754_nan) with (B754_nan : f80) by (destruct (lm_lgammal M (size nan_b + 1)); reflexivity).
  cbn [Bminus]. rewrite (accl_exp_nan M HS). reflexivity.
Qed.

Lemma mns_nan_positive L (E : env (Bnum L)) M : powl_correct M -> libml_special M -> long_dbl E = x87 L M ->
  exists (b : list f64) p, accepted64 b /\ is_prob (List.length b) (noncrossing_b (map B2R b)) p /\ (0 < p)%R /\
    @ecdf1_mns2016_b (Bnum L) E b = Ok (B754_nan : f64).
Proof.
  intros HP HS HLD. exists nan_b.
  pose proof (prob_is_D_b (List.length nan_b) (map B2R nan_b) (proj2 nan_b_accepted) (map_length _ _)) as H.
  eexists. split; [apply nan_b_accepted|]. split; [exact H|]. split; [|exact (mns_nan L E M HP HS HLD)].
  exact (prob_pos _ _ _ (proj2 nan_b_accepted) (map_length _ _) nan_b_below1 H).
Qed.

Lemma cr80_pow : powl_correct cr_libml.
Proof.
  split.
  - intros x i Fx Hx Hi. apply pow_cr_ok; auto. lra.
  - intros i Hi. simpl. destruct (Z.eqb_spec i 0); [lia|reflexivity].
  - reflexivity.
Qed.

Lemma nan_b_values : map B2R nan_b = [0; 1/8; 1/8; 9007199254740991 / 9007199254740992; 9007199254740991 / 9007199254740992]%R.
Proof. cbn [map nan_b]. rewrite v_eighth, v_below1. reflexivity. Qed.
