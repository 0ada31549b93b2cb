(** * McFast: the simulations of crossprob_mc under -ffast-math: random numbers, sums and tests. *)
From Coquelicot Require Import Coquelicot.
From Flocq Require Import Core.Core IEEE754.BinarySingleNaN.
From Coq Require Import ZArith Reals List Bool Lia Lra Sorted.
From Verif Require Import Base Num Binary64 Binary64Facts XReal Hoare TinyMT MonteCarlo Spec McSpec McProbSpec McFacts McLoop McMore McEstimate.
From Verif Require Import AccPmf AccCases TinyMTFacts TinyMTBinary64 McB64Spec McB64 McB64Est FastMath FastInst FastNewLower.
From Verif Require Import B64Round.
Import List. Import ListNotations.
Local Open Scope R_scope.

Lemma pow_lin m : (Z.of_nat m <= 2 ^ 40)%Z -> (1 + u64) ^ m - 1 <= 2 * (INR m * u64).
Proof.
  intros Hm. assert (H : forall k, (k <= m)%nat -> (1 + u64) ^ k - 1 <= 2 * (INR k * u64)).
  { pose proof u64_pos as Hu. induction k as [|k IH]; intros Hk; [simpl; lra|].
    assert (P : 1 <= (1 + u64) ^ k <= 2) by (apply pow2; lia). rewrite S_INR. cbn [pow].
    assert (u64 * (1 + u64) ^ k <= u64 * 2) by (apply Rmult_le_compat_l; lra).
    specialize (IH ltac:(lia)). lra. }
  apply H. lia.
Qed.

Section Fast.
Context (C : compiler) (L : libm).
Notation flush := (cp_flush C).
Notation FN := (Fnum C L).
Notation pick := (cp_sum C).
Notation sv := (sv flush).
Notation tv := (tval flush).
Notation ffin := (ffin C).
Notation fval := (fval C).
Context {frexp : xr -> Z}.
Notation XN := (Xnum frexp).

(** ** Uniform numbers *)
Lemma draw_fast r u r1 : state_ok r -> tinymt64_generate_double01 (N := XN) r = (Fin u, r1) ->
  exists w, tinymt64_generate_double01 (N := FN) r = (w, r1) /\ is_finite (pick w) = true /\ B2R (pick w) = u.
Proof.
  intros Hr G.
  destruct (outputs64 L (frexp := frexp) r Hr) as ((u' & G1 & (Fv & Vv) & Hu) & _).
  rewrite G in G1. cbn [fst] in G1. injection G1 as <-.
  pose proof (next_ok r Hr) as Hn. pose proof (conv64 L _ Hn) as [Fc Vc].
  pose proof (top52_word _ Hn) as W. pose proof (unit_fraction _ W) as U.
  set (v := @tinymt64_temper_conv (Bnum L) (tinymt64_next_state r) : f64) in *.
  assert (E1 : r1 = tinymt64_next_state r) by (rewrite (draw_state XN) in G; exact (eq_sym (f_equal snd G))).
  exists [TVal false v; TVal true (b64_of_Z 1)]. split; [subst r1; reflexivity|].
  destruct (sv_of_Z C 1 ltac:(lia)) as [F1 V1].
  pose proof (pick_diff C v (b64_of_Z 1) Fc F1) as Hw. rewrite V1 in Hw.
  assert (Vs : sv v = B2R v).
  { apply sv_normal. left. rewrite Vc, Rabs_pos_eq by lra. apply Rle_trans with 1; [|lra]. change 1 with (bpow radix2 0). apply bpow_le. lia. }
  rewrite Vs in Hw.
  assert (Eu : B2R v - 1 = u).
  { assert (EX : fst (tinymt64_generate_double01 (N := XN) r) = Fin (IZR (top52 (tinymt64_next_state r)) / IZR (2 ^ 52))).
    { unfold tinymt64_generate_double01. cbn [fst].
      assert (EC : @tinymt64_temper_conv XN (tinymt64_next_state r) = Fin (1 + IZR (top52 (tinymt64_next_state r)) / IZR (2 ^ 52))).
      { unfold tinymt64_temper_conv. rewrite conv_bits. exact (of_bits_one _ W). }
      rewrite EC. change (@n1 XN) with (Fin 1). cbn [n_sub Xnum xsub]. f_equal. ring. }
    rewrite G in EX. cbn [fst] in EX. injection EX as EX. change (u = IZR (top52 (tinymt64_next_state r)) / IZR (2 ^ 52)) in EX. rewrite Vc, EX. ring. }
  rewrite Eu in Hw.
  assert (Er : rnd64 u = u).
  { rewrite <- Vv. apply rnd_B2R. }
  destruct Hw as [Fw Hw].
  { rewrite Er, Rabs_pos_eq by lra. apply Rlt_le_trans with 1; [lra|]. change 1 with (bpow radix2 0). apply bpow_le. lia. }
  split; [exact Fw|]. rewrite Er in Hw. destruct Hw as [Hw|(_ & Hs & Hw)]; [exact Hw|].
  rewrite Hw. rewrite Rabs_pos_eq in Hs by lra.
  (* u is a multiple of 2^-52 *)
  assert (EX : u = IZR (top52 (tinymt64_next_state r)) / IZR (2 ^ 52)) by lra.
  destruct (Z.eq_dec (top52 (tinymt64_next_state r)) 0) as [E0|N0]; [rewrite E0 in EX; rewrite EX; unfold Rdiv; ring|].
  exfalso. assert (H1 : 1 <= IZR (top52 (tinymt64_next_state r))) by (apply IZR_le; destruct W; lia).
  assert (H2 : bpow radix2 (-52) <= u).
  { rewrite EX. change (bpow radix2 (-52)) with (/ IZR (2 ^ 52)). unfold Rdiv. rewrite <- (Rmult_1_l (/ IZR (2 ^ 52))) at 1.
    apply Rmult_le_compat_r; [|exact H1]. left. apply Rinv_0_lt_compat, IZR_lt. reflexivity. }
  pose proof (bpow_lt radix2 (-1022) (-52) ltac:(lia)). lra.
Qed.

(** the smallest and the largest of them *)
Lemma draw_bounds r u r1 : state_ok r -> tinymt64_generate_double01 (N := XN) r = (Fin u, r1) -> 0 < u < 1 ->
  bpow radix2 (-52) <= u /\ bpow radix2 (-53) <= - ln u <= 1074.
Proof.
  intros Hr G Hu.
  destruct (outputs64 L (frexp := frexp) r Hr) as ((u' & G1 & (Fv & Vv) & _) & _).
  rewrite G in G1. cbn [fst] in G1. injection G1 as <-. rewrite <- Vv in Hu |- *.
  set (x := fst (@tinymt64_generate_double01 (Bnum L) r) : f64) in *.
  assert (H2 : bpow radix2 (-52) <= B2R x).
  { pose proof (next_ok r Hr) as Hn. pose proof (top52_word _ Hn) as W.
    assert (EX : fst (tinymt64_generate_double01 (N := XN) r) = Fin (IZR (top52 (tinymt64_next_state r)) / IZR (2 ^ 52))).
    { unfold tinymt64_generate_double01. cbn [fst].
      assert (EC : @tinymt64_temper_conv XN (tinymt64_next_state r) = Fin (1 + IZR (top52 (tinymt64_next_state r)) / IZR (2 ^ 52))).
      { unfold tinymt64_temper_conv. rewrite conv_bits. exact (of_bits_one _ W). }
      rewrite EC. change (@n1 XN) with (Fin 1). cbn [n_sub Xnum xsub]. f_equal. ring. }
    rewrite G in EX. cbn [fst] in EX. injection EX as EX.
    assert (P52 : 0 < / IZR (2 ^ 52)) by (apply Rinv_0_lt_compat, IZR_lt; reflexivity).
    assert (N0 : top52 (tinymt64_next_state r) <> 0%Z).
    { intros E0. rewrite E0 in EX. unfold Rdiv in EX. rewrite Rmult_0_l in EX. lra. }
    assert (H1 : 1 <= IZR (top52 (tinymt64_next_state r))) by (apply IZR_le; destruct W; lia).
    rewrite Vv, EX. change (bpow radix2 (-52)) with (/ IZR (2 ^ 52)). unfold Rdiv. rewrite <- (Rmult_1_l (/ IZR (2 ^ 52))) at 1.
    apply Rmult_le_compat_r; [left; exact P52|exact H1]. }
  split; [exact H2|]. split; [|apply double_ge_min; lra].
  pose proof (one_minus_gap x ltac:(lra)) as Hg.
  pose proof (exp_ineq1_le (ln (B2R x))) as He. rewrite exp_ln in He by lra. lra.
Qed.

(** ** Sums of positive terms *)
Definition good (e : R) (j : nat) (a : list term) (A : R) : Prop :=
  Forall tfin a /\ List.length a = S j /\ Forall (fun t => 0 <= tv t) a /\ Rabs (lsum flush a - A) <= e * A /\
  0 <= A <= 1074 * INR j /\ ((1 <= j)%nat -> bpow radix2 (-80) <= A).

Lemma good_0 e : 0 <= e -> good e 0 (lit (b64_of_Z 0)) 0.
Proof.
  intros He. destruct (sv_of_Z C 0 ltac:(lia)) as [F0 V0].
  split; [repeat constructor; exact F0|]. split; [reflexivity|]. split; [repeat constructor; cbn [tval sg]; lra|].
  cbn [lsum lit fold_right tval sg]. rewrite V0. split; [|split].
  - replace (0 + 0 - 0) with 0 by ring. rewrite Rabs_R0. lra.
  - simpl. lra.
  - lia.
Qed.
Lemma good_next e j a A t X : good e j a A -> 0 <= e <= / 8 -> tfin t -> Rabs (tv t - X) <= e * X -> bpow radix2 (-80) <= X <= 1074 ->
  good e (S j) (a ++ [t]) (A + X).
Proof.
  intros (H1 & H2 & H3 & H4 & H5 & H6) He Ft Et HX. pose proof (bpow_gt_0 radix2 (-80)) as P80.
  assert (HeX : e * X <= / 8 * X) by (apply Rmult_le_compat_r; lra).
  split; [apply Forall_app; auto|]. split; [rewrite app_length; simpl; lia|]. split.
  { apply Forall_app. split; [exact H3|]. constructor; [|constructor]. apply Rabs_le_inv in Et. lra. }
  rewrite lsum_app. cbn [lsum fold_right]. split; [|split].
  - replace (lsum flush a + (tv t + 0) - (A + X)) with ((lsum flush a - A) + (tv t - X)) by ring.
    eapply Rle_trans; [apply Rabs_triang|]. lra.
  - rewrite S_INR. lra.
  - intros _. lra.
Qed.
Lemma nonneg_sums a : Forall (fun t => 0 <= tv t) a -> labs flush a = lsum flush a /\ 0 <= lsum flush a.
Proof.
  induction 1 as [|t a Ht _ [IH1 IH2]]; cbn [labs lsum fold_right]; [lra|].
  unfold labs, lsum in *. rewrite IH1, Rabs_pos_eq by exact Ht. lra.
Qed.

Definition close (th : R) (x : list term) (X : R) : Prop := ffin x /\ 0 <= fval x /\ Rabs (fval x - X) <= th * X.

Lemma good_value e j a A : good e j a A -> 0 <= e <= / 8 -> (1 <= j)%nat -> INR (S j) <= 2 ^ 40 ->
  close (e + 3 * INR (S j) * u64) a A.
Proof.
  intros (H1 & H2 & H3 & H4 & H5 & H6) He Hj HB. specialize (H6 Hj).
  pose proof (bpow_gt_0 radix2 (-80)) as P80. pose proof u64_pos as Hu. pose proof eta0_pos as He0.
  destruct (nonneg_sums a H3) as [Hab Hpos].
  set (m := S j) in *.
  assert (Hm : (Z.of_nat m <= 2 ^ 40)%Z).
  { apply le_IZR. rewrite <- INR_IZR_INZ. eapply Rle_trans; [exact HB|]. rewrite pow_IZR. apply IZR_le. lia. }
  assert (HeA : e * A <= / 8 * A) by (apply Rmult_le_compat_r; lra).
  pose proof (Rabs_le_inv _ _ H4) as HS.
  assert (HJ : INR j <= 2 ^ 40) by (apply Rle_trans with (INR m); [apply le_INR; lia|exact HB]).
  assert (HL55 : lsum flush a <= bpow radix2 55).
  { apply Rle_trans with (9 / 8 * (1074 * 2 ^ 40)); [lra|]. change (bpow radix2 55) with (IZR (2 ^ 55)). lra. }
  destruct (pick_err C a) as [Fa Ea].
  { destruct a; [discriminate|discriminate]. }
  { exact H1. } { rewrite H2. exact Hm. } { rewrite Hab. exact HL55. }
  rewrite H2, Hab in Ea. unfold eb in Ea.
  pose proof (pow_lin m Hm) as HP. pose proof (pow2 m Hm) as HP2.
  assert (Hm1 : 1 <= INR m) by (apply (le_INR 1); lia).
  assert (Hmu : 0 <= INR m * u64) by (apply Rmult_le_pos; lra).
  assert (Hmu2 : INR m * u64 <= / 8192).
  { apply Rle_trans with (2 ^ 40 * u64); [apply Rmult_le_compat_r; lra|]. unfold u64. change (bpow radix2 (-53)) with (/ IZR (2 ^ 53)).
    rewrite pow_IZR. simpl Z.of_nat. simpl Z.pow. lra. }
  assert (T1 : ((1 + u64) ^ m - 1) * lsum flush a <= 2 * (INR m * u64) * (9 / 8 * A)).
  { apply Rmult_le_compat; lra. }
  assert (T2 : (1 + u64) ^ m * ((2 * INR m - 1) * eta0) <= / 2 * (INR m * u64 * A)).
  { apply Rle_trans with (2 * ((2 * INR m) * eta0)).
    - apply Rmult_le_compat; [lra| |lra|]; [apply Rmult_le_pos; lra|apply Rmult_le_compat_r; lra].
    - assert (HE : 8 * eta0 <= u64 * A).
      { apply Rle_trans with (u64 * bpow radix2 (-80)); [|apply Rmult_le_compat_l; lra].
        unfold eta0, u64. change 8 with (bpow radix2 3). rewrite <- !bpow_plus. apply bpow_le. lia. }
      assert (INR m * (8 * eta0) <= INR m * (u64 * A)) by (apply Rmult_le_compat_l; lra). lra. }
  assert (HmuA : INR m * u64 * A <= / 8192 * A) by (apply Rmult_le_compat_r; lra).
  assert (HmuA0 : 0 <= INR m * u64 * A) by (apply Rmult_le_pos; lra).
  assert (Hf : Rabs (fval a - A) <= (e + 3 * INR m * u64) * A).
  { replace (fval a - A) with ((fval a - lsum flush a) + (lsum flush a - A)) by ring.
    eapply Rle_trans; [apply Rabs_triang|]. lra. }
  split; [exact Fa|]. split; [|exact Hf]. apply Rabs_le_inv in Hf. lra.
Qed.

(** ** Comparisons *)
Lemma lt_fast x y : ffin x -> ffin y -> @n_lt FN x y = Rlt_bool (fval x) (fval y).
Proof.
  intros [_ Fx] [_ Fy]. change (@n_lt FN x y) with (Bltb (seen flush (pick x)) (seen flush (pick y))).
  rewrite (Bltb_correct 53 1024) by (apply seen_fin; assumption). reflexivity.
Qed.
Definition xval (x : list term) : xr := Fin (fval x).
Notation fins v := (Forall ffin v).

Lemma test_fast (a c : list (car FN)) i : fins a -> fins c ->
  (s <- rd a i ;; t <- rd c i ;; Ok (@n_lt FN s t)) = (s <- rd (map xval a) i ;; t <- rd (map xval c) i ;; Ok (@n_lt XN s t)).
Proof.
  intros Fa Fc. rewrite !rd_map. change (@rd (list term)) with (@rd (car FN)). destruct (rd a i) as [s| | | |] eqn:Es; try reflexivity. cbn [bind].
  destruct (rd c i) as [t| | | |] eqn:Et; try reflexivity. cbn [bind]. f_equal.
  apply lt_fast; [exact (rd_in _ _ _ _ Fa Es)|exact (rd_in _ _ _ _ Fc Et)].
Qed.
Lemma test_fast' (a c : list (car FN)) i : fins a -> fins c ->
  (s <- rd a i ;; t <- rd c i ;; Ok (@n_lt FN t s)) = (s <- rd (map xval a) i ;; t <- rd (map xval c) i ;; Ok (@n_lt XN t s)).
Proof.
  intros Fa Fc. rewrite !rd_map. change (@rd (list term)) with (@rd (car FN)). destruct (rd a i) as [s| | | |] eqn:Es; try reflexivity. cbn [bind].
  destruct (rd c i) as [t| | | |] eqn:Et; try reflexivity. cbn [bind]. f_equal.
  apply lt_fast; [exact (rd_in _ _ _ _ Fc Et)|exact (rd_in _ _ _ _ Fa Es)].
Qed.

Lemma cross_fast (x b B : list (car FN)) : fins x -> fins b -> fins B ->
  does_integer_step_function_cross (N := FN) x (Z.of_nat (length x)) b B =
  does_integer_step_function_cross (N := XN) (map Fin (map fval x)) (Z.of_nat (length (map fval x))) (map Fin (map fval b)) (map Fin (map fval B)).
Proof.
  intros Fx Fb FB. rewrite !map_map. fold xval.
  change (map (fun t : list term => Fin (fval t))) with (map xval).
  assert (E : forall l : list (list term), @size (car XN) (map xval l) = @size (car FN) l) by (intros l; unfold size; rewrite map_length; reflexivity).
  unfold does_integer_step_function_cross, does_integer_step_function_cross_lower_boundary, does_integer_step_function_cross_upper_boundary.
  change (car FN) with (list term) in *. rewrite !E, !map_length.
  rewrite (any_index_ext _ _ (fun i => test_fast x b i Fx Fb)).
  rewrite (any_index_ext _ _ (fun i => test_fast' x B i Fx FB)). reflexivity.
Qed.

(** Boundary values: finite and not subnormal. *)
Definition usual (x : f64) : Prop := is_finite x = true /\ (B2R x = 0 \/ bpow radix2 (-1022) <= Rabs (B2R x)).
Lemma usual_values (b : list f64) : Forall usual b -> fins (map lit b) /\ map fval (map lit b) = map B2R b.
Proof.
  induction 1 as [|x b [Fx Hx] _ [IH1 IH2]]; [split; constructor|]. split.
  - constructor; [apply ffin_lit; exact Fx|exact IH1].
  - cbn [map]. rewrite IH2, fval_lit. f_equal. apply sv_normal. destruct Hx; auto.
Qed.

Lemma cross_spec_fast (x : list (car FN)) (b B : list f64) : fins x -> Forall usual b -> Forall usual B -> exists c,
  does_integer_step_function_cross (N := FN) x (Z.of_nat (length x)) (map lit b) (map lit B) = Ok c /\
  (c = false <-> stays_inside (map B2R b) (map B2R B) (map fval x)).
Proof.
  intros Fx Hb HB. destruct (usual_values b Hb) as [Fb Vb]. destruct (usual_values B HB) as [FB VB].
  rewrite (cross_fast x (map lit b) (map lit B) Fx Fb FB), Vb, VB. apply cross_spec.
Qed.

(** ** Quotients *)
Lemma div_any x y : ffin x -> ffin y -> bpow radix2 (-60) <= fval y <= bpow radix2 60 -> Rabs (fval x / fval y) <= 4 ->
  ffin (@n_div FN x y) /\ Rabs (fval (@n_div FN x y) - fval x / fval y) <= 3 * u64 * Rabs (fval x / fval y) + eta0.
Proof.
  intros [_ Fx] [_ Fy] [Hy1 Hy2] Hq. change (@n_div FN x y) with (lit (cp_div C (pick x) (pick y))).
  rewrite fval_lit. pose proof (cp_div_ok C (pick x) (pick y) Fx Fy) as HD.
  fold (fval x) (fval y) in HD. set (w := cp_div C (pick x) (pick y)) in *.
  pose proof (bpow_gt_0 radix2 (-60)) as H60. specialize (HD ltac:(lra)).
  pose proof u64_pos as Hu. pose proof u64_small as Hus. pose proof eta0_pos as He.
  assert (HI : bpow radix2 (-60) <= / fval y <= bpow radix2 60).
  { split.
    - change (-60)%Z with (- (60))%Z. rewrite bpow_opp. apply Rinv_le_contravar; lra.
    - change (bpow radix2 60) with (bpow radix2 (- (-60))). rewrite bpow_opp. apply Rinv_le_contravar; lra. }
  unfold Rdiv in *. set (i := / fval y) in *.
  assert (B60 : 8 <= bpow radix2 60) by (change 8 with (bpow radix2 3); apply bpow_le; lia).
  assert (H0 : 0 <= u64 * Rabs (fval x * i)) by (apply Rmult_le_pos; [lra|apply Rabs_pos]).
  destruct HD as [HD|(c & Hc & HD)].
  - destruct (op_err flush (fval x * i) w) as [Fw Ew]; [lra|exact HD|].
    split; [apply ffin_lit, Fw|]. lra.
  - destruct (op_rel flush i c) as [Fc Ec].
    { rewrite Rabs_pos_eq by lra. split; [|lra]. eapply Rle_trans; [|apply HI]. apply bpow_le. lia. }
    { exact Hc. }
    specialize (HD Fc). rewrite (Rabs_pos_eq i) in Ec by lra.
    assert (Hxc : Rabs (fval x * sv c - fval x * i) <= u64 * Rabs (fval x * i)).
    { replace (fval x * sv c - fval x * i) with (fval x * (sv c - i)) by ring. rewrite !Rabs_mult, (Rabs_pos_eq i) by lra.
      replace (u64 * (Rabs (fval x) * i)) with (Rabs (fval x) * (u64 * i)) by ring. apply Rmult_le_compat_l; [apply Rabs_pos|exact Ec]. }
    assert (Hxc2 : Rabs (fval x * sv c) <= 2 * Rabs (fval x * i)).
    { replace (fval x * sv c) with ((fval x * sv c - fval x * i) + fval x * i) by ring. eapply Rle_trans; [apply Rabs_triang|].
      assert (u64 * Rabs (fval x * i) <= 1 * Rabs (fval x * i)) by (apply Rmult_le_compat_r; [apply Rabs_pos|lra]). lra. }
    destruct (op_err flush (fval x * sv c) w) as [Fw Ew]; [lra|exact HD|].
    split; [apply ffin_lit, Fw|].
    replace (sv w - fval x * i) with ((sv w - fval x * sv c) + (fval x * sv c - fval x * i)) by ring.
    eapply Rle_trans; [apply Rabs_triang|].
    assert (u64 * Rabs (fval x * sv c) <= u64 * (2 * Rabs (fval x * i))) by (apply Rmult_le_compat_l; lra). lra.
Qed.

Lemma frequency_fast c num : (0 <= c <= num)%Z -> (1 <= num <= INT_MAX)%Z ->
  let q := cp_div C (b64_of_Z c) (b64_of_Z num) in
  is_finite q = true /\ Rabs (B2R q - IZR c / IZR num) <= bpow radix2 (-51).
Proof.
  intros Hc Hn q. unfold INT_MAX in Hn.
  destruct (sv_of_Z C c ltac:(lia)) as [Fc Vc]. destruct (sv_of_Z C num ltac:(lia)) as [Fn Vn].
  assert (Pn : 1 <= IZR num) by (apply IZR_le; lia).
  assert (Q : 0 <= IZR c / IZR num <= 1).
  { split; [apply Rmult_le_pos; [apply IZR_le; lia|left; apply Rinv_0_lt_compat; lra]|].
    apply Rmult_le_reg_r with (IZR num); [lra|]. unfold Rdiv. rewrite Rmult_assoc, Rinv_l, Rmult_1_r, Rmult_1_l by lra. apply IZR_le. lia. }
  destruct (div_any (lit (b64_of_Z c)) (lit (b64_of_Z num)) (ffin_lit C _ Fc) (ffin_lit C _ Fn)) as [[_ FD] ED].
  { rewrite fval_lit, Vn. split.
    - apply Rle_trans with 1; [|exact Pn]. change 1 with (bpow radix2 0). apply bpow_le. lia.
    - apply Rle_trans with (IZR (2 ^ 31)); [apply IZR_le; lia|]. change (bpow radix2 60) with (IZR (2 ^ 60)). apply IZR_le. lia. }
  { rewrite !fval_lit, Vc, Vn, Rabs_pos_eq; lra. }
  rewrite !fval_lit, Vc, Vn, (Rabs_pos_eq (IZR c / IZR num)) in ED by lra.
  change (@n_div FN (lit (b64_of_Z c)) (lit (b64_of_Z num))) with (lit (cp_div C (pick (lit (b64_of_Z c))) (pick (lit (b64_of_Z num))))) in FD, ED.
  rewrite fval_lit in ED. rewrite !pick_lit in ED. fold q in ED. do 3 rewrite pick_lit in FD. fold q in FD. split; [exact FD|].
  pose proof (sv_near flush q) as HN. pose proof u64_pos.
  assert (E1 : bpow radix2 (-51) = 4 * u64) by (change (-51)%Z with (2 + -53)%Z; rewrite bpow_plus; reflexivity).
  assert (E2 : eta0 <= / 4 * u64) by (unfold eta0, u64; change (/ 4) with (bpow radix2 (-2)); rewrite <- bpow_plus; apply bpow_le; lia).
  assert (E3 : bpow radix2 (-1022) <= / 4 * u64) by (unfold u64; change (/ 4) with (bpow radix2 (-2)); rewrite <- bpow_plus; apply bpow_le; lia).
  assert (u64 * (IZR c / IZR num) <= u64 * 1) by (apply Rmult_le_compat_l; lra).
  replace (B2R q - IZR c / IZR num) with (- (sv q - B2R q) + (sv q - IZR c / IZR num)) by ring.
  eapply Rle_trans; [apply Rabs_triang|]. rewrite Rabs_Ropp. lra.
Qed.
End Fast.
