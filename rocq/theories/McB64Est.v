(** * McB64Est: the estimate of the ecdf simulations in binary64. *)
From Coquelicot Require Import Coquelicot.
From Flocq Require Import Core.Core IEEE754.BinarySingleNaN.
From Coq Require Import ZArith Reals List Bool Lia Lra Sorted.
From Verif Require Import Base Num Binary64 Binary64Facts XReal Hoare TinyMT MonteCarlo Spec McSpec McProbSpec McFacts McLoop McMore McEstimate McEcdfProb McChernoff.
From Verif Require Import AccPmf AccCases TinyMTFacts TinyMTBinary64 ProbLipschitz BjMain ExactFacts ExactEnv Cases McB64Spec McB64 McPoissonProb.
From Verif Require Import B64Round.
Import List. Import ListNotations.
Local Open Scope R_scope.

Lemma Forall2_len {A C} (P : A -> C -> Prop) a c : Forall2 P a c -> length a = length c.
Proof. induction 1; simpl; congruence. Qed.

Section Est.
Context (L : libm) (eps : R) (HL : libm_accurate L eps) (Heps : 0 <= eps <= / 8).
Context {frexp : xr -> Z}.
Notation BN := (Bnum L).
Notation XN := (Xnum frexp).

Lemma draw_state (N : num) r : tinymt64_generate_double01 (N := N) r = (fst (tinymt64_generate_double01 (N := N) r), tinymt64_next_state r).
Proof. unfold tinymt64_generate_double01. cbv zeta. generalize (tinymt64_next_state r). intros. reflexivity. Qed.

(** ** Both arithmetics draw the same numbers *)
Lemma draws64 us : forall r r1, state_ok r -> draws (N := XN) r (map Fin us) r1 ->
  exists vs : list f64, draws (N := BN) r vs r1 /\ map B2R vs = us /\ Forall (fun v : f64 => is_finite v = true) vs.
Proof.
  induction us as [|u us IH]; intros r r1 Hr D.
  - inversion D; subst. exists []. split; [constructor|]. split; [reflexivity|constructor].
  - inversion D as [|? ? r2 ? ? G D1]; subst.
    destruct (outputs64 L (frexp := frexp) r Hr) as ((u' & G1 & (Fv & Vv) & _) & _).
    rewrite G in G1. cbn [fst] in G1. injection G1 as <-.
    assert (E2 : r2 = tinymt64_next_state r) by (rewrite (draw_state XN) in G; exact (eq_sym (f_equal snd G))).
    subst r2. destruct (IH _ _ (next_ok _ Hr) D1) as (vs & Dv & Ev & Fvs).
    exists (fst (tinymt64_generate_double01 (N := BN) r) :: vs). split; [econstructor; [apply draw_state|exact Dv]|].
    cbn [map]. split; [f_equal; auto|constructor; auto].
Qed.

(** ** The crossing test *)
Notation fins v := (Forall (fun x : f64 => is_finite x = true) v).

Lemma rd_map {A C} (f : A -> C) (l : list A) i : rd (map f l) i = match rd l i with Ok x => Ok (f x) | Throw e => Throw e | Abort s => Abort s | Undef s => Undef s | Hang => Hang end.
Proof.
  unfold rd. destruct (i <? 0)%Z; auto. rewrite nth_error_map. destruct (nth_error l (Z.to_nat i)); reflexivity.
Qed.
Lemma rd_in {A} (P : A -> Prop) (l : list A) i x : Forall P l -> rd l i = Ok x -> P x.
Proof.
  unfold rd. destruct (i <? 0)%Z; [discriminate|]. destruct (nth_error l (Z.to_nat i)) eqn:E; [|discriminate].
  intros F H. injection H as <-. rewrite Forall_forall in F. apply F. eapply nth_error_In; eauto.
Qed.
Lemma any_index_ext t1 t2 : (forall i, t1 i = t2 i) -> forall k i, any_index k i t1 = any_index k i t2.
Proof. intros H. induction k as [|k IH]; intros i; cbn [any_index]; auto. rewrite H, IH. reflexivity. Qed.
Definition real_of (x : f64) : xr := Fin (B2R x).

Lemma test_same (a c : list f64) i : fins a -> fins c ->
  (s <- rd a i ;; t <- rd c i ;; Ok (@n_lt BN s t)) = (s <- rd (map real_of a) i ;; t <- rd (map real_of c) i ;; Ok (@n_lt XN s t)).
Proof.
  intros Fa Fc. rewrite !rd_map. destruct (rd a i) as [s| | | |] eqn:Es; try reflexivity. cbn [bind].
  destruct (rd c i) as [t| | | |] eqn:Et; try reflexivity. cbn [bind]. f_equal.
  apply (Bltb_correct 53 1024); [exact (rd_in _ _ _ _ Fa Es)|exact (rd_in _ _ _ _ Fc Et)].
Qed.
Lemma test_same' (a c : list f64) i : fins a -> fins c ->
  (s <- rd a i ;; t <- rd c i ;; Ok (@n_lt BN t s)) = (s <- rd (map real_of a) i ;; t <- rd (map real_of c) i ;; Ok (@n_lt XN t s)).
Proof.
  intros Fa Fc. rewrite !rd_map. destruct (rd a i) as [s| | | |] eqn:Es; try reflexivity. cbn [bind].
  destruct (rd c i) as [t| | | |] eqn:Et; try reflexivity. cbn [bind]. f_equal.
  apply (Bltb_correct 53 1024); [exact (rd_in _ _ _ _ Fc Et)|exact (rd_in _ _ _ _ Fa Es)].
Qed.

Lemma cross64 (x b B : list f64) : fins x -> fins b -> fins B ->
  does_integer_step_function_cross (N := BN) x (Z.of_nat (length x)) b B =
  does_integer_step_function_cross (N := XN) (map Fin (map B2R x)) (Z.of_nat (length (map B2R x))) (map Fin (map B2R b)) (map Fin (map B2R B)).
Proof.
  intros Fx Fb FB. rewrite !map_map. fold real_of.
  change (map (fun t : f64 => Fin (B2R t))) with (map real_of).
  assert (E : forall l : list f64, @size (car XN) (map real_of l) = @size (car BN) l) by (intros l; unfold size; rewrite map_length; reflexivity).
  unfold does_integer_step_function_cross, does_integer_step_function_cross_lower_boundary, does_integer_step_function_cross_upper_boundary.
  rewrite !E, !map_length.
  rewrite (any_index_ext _ _ (fun i => test_same x b i Fx Fb)).
  rewrite (any_index_ext _ _ (fun i => test_same' x B i Fx FB)). reflexivity.
Qed.

Lemma cross_spec64 (x b B : list f64) : fins x -> fins b -> fins B -> exists c,
  does_integer_step_function_cross (N := BN) x (Z.of_nat (length x)) b B = Ok c /\
  (c = false <-> stays_inside (map B2R b) (map B2R B) (map B2R x)).
Proof. intros Fx Fb FB. rewrite (cross64 x b B Fx Fb FB). apply cross_spec. Qed.

(** ** One simulation *)
Lemma sample_interior us : Forall (fun u => 0 < u < 1) us -> Forall (fun X => 0 < X < 1) (ordered_sample us).
Proof.
  intros F. destruct (list_eq_dec Req_EM_T us []) as [->|NE]; [constructor|].
  destruct (exists_last NE) as (vs & v & ->). apply Forall_app in F as (F1 & F2). inversion F2 as [|? ? Hv _]; subst.
  unfold ordered_sample. rewrite map_app. cbn [map]. rewrite removelast_last, jump_times_sums, total_app.
  assert (FP : Forall (fun e => 0 < e) (map (fun u => - ln u) vs)).
  { apply Forall_map. eapply Forall_impl; [|exact F1]. cbv beta. intros u Hu. pose proof (ln_lt_0 _ Hu). lra. }
  destruct (sums_from_sorted 0 _ FP) as (_ & _ & HX). pose proof (ln_lt_0 _ Hv) as Hl.
  pose proof (total_pos _ FP) as PT.
  replace (total [- ln v]) with (- ln v) by (unfold total; simpl; ring).
  apply Forall_map. eapply Forall_impl; [|exact HX]. cbv beta. intros X HXX.
  set (T0 := total (map (fun u => - ln u) vs)) in *. split; [apply Rdiv_lt_0_compat; lra|].
  apply Rmult_lt_reg_r with (T0 + - ln v); [lra|]. unfold Rdiv. rewrite Rmult_assoc, Rinv_l by lra. lra.
Qed.

Lemma raised_length d v : length (raised d v) = length v. Proof. apply map_length. Qed.
Lemma lowered_length d v : length (lowered d v) = length v. Proof. apply map_length. Qed.
Lemma raised_nth d v i : (i < length v)%nat -> nth i (raised d v) 0 = Rmin 1 (nth i v 0 + d).
Proof. intros H. unfold raised. rewrite (nth_indep _ 0 (Rmin 1 (0 + d))) by (rewrite map_length; exact H). apply (map_nth (fun t => Rmin 1 (t + d))). Qed.
Lemma lowered_nth d v i : (i < length v)%nat -> nth i (lowered d v) 0 = Rmax 0 (nth i v 0 - d).
Proof. intros H. unfold lowered. rewrite (nth_indep _ 0 (Rmax 0 (0 - d))) by (rewrite map_length; exact H). apply (map_nth (fun t => Rmax 0 (t - d))). Qed.

Lemma inside_moves d (b B x X : list R) : length x = length X -> Forall (fun t => 0 < t < 1) X ->
  (forall i, (i < length x)%nat -> Rabs (nth i x 0 - nth i X 0) <= d) ->
  (stays_inside (raised d b) (lowered d B) X -> stays_inside b B x) /\
  (stays_inside b B x -> stays_inside (lowered d b) (raised d B) X).
Proof.
  intros EL FX HD. rewrite Forall_forall in FX.
  assert (HX : forall i, (i < length x)%nat -> 0 < nth i X 0 < 1) by (intros i Hi; apply FX, nth_In; lia).
  unfold stays_inside. rewrite !raised_length, !lowered_length, <- EL.
  assert (NB : forall f : R -> R, map f b = [] <-> b = []) by (intros f; split; [apply map_eq_nil|intros ->; reflexivity]).
  split; intros (A & C & D); (split; [exact A|]); split.
  - intros i Hi. specialize (C i Hi). rewrite lowered_nth in C by exact Hi.
    pose proof (HX i ltac:(lia)) as H1. pose proof (Rabs_le_inv _ _ (HD i ltac:(lia))) as H2.
    unfold Rmax in C. destruct Rle_dec; lra.
  - destruct D as [D|(D1 & D2)]; [left; apply (NB (fun t => Rmin 1 (t + d))); exact D|right]. split; [exact D1|].
    intros i Hi. specialize (D2 i Hi). rewrite raised_nth in D2 by lia.
    pose proof (HX i Hi) as H1. pose proof (Rabs_le_inv _ _ (HD i Hi)) as H2.
    unfold Rmin in D2. destruct Rle_dec; lra.
  - intros i Hi. specialize (C i Hi). rewrite raised_nth by exact Hi.
    pose proof (HX i ltac:(lia)) as H1. pose proof (Rabs_le_inv _ _ (HD i ltac:(lia))) as H2.
    unfold Rmin. destruct Rle_dec; lra.
  - destruct D as [D|(D1 & D2)]; [left; apply (NB (fun t => Rmax 0 (t - d))); exact D|right]. split; [exact D1|].
    intros i Hi. specialize (D2 i Hi). rewrite lowered_nth by lia.
    pose proof (HX i Hi) as H1. pose proof (Rabs_le_inv _ _ (HD i Hi)) as H2.
    unfold Rmax. destruct Rle_dec; lra.
Qed.

Lemma ordered_sample_length us : length (ordered_sample us) = (length us - 1)%nat.
Proof.
  unfold ordered_sample, jump_times. rewrite !map_length, seq_length. destruct (list_eq_dec Req_EM_T us []) as [->|NE]; [reflexivity|].
  destruct (exists_last NE) as (vs & v & ->). rewrite map_app. cbn [map]. rewrite removelast_last, map_length, app_length. simpl. lia.
Qed.

Theorem decides64 (b B : list f64) (us : list R) n r r1 : (1 <= n)%nat -> length us = S n -> INR (S n) <= 2 ^ 40 ->
  eps + 2 * INR (S n) * u64 <= / 8 -> Forall (fun u => 0 < u < 1) us -> state_ok r -> fins b -> fins B ->
  draws (N := XN) r (map Fin us) r1 ->
  exists c, does_random_ecdf_cross (N := BN) b B n r = Ok (c, r1) /\
    (ecdf_inside (raised (sample_error eps n) (map B2R b)) (lowered (sample_error eps n) (map B2R B)) us -> c = false) /\
    (c = false -> ecdf_inside (lowered (sample_error eps n) (map B2R b)) (raised (sample_error eps n) (map B2R B)) us).
Proof.
  intros Hn Hlen Hbig HA F Hr Fb FB D.
  destruct (draws64 us r r1 Hr D) as (vs & Dv & <- & Fv).
  assert (F' : Forall (fun u : f64 => is_finite u = true /\ 0 < B2R u < 1) vs).
  { rewrite Forall_map in F. rewrite Forall_forall in *. auto. }
  rewrite map_length in Hlen.
  destruct (sample64 L eps HL Heps vs n r r1 Hn Hlen Hbig HA F' Dv) as (xs & E & H2 & _).
  assert (Lx : length xs = n).
  { pose proof (Forall2_len _ _ _ H2) as H. rewrite ordered_sample_length, map_length in H. lia. }
  assert (Fx : fins xs).
  { clear -H2. induction H2 as [|x X xs Xs (H & _) H2 IH]; constructor; auto. }
  destruct (cross_spec64 xs b B Fx Fb FB) as (c & Ec & Sc).
  exists c. split.
  { unfold does_random_ecdf_cross. rewrite E. unfold addr, size. cbn [car Bnum].
    destruct xs as [|x0 xs]; [simpl in Lx; lia|].
    change (Z.of_nat (length (x0 :: xs))) with (Z.of_nat (S (length xs))) in Ec |- *.
    rewrite Ec. destruct (0 <=? Z.of_nat (S (length xs)))%Z; reflexivity. }
  assert (LX : length (map B2R xs) = length (ordered_sample (map B2R vs))) by (rewrite map_length; exact (Forall2_len _ _ _ H2)).
  assert (HD : forall i, (i < length (map B2R xs))%nat -> Rabs (nth i (map B2R xs) 0 - nth i (ordered_sample (map B2R vs)) 0) <= sample_error eps n).
  { clear -H2. induction H2 as [|x X xs Xs (_ & _ & H) H2 IH]; intros [|i] Hi; cbn [map length nth] in *; try lia; [exact H|]. apply IH. lia. }
  destruct (inside_moves (sample_error eps n) (map B2R b) (map B2R B) _ _ LX (sample_interior _ F) HD) as (M1 & M2).
  unfold ecdf_inside. rewrite Sc. auto.
Qed.

(** ** The program *)
Lemma draws_ok us : forall r r1, state_ok r -> draws (N := XN) r us r1 -> state_ok r1.
Proof.
  induction us as [|u us IH]; intros r r1 Hr D; inversion D as [|? ? r2 ? ? G D1]; subst; [exact Hr|].
  rewrite (draw_state XN) in G. pose proof (f_equal snd G) as G'. cbn [snd] in G'. subst r2. exact (IH _ _ (next_ok _ Hr) D1).
Qed.

Definition inner (d : R) (b B : list f64) : list R -> Prop := ecdf_inside (raised d (map B2R b)) (lowered d (map B2R B)).
Definition outer (d : R) (b B : list f64) : list R -> Prop := ecdf_inside (lowered d (map B2R b)) (raised d (map B2R B)).

Lemma block_simulations64 (b B : list f64) n : (1 <= n)%nat -> INR (S n) <= 2 ^ 40 ->
  eps + 2 * INR (S n) * u64 <= / 8 -> fins b -> fins B ->
  forall num us r r1, Forall (fun u => 0 < u < 1) us -> state_ok r ->
  length us = (num * S n)%nat -> draws (N := XN) r (map Fin us) r1 ->
  exists cs, length cs = num /\ sandwiched (S n) (inner (sample_error eps n) b B) (outer (sample_error eps n) b B) cs us /\
    simulations (does_random_ecdf_cross (N := BN) b B n) r cs.
Proof.
  intros Hn Hbig HA Fb FB. induction num as [|num IH]; intros us r r1 F Hr Lu D.
  - exists []. split; [reflexivity|]. split; [exact I|constructor].
  - cbn [Nat.mul] in Lu.
    rewrite <- (firstn_skipn (S n) us), map_app in D. destruct (draws_split (N := XN) _ _ _ _ D) as (r2 & D1 & D2).
    destruct (decides64 b B (firstn (S n) us) n r r2) as (c & E & H1 & H2); auto.
    { apply firstn_length_le. lia. }
    { apply Forall_firstn_R; auto. }
    destruct (IH (skipn (S n) us) r2 r1) as (cs & Lc & O & S); auto.
    { apply Forall_skipn_R; auto. }
    { exact (draws_ok _ _ _ Hr D1). }
    { rewrite skipn_length. lia. }
    exists (c :: cs). simpl length. split; [lia|]. split; [|econstructor; eauto]. cbn [sandwiched]. auto.
Qed.

Lemma frequency_div64 c num : (0 <= c <= num)%Z -> (1 <= num <= INT_MAX)%Z ->
  is_finite (Bdiv mode_NE (b64_of_Z c) (b64_of_Z num)) = true /\
  Rabs (B2R (Bdiv mode_NE (b64_of_Z c) (b64_of_Z num)) - IZR c / IZR num) <= bpow radix2 (-52).
Proof.
  intros Hc Hn. unfold INT_MAX in Hn.
  destruct (of_Z_ok c) as [Fc Vc]; [lia|]. destruct (of_Z_ok num) as [Fn Vn]; [lia|].
  assert (Pn : 0 < IZR num) by (apply IZR_lt; lia).
  assert (Q : 0 <= IZR c / IZR num <= 1).
  { split; [apply Rmult_le_pos; [apply IZR_le; lia|left; apply Rinv_0_lt_compat; exact Pn]|].
    apply Rmult_le_reg_r with (IZR num); [exact Pn|]. unfold Rdiv. rewrite Rmult_assoc, Rinv_l, Rmult_1_r, Rmult_1_l by lra. apply IZR_le. lia. }
  assert (B60 : 2 <= bpow radix2 60) by (change 2 with (bpow radix2 1); apply bpow_le; lia).
  destruct (div_err (b64_of_Z c) (b64_of_Z num)) as [FD ED].
  { exact Fc. } { rewrite Vn. lra. } { rewrite Vc, Vn, Rabs_pos_eq; lra. }
  rewrite Vc, Vn in ED. rewrite (Rabs_pos_eq (IZR c / IZR num)) in ED by lra.
  split; [exact FD|]. eapply Rle_trans; [exact ED|].
  assert (E1 : bpow radix2 (-52) = 2 * u64).
  { unfold u64. change (-52)%Z with (1 + -53)%Z. rewrite bpow_plus. change (bpow radix2 1) with 2. reflexivity. }
  assert (E2 : eta64 <= u64) by (apply bpow_le; lia). pose proof u64_pos.
  assert (u64 * (IZR c / IZR num) <= u64 * 1) by (apply Rmult_le_compat_l; lra). lra.
Qed.

Theorem estimate_program64 (b B : list f64) us (n num : nat) uninit now r1 :
  word 32 (mat1 uninit) -> word 32 (mat2 uninit) -> word 64 (tmat uninit) ->
  (1 <= n)%nat -> INR (S n) <= 2 ^ 40 -> eps + 2 * INR (S n) * u64 <= / 8 ->
  fins b -> fins B -> (length B <= n)%nat -> b = [] \/ (n <= length b)%nat -> (1 <= num)%nat -> (Z.of_nat num <= INT_MAX)%Z ->
  Forall (fun u => 0 < u < 1) us -> length us = (num * S n)%nat ->
  draws (N := XN) (rng_make uninit (now + Z.of_nat n * 2 ^ 20)) (map Fin us) r1 ->
  exists cs, length cs = num /\ sandwiched (S n) (inner (sample_error eps n) b B) (outer (sample_error eps n) b B) cs us /\
    exists q : f64, is_finite q = true /\ Rabs (B2R q - IZR (crossings cs) / INR num) <= bpow radix2 (-52) /\
    forall fuel, (num <= fuel)%nat ->
      ecdf_crossing_probability_montecarlo (N := BN) fuel uninit now (Z.of_nat n) b B (Z.of_nat num) = Ok q.
Proof.
  intros W1 W2 W3 Hn Hbig HA Fb FB HB Hb H1 H2 F Lu D.
  assert (Hr : state_ok (rng_make uninit (now + Z.of_nat n * 2 ^ 20))).
  { unfold rng_make. apply init_ok; auto. unfold TinyMT.u64, word. apply Z.mod_pos_bound. reflexivity. }
  destruct (block_simulations64 b B n Hn Hbig HA Fb FB num us _ r1 F Hr Lu D) as (cs & Lc & O & S).
  destruct (ecdf_estimate (N := BN) uninit now (Z.of_nat n) b B (Z.of_nat num)) as (cs' & Lc' & S' & R).
  - lia.
  - unfold size. cbn [car Bnum]. lia.
  - destruct Hb as [->|Hb]; [left; reflexivity|right]. unfold size. cbn [car Bnum]. lia.
  - lia.
  - rewrite Nat2Z.id in S', R. assert (E : cs' = cs) by (eapply simulations_det; eauto; lia). subst cs'.
    exists cs. split; auto. split; auto.
    destruct (frequency_div64 (crossings cs) (Z.of_nat num)) as (Fq & Eq); [|lia|].
    + unfold crossings. pose proof (filter_le cs). lia.
    + eexists. split; [exact Fq|]. rewrite INR_IZR_INZ. split; [exact Eq|]. exact R.
Qed.
End Est.

(** ** Probabilities of the two events *)
Lemma raised_valid d v : 0 <= d -> valid_boundary v -> valid_boundary (raised d v).
Proof.
  intros Hd (S & F). split.
  - clear F. induction v as [|x v IH]; [constructor|]. inversion S as [|? ? S1 S2]; subst. cbn [raised map]. constructor; [exact (IH S1)|].
    destruct v as [|y v]; cbn [map]; constructor. inversion S2; subst. apply Rle_min_compat_l. lra.
  - apply Forall_map. eapply Forall_impl; [|exact F]. cbv beta. intros x Hx. unfold Rmin. destruct Rle_dec; lra.
Qed.
Lemma lowered_valid d v : 0 <= d -> valid_boundary v -> valid_boundary (lowered d v).
Proof.
  intros Hd (S & F). split.
  - clear F. induction v as [|x v IH]; [constructor|]. inversion S as [|? ? S1 S2]; subst. cbn [lowered map]. constructor; [exact (IH S1)|].
    destruct v as [|y v]; cbn [map]; constructor. inversion S2; subst. apply Rle_max_compat_l. lra.
  - apply Forall_map. eapply Forall_impl; [|exact F]. cbv beta. intros x Hx. unfold Rmax. destruct Rle_dec; lra.
Qed.

(** Lines of a boundary file, with what a missing entry stands for. *)
Definition full_lower (n : nat) (b : list R) : list R := if b then repeat 0 n else b.
Definition full_upper (n : nat) (B : list R) : list R := B ++ repeat 1 (n - length B).

Lemma full_lower_length n b : b = [] \/ length b = n -> length (full_lower n b) = n.
Proof. intros [-> | H]; simpl; [apply repeat_length|]. destruct b; simpl in *; [rewrite repeat_length; auto|exact H]. Qed.
Lemma full_upper_length n B : (length B <= n)%nat -> length (full_upper n B) = n.
Proof. intros H. unfold full_upper. rewrite app_length, repeat_length. lia. Qed.
Lemma full_lower_valid n b : valid_boundary b -> valid_boundary (full_lower n b).
Proof.
  intros H. destruct b; simpl; [|exact H]. split.
  - apply StronglySorted_Sorted. clear. induction n as [|k IH]; simpl; constructor; auto.
    apply Forall_forall. intros y Hy. apply repeat_spec in Hy. lra.
  - apply Forall_forall. intros y Hy. apply repeat_spec in Hy. lra.
Qed.
Lemma full_upper_valid n B : valid_boundary B -> valid_boundary (full_upper n B).
Proof. intros H. exact (valid_pad B _ H). Qed.

Lemma raised_full_lower d n b i : 0 <= d -> valid_boundary b -> (i < n)%nat -> b = [] \/ length b = n ->
  Rabs (nth i (full_lower n b) 0 - nth i (full_lower n (raised d b)) 0) <= d.
Proof.
  intros Hd (_ & F) Hi [->|Lb].
  - cbn [raised map full_lower]. rewrite Rminus_diag_eq, Rabs_R0 by reflexivity. exact Hd.
  - destruct b as [|x b]; [simpl in Lb; lia|]. change (full_lower n (x :: b)) with (x :: b).
    change (full_lower n (raised d (x :: b))) with (raised d (x :: b)). rewrite raised_nth by lia.
    rewrite Forall_forall in F. pose proof (F (nth i (x :: b) 0) ltac:(apply nth_In; lia)) as H.
    unfold Rmin. destruct Rle_dec; apply Rabs_le; lra.
Qed.
Lemma lowered_full_lower d n b i : 0 <= d -> valid_boundary b -> (i < n)%nat -> b = [] \/ length b = n ->
  Rabs (nth i (full_lower n b) 0 - nth i (full_lower n (lowered d b)) 0) <= d.
Proof.
  intros Hd (_ & F) Hi [->|Lb].
  - cbn [lowered map full_lower]. rewrite Rminus_diag_eq, Rabs_R0 by reflexivity. exact Hd.
  - destruct b as [|x b]; [simpl in Lb; lia|]. change (full_lower n (x :: b)) with (x :: b).
    change (full_lower n (lowered d (x :: b))) with (lowered d (x :: b)). rewrite lowered_nth by lia.
    rewrite Forall_forall in F. pose proof (F (nth i (x :: b) 0) ltac:(apply nth_In; lia)) as H.
    unfold Rmax. destruct Rle_dec; apply Rabs_le; lra.
Qed.
Lemma raised_full_upper d n B i : 0 <= d -> valid_boundary B ->
  Rabs (nth i (full_upper n B) 0 - nth i (full_upper n (raised d B)) 0) <= d.
Proof.
  intros Hd (_ & F). unfold full_upper. rewrite raised_length. destruct (Nat.lt_ge_cases i (length B)) as [Hi|Hi].
  - rewrite !app_nth1 by (rewrite ?raised_length; exact Hi). rewrite raised_nth by exact Hi.
    rewrite Forall_forall in F. pose proof (F (nth i B 0) ltac:(apply nth_In; lia)) as H.
    unfold Rmin. destruct Rle_dec; apply Rabs_le; lra.
  - rewrite !app_nth2 by (rewrite ?raised_length; exact Hi). rewrite raised_length, Rminus_diag_eq, Rabs_R0 by reflexivity. exact Hd.
Qed.
Lemma lowered_full_upper d n B i : 0 <= d -> valid_boundary B ->
  Rabs (nth i (full_upper n B) 0 - nth i (full_upper n (lowered d B)) 0) <= d.
Proof.
  intros Hd (_ & F). unfold full_upper. rewrite lowered_length. destruct (Nat.lt_ge_cases i (length B)) as [Hi|Hi].
  - rewrite !app_nth1 by (rewrite ?lowered_length; exact Hi). rewrite lowered_nth by exact Hi.
    rewrite Forall_forall in F. pose proof (F (nth i B 0) ltac:(apply nth_In; lia)) as H.
    unfold Rmax. destruct Rle_dec; apply Rabs_le; lra.
  - rewrite !app_nth2 by (rewrite ?lowered_length; exact Hi). rewrite lowered_length, Rminus_diag_eq, Rabs_R0 by reflexivity. exact Hd.
Qed.

Lemma probability_exists b B : valid_boundary b -> valid_boundary B -> length b = length B ->
  exists p, is_noncrossing_probability b B p.
Proof.
  intros Vb VB HL. destruct (ecdf2_exact (some_env false) b B false) as (p & Hp & _); auto; try discriminate;
    [apply isort_ok; reflexivity|eauto].
Qed.

Section Law.
Context (b B : list R) (n : nat) (p d : R).
Hypothesis Hd : 0 <= d.
Hypothesis Vb : valid_boundary b.
Hypothesis VB : valid_boundary B.
Hypothesis Lb : b = [] \/ length b = n.
Hypothesis LB : (length B <= n)%nat.
Hypothesis Hp : is_noncrossing_probability (full_lower n b) (full_upper n B) p.

Lemma moved_close b' B' p' : valid_boundary b' -> valid_boundary B' -> b' = [] \/ length b' = n -> (length B' <= n)%nat ->
  (forall i, (i < n)%nat -> Rabs (nth i (full_lower n b) 0 - nth i (full_lower n b') 0) <= d) ->
  (forall i, (i < n)%nat -> Rabs (nth i (full_upper n B) 0 - nth i (full_upper n B') 0) <= d) ->
  is_noncrossing_probability (full_lower n b') (full_upper n B') p' ->
  Rabs (p - p') <= 2 * INR n ^ 2 * d.
Proof.
  intros Vb' VB' Lb' LB' D1 D2 Hp'.
  pose proof (full_lower_length n b Lb) as L1. pose proof (full_lower_length n b' Lb') as L2.
  pose proof (full_upper_length n B LB) as L3. pose proof (full_upper_length n B' LB') as L4.
  pose proof (prob_close _ _ _ _ p p' (eq_trans L1 (eq_sym L2)) (eq_trans L3 (eq_sym L4)) (proj2 (full_lower_valid n b Vb)) (proj2 (full_lower_valid n b' Vb'))
    (proj2 (full_upper_valid n B VB)) (proj2 (full_upper_valid n B' VB')) Hp Hp') as HC.
  rewrite L1 in HC.
  pose proof (distance_bound d (full_lower n b) (full_lower n b') (eq_trans L1 (eq_sym L2)) ltac:(rewrite L1; exact D1)) as E1.
  pose proof (distance_bound d (full_upper n B) (full_upper n B') (eq_trans L3 (eq_sym L4)) ltac:(rewrite L3; exact D2)) as E2.
  rewrite L1 in E1. rewrite L3 in E2. eapply Rle_trans; [exact HC|].
  replace (2 * INR n ^ 2 * d) with (INR n * (INR n * d + INR n * d)) by ring.
  apply Rmult_le_compat_l; [apply pos_INR|lra].
Qed.

Lemma inner_shape : raised d b = [] \/ length (raised d b) = n.
Proof. destruct Lb as [->|H]; [left; reflexivity|right; rewrite raised_length; exact H]. Qed.
Lemma outer_shape : lowered d b = [] \/ length (lowered d b) = n.
Proof. destruct Lb as [->|H]; [left; reflexivity|right; rewrite lowered_length; exact H]. Qed.

Theorem inner_law : exists p1, is_noncrossing_probability (full_lower n (raised d b)) (full_upper n (lowered d B)) p1 /\
  has_prob (S n) (ecdf_inside (raised d b) (lowered d B)) p1 /\ Rabs (p - p1) <= 2 * INR n ^ 2 * d.
Proof.
  assert (L1 : (length (lowered d B) <= n)%nat) by (rewrite lowered_length; exact LB).
  destruct (probability_exists (full_lower n (raised d b)) (full_upper n (lowered d B))) as (p1 & H1).
  { apply full_lower_valid, raised_valid; auto. } { apply full_upper_valid, lowered_valid; auto. }
  { rewrite (full_lower_length n _ inner_shape), (full_upper_length n _ L1). reflexivity. }
  exists p1. split; [exact H1|]. split.
  - apply ecdf_inside_prob_padded; auto using raised_valid, lowered_valid, inner_shape.
  - apply (moved_close (raised d b) (lowered d B)); auto using raised_valid, lowered_valid, inner_shape.
    + intros i Hi. apply raised_full_lower; auto.
    + intros i Hi. apply lowered_full_upper; auto.
Qed.
Theorem outer_law : exists p2, is_noncrossing_probability (full_lower n (lowered d b)) (full_upper n (raised d B)) p2 /\
  has_prob (S n) (ecdf_inside (lowered d b) (raised d B)) p2 /\ Rabs (p - p2) <= 2 * INR n ^ 2 * d.
Proof.
  assert (L1 : (length (raised d B) <= n)%nat) by (rewrite raised_length; exact LB).
  destruct (probability_exists (full_lower n (lowered d b)) (full_upper n (raised d B))) as (p1 & H1).
  { apply full_lower_valid, lowered_valid; auto. } { apply full_upper_valid, raised_valid; auto. }
  { rewrite (full_lower_length n _ outer_shape), (full_upper_length n _ L1). reflexivity. }
  exists p1. split; [exact H1|]. split.
  - apply ecdf_inside_prob_padded; auto using raised_valid, lowered_valid, outer_shape.
  - apply (moved_close (lowered d b) (raised d B)); auto using raised_valid, lowered_valid, outer_shape.
    + intros i Hi. apply lowered_full_lower; auto.
    + intros i Hi. apply raised_full_upper; auto.
Qed.

(** ** The law of the estimate *)
Lemma outcomes_exist k (A : list R -> Prop) : forall num us, exists cs, length cs = num /\ outcomes k A cs us.
Proof.
  induction num as [|num IH]; intros us; [exists []; split; [reflexivity|exact I]|].
  destruct (IH (skipn k us)) as (cs & Lc & O).
  destruct (Classical_Prop.classic (A (firstn k us))) as [H|H].
  - exists (false :: cs). split; [simpl; lia|]. cbn [outcomes]. tauto.
  - exists (true :: cs). split; [simpl; lia|]. cbn [outcomes]. split; [|exact O]. split; [discriminate|tauto].
Qed.
Lemma crossings_cons c cs : crossings (c :: cs) = (Z.b2z c + crossings cs)%Z.
Proof. unfold crossings. cbn [filter]. destruct c; simpl length; cbn [Z.b2z]; lia. Qed.
Lemma sandwiched_counts k A1 A2 : forall cs cs1 cs2 us, length cs1 = length cs -> length cs2 = length cs ->
  sandwiched k A1 A2 cs us -> outcomes k A1 cs1 us -> outcomes k A2 cs2 us ->
  (crossings cs2 <= crossings cs <= crossings cs1)%Z.
Proof.
  induction cs as [|c cs IH]; intros [|c1 cs1] [|c2 cs2] us L1 L2 HS O1 O2; try discriminate; [lia|].
  cbn [sandwiched outcomes] in *. destruct HS as (H1 & H2 & HS). destruct O1 as (G1 & O1). destruct O2 as (G2 & O2).
  rewrite !crossings_cons. pose proof (IH cs1 cs2 (skipn k us) ltac:(simpl in L1; lia) ltac:(simpl in L2; lia) HS O1 O2).
  assert (Z.b2z c <= Z.b2z c1)%Z by (destruct c1; [destruct c; simpl; lia|]; rewrite (H1 (proj1 G1 eq_refl)); simpl; lia).
  assert (Z.b2z c2 <= Z.b2z c)%Z by (destruct c; [destruct c2; simpl; lia|]; rewrite (proj2 G2 (H2 eq_refl)); simpl; lia).
  lia.
Qed.

Theorem rarely_too_many (num : nat) e : (1 <= num)%nat -> 0 < e <= 1 / 2 ->
  prob_at_most (num * S n)
    (fun us => exists cs, length cs = num /\
       sandwiched (S n) (ecdf_inside (raised d b) (lowered d B)) (ecdf_inside (lowered d b) (raised d B)) cs us /\
       (1 - p) + 2 * INR n ^ 2 * d + e < IZR (crossings cs) / INR num)
    (2 * exp (- (INR num * e ^ 2) / 2)).
Proof.
  intros Hn He. destruct inner_law as (p1 & H1 & _ & E1).
  destruct (estimate_exponential (raised d b) (lowered d B) n p1 num e) as (q & Hq & HP);
    auto using raised_valid, lowered_valid, inner_shape; [rewrite lowered_length; exact LB|].
  eexists _, q. split; [|split; [exact HP|exact Hq]].
  intros us Lu Fu (cs & Lc & HS & HX).
  destruct (outcomes_exist (S n) (ecdf_inside (raised d b) (lowered d B)) num us) as (cs1 & L1 & O1).
  destruct (outcomes_exist (S n) (ecdf_inside (lowered d b) (raised d B)) num us) as (cs2 & L2 & O2).
  exists cs1. split; [exact L1|]. split; [exact O1|].
  pose proof (sandwiched_counts (S n) _ _ cs cs1 cs2 us ltac:(congruence) ltac:(congruence) HS O1 O2) as (_ & HC).
  assert (HC' : IZR (crossings cs) / INR num <= IZR (crossings cs1) / INR num).
  { apply Rmult_le_compat_r; [left; apply Rinv_0_lt_compat, lt_0_INR; lia|apply IZR_le; exact HC]. }
  apply Rabs_le_inv in E1. eapply Rlt_le_trans; [|apply Rle_abs]. lra.
Qed.
Theorem rarely_too_few (num : nat) e : (1 <= num)%nat -> 0 < e <= 1 / 2 ->
  prob_at_most (num * S n)
    (fun us => exists cs, length cs = num /\
       sandwiched (S n) (ecdf_inside (raised d b) (lowered d B)) (ecdf_inside (lowered d b) (raised d B)) cs us /\
       IZR (crossings cs) / INR num < (1 - p) - 2 * INR n ^ 2 * d - e)
    (2 * exp (- (INR num * e ^ 2) / 2)).
Proof.
  intros Hn He. destruct outer_law as (p1 & H1 & _ & E1).
  destruct (estimate_exponential (lowered d b) (raised d B) n p1 num e) as (q & Hq & HP);
    auto using raised_valid, lowered_valid, outer_shape; [rewrite raised_length; exact LB|].
  eexists _, q. split; [|split; [exact HP|exact Hq]].
  intros us Lu Fu (cs & Lc & HS & HX).
  destruct (outcomes_exist (S n) (ecdf_inside (raised d b) (lowered d B)) num us) as (cs1 & L1 & O1).
  destruct (outcomes_exist (S n) (ecdf_inside (lowered d b) (raised d B)) num us) as (cs2 & L2 & O2).
  exists cs2. split; [exact L2|]. split; [exact O2|].
  pose proof (sandwiched_counts (S n) _ _ cs cs1 cs2 us ltac:(congruence) ltac:(congruence) HS O1 O2) as (HC & _).
  assert (HC' : IZR (crossings cs2) / INR num <= IZR (crossings cs) / INR num).
  { apply Rmult_le_compat_r; [left; apply Rinv_0_lt_compat, lt_0_INR; lia|apply IZR_le; exact HC]. }
  apply Rabs_le_inv in E1. rewrite <- Rabs_Ropp. eapply Rlt_le_trans; [|apply Rle_abs]. lra.
Qed.
End Law.

Lemma moved_laws (b B : list R) n p d : 0 <= d -> valid_boundary b -> valid_boundary B ->
  b = [] \/ length b = n -> (length B <= n)%nat ->
  is_noncrossing_probability (if b then repeat 0 n else b) (B ++ repeat 1 (n - length B)) p ->
  exists p1 p2, has_prob (S n) (ecdf_inside (raised d b) (lowered d B)) p1 /\ has_prob (S n) (ecdf_inside (lowered d b) (raised d B)) p2 /\
    Rabs (p - p1) <= 2 * INR n ^ 2 * d /\ Rabs (p - p2) <= 2 * INR n ^ 2 * d.
Proof.
  intros Hd Vb VB Lb LB Hp. destruct (inner_law b B n p d Hd Vb VB Lb LB Hp) as (p1 & _ & H1 & E1).
  destruct (outer_law b B n p d Hd Vb VB Lb LB Hp) as (p2 & _ & H2 & E2). exists p1, p2. auto.
Qed.
