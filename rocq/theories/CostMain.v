(** * CostMain: bounds of the work of ecdf2 and ecdf1_mns2016. *)
From Coq Require Import ZArith List Bool String Lia Permutation.
From Verif Require Import Base Num Hoare Common PoissonPmf FFTConv Ecdf2 Ecdf1Mns SafeFft SafeEcdf2 Cost CostFacts.
Import List. Import ListNotations.
Local Open Scope string_scope.
Local Open Scope Z_scope.

Section Ecdf2.
Context {N : num} (E : env N) (P : prices) (K : Z).
Hypothesis HK : 1 <= K.
Hypothesis HP : fair K P.
Notation T := (car N).

(** ** The loop of ecdf2 *)
Record e2_inv (n : Z) (s : e2state N) : Prop := mkE2I {
  e2i_src : size (get_src (e2_buffers s)) = n + 1;
  e2i_dst : size (get_dest (e2_buffers s)) = n + 1;
  e2i_fft : fft_shape (n + 1) (e2_fft s);
  e2i_b : 0 <= e2_b s <= n;
  e2i_B : 0 <= e2_B s
}.

Lemma update_keeps n t (dest : list T) b B r : size dest = n + 1 -> 0 <= b <= n -> 0 <= B ->
  update_dest_buffer_and_step_counts t dest b B = Ok r ->
  size (fst (fst r)) = n + 1 /\ 0 <= snd (fst r) <= n /\ 0 <= snd r.
Proof.
  intros Hd Hb HB. destruct t; cbn [update_dest_buffer_and_step_counts]; intros H.
  - apply bind_ok in H. destruct H as (d & Hw & H). assert (Hr : r = (d, b + 1, B)) by congruence. subst r. cbn [fst snd].
    pose proof (wr_size _ _ _ _ Hw). unfold wr in Hw.
    destruct (Z.ltb_spec (b + 1) 0), (Z.leb_spec (size dest) (b + 1)); cbn [orb] in Hw; try discriminate. lia.
  - apply bind_ok in H. destruct H as (d & Hw & H). assert (Hr : r = (d, b, B + 1)) by congruence. subst r. cbn [fst snd].
    pose proof (wr_size _ _ _ _ Hw). lia.
  - assert (Hr : r = (dest, b, B)) by congruence. subst r. cbn [fst snd]. lia.
Qed.

(** One step, at most D being what the convolution may take. *)
Lemma within_e2_step n D intensity use_fft x s : 0 <= n -> e2_inv n s ->
  (use_fft = true -> fft_cost K (n + 1) <= D) -> (use_fft = false -> conv_cost (n + 1) <= D) ->
  within (c_e2_step E P intensity use_fft x s) (ca_cost (n + 1) + D + 20) (e2_inv n).
Proof.
  intros Hn HI HD1 HD0. destruct HI as [Is Id If Ib IB].
  assert (HD : 0 <= D).
  { destruct use_fft.
    - pose proof (fft_cost_mono K HK 0 (n + 1) ltac:(lia)). specialize (HD1 eq_refl). lia.
    - specialize (HD0 eq_refl). unfold conv_cost in HD0. nia. }
  unfold c_e2_step. cbv zeta. set (sz := e2_b s - e2_B s + 1).
  assert (Hsz : sz <= n + 1) by (unfold sz; lia).
  apply within_bind_op; [unfold ca_cost; lia|]. intros _ _.
  apply within_if; intros _.
  - apply within_bind with (c1 := ca_cost (n + 1)) (R := fun _ => True); [|lia|].
    { apply within_compute_array; [unfold ca_cost; lia|auto]. }
    intros pg _. apply within_bind_op; [lia|]. intros _ _. apply within_bind_op; [lia|]. intros _ _.
    apply within_bind with (c1 := D + 1) (R := fun fd => fft_shape (n + 1) (fst fd) /\ size (snd fd) = n + 1); [|lia|].
    { apply within_if; intros Eu.
      - apply (within_fft_convolve E P K HK HP (n + 1)); [exact If| |].
        + specialize (HD1 Eu). pose proof (fft_cost_mono K HK (Z.max 0 sz) (n + 1) ltac:(lia)). lia.
        + intros f' o' Hf' Ho'. cbn [fst snd]. rewrite Ho'. auto.
      - apply within_bind with (c1 := D) (R := fun d => size d = n + 1); [|lia|].
        + apply within_convolve; [|intros r Hr; congruence].
          specialize (HD0 Eu). unfold conv_cost in *. nia.
        + intros d Hd. apply within_op; [lia|]. intros a Ha. injection Ha as <-. auto. }
    intros [f' d] [Hf Hd]. cbn [fst snd] in Hf, Hd |- *.
    apply within_bind_op; [lia|]. intros [[d' b'] B'] Hu.
    apply within_op; [lia|]. intros s' Hs'. injection Hs' as <-.
    destruct (update_keeps n _ _ _ _ _ Hd Ib IB Hu) as (U1 & U2 & U3). cbn [fst snd] in U1, U2, U3.
    split; cbn [e2_buffers e2_fft e2_b e2_B]; auto.
    + rewrite get_src_flip, get_dest_set_dest. exact U1.
    + rewrite get_dest_flip, get_src_set_dest. exact Is.
  - apply within_if; intros _; [|apply within_op; [unfold ca_cost; lia|discriminate]].
    apply within_bind_op; [unfold ca_cost; lia|]. intros [[d' b'] B'] Hu.
    apply within_op; [unfold ca_cost; lia|]. intros s' Hs'. injection Hs' as <-.
    destruct (update_keeps n _ _ _ _ _ Is Ib IB Hu) as (U1 & U2 & U3). cbn [fst snd] in U1, U2, U3.
    split; cbn [e2_buffers e2_fft e2_b e2_B]; auto.
    + rewrite get_src_set_src. exact U1.
    + rewrite get_dest_set_src. exact Id.
Qed.

Lemma fftconv_make_le m : 0 <= m -> fftconv_make_steps m <= 14 + m.
Proof.
  intros Hm. unfold fftconv_make_steps. destruct (round_up_shape (2 * m) ltac:(lia)) as (q & Hq & Hr & Hb). rewrite Hr.
  unfold ROUNDING. rewrite (Z.mul_comm 2048 q), Z.quot_mul by lia. lia.
Qed.

Lemma join_size b B l : sort_ok E -> join_all_bounds E b B = Ok l -> size l = size b + size B + 1.
Proof.
  intros HS. unfold join_all_bounds, std_sort.
  destruct (strict_weak_order_on _) eqn:Ew; [|discriminate]. cbn [bind]. intros H. injection H as <-.
  destruct (HS _ Ew) as [Hp _]. apply Permutation_length in Hp.
  unfold size. rewrite app_length, <- Hp, app_length, !map_length. cbn [List.length]. lia.
Qed.

Definition e2_total (n D : Z) : Z :=
  K * nlogn (2 * n) + (2 * n + 1) * (ca_cost (n + 1) + D + 21) + 26 * n + 120.

Lemma ecdf2_cost b B use_fft D : sort_ok E ->
  (use_fft = true -> fft_cost K (size b + 1) <= D) -> (use_fft = false -> conv_cost (size b + 1) <= D) ->
  fst (c_ecdf2 E P b B use_fft) <= e2_total (size b) D.
Proof.
  intros HS HD1 HD0. set (n := size b) in *.
  assert (Hn : 0 <= n) by apply size_nonneg.
  assert (HD : 0 <= D).
  { destruct use_fft.
    - pose proof (fft_cost_mono K HK 0 (n + 1) ltac:(lia)). specialize (HD1 eq_refl). lia.
    - specialize (HD0 eq_refl). unfold conv_cost in HD0. nia. }
  assert (Hw : within (c_ecdf2 E P b B use_fft) (e2_total n D) (fun _ => True)); [|apply Hw].
  pose proof (HP (2 * n) ltac:(lia)) as (_ & _ & Hsort).
  assert (HA : 0 <= K * nlogn (2 * n)).
  { pose proof (nlogn_mono 0 (2 * n) ltac:(lia)). apply Z.mul_nonneg_nonneg; lia. }
  unfold e2_total. set (A := K * nlogn (2 * n)) in *.
  set (S := (2 * n + 1) * (ca_cost (n + 1) + D + 21)).
  assert (HS0 : 0 <= S) by (unfold S, ca_cost; apply Z.mul_nonneg_nonneg; lia).
  unfold c_ecdf2. fold n. cbv zeta.
  apply within_bind with (c1 := 12 + 3 * n) (R := fun _ => True); [apply within_check; auto; lia|lia|]. intros _ _.
  apply within_bind with (c1 := 12 + 3 * n) (R := fun _ => size B = n); [apply within_check; auto; lia|lia|]. intros _ HB.
  apply within_bind with (c1 := A + S + 20 * n + 75) (R := fun _ => True); [|lia|].
  { unfold c_poisson_process.
    apply within_bind with (c1 := 8 * n + A + 4) (R := fun l => size l = 2 * n + 1); [|lia|].
    { unfold c_join. fold n. rewrite HB. apply within_op; [replace (n + n) with (2 * n) by lia; lia|].
      intros l Hl. apply join_size in Hl; [|exact HS]. fold n in Hl. lia. }
    intros bounds Hbs. cbv zeta. apply within_bind_op; [lia|]. intros src Hsrc.
    pose proof (fftconv_make_le (n + 1) ltac:(lia)) as Hfm.
    apply within_bind_op; [lia|]. intros _ _.
    apply within_bind with (c1 := 15 + 5 * (n + 1)) (R := fun _ => True); [apply within_pmfgen_make; auto; lia|lia|].
    intros pg _.
    apply within_bind with (c1 := 1 + S) (R := fun _ => True); [|lia|].
    - apply within_each with (Inv := e2_inv n) (c := ca_cost (n + 1) + D + 20); auto; try (unfold ca_cost; lia).
      + split; cbn [e2_buffers e2_fft e2_b e2_B]; try lia.
        * rewrite get_src_set_src. apply wr_size in Hsrc. rewrite Hsrc, get_src_make. rewrite size_vec; lia.
        * rewrite get_dest_set_src, get_dest_make. rewrite size_vec; lia.
        * apply fft_shape_make. lia.
      + intros x t Ht. apply within_e2_step; auto.
      + rewrite Hbs. unfold S. nia.
    - intros s _. apply within_op; [lia|auto]. }
  intros probs _. apply within_bind_op; [lia|]. intros pn _.
  apply within_bind with (c1 := 12) (R := fun _ => True); [apply within_op; [lia|auto]|lia|].
  intros d _. apply within_op; [lia|auto].
Qed.

Lemma sort_part n : 0 <= n -> nlogn (2 * n) <= 2 * (n + 1) * (Z.log2 (n + 1) + 2).
Proof.
  intros Hn. unfold nlogn. assert (Hl : Z.log2 (2 * n + 1) <= Z.log2 (n + 1) + 1).
  { replace (Z.log2 (n + 1) + 1) with (Z.log2 ((n + 1) * 2 ^ 1)) by (rewrite Z.log2_mul_pow2; lia).
    apply Z.log2_le_mono. lia. }
  pose proof (Z.log2_nonneg (2 * n + 1)). nia.
Qed.

Lemma log2_le x : 0 <= x -> Z.log2 x <= x.
Proof. intros H. destruct (Z.eq_dec x 0) as [->|]; [reflexivity|]. pose proof (Z.log2_lt_lin x ltac:(lia)). lia. Qed.

(** ecdf2-ks2001 *)
Lemma ecdf2_direct_cost b B : sort_ok E ->
  fst (c_ecdf2 E P b B false) <= 500 * K * (size b + 1) ^ 3.
Proof.
  intros HS. pose proof (size_nonneg b) as Hn. set (n := size b) in *.
  eapply Z.le_trans; [apply (ecdf2_cost b B false (conv_cost (n + 1)) HS); [discriminate|intros _; apply Z.le_refl]|]. fold n.
  unfold e2_total, conv_cost, ca_cost. set (M := n + 1). assert (HM : 1 <= M) by (unfold M; lia).
  replace n with (M - 1) at 2 3 4 by (unfold M; lia).
  pose proof (sort_part n Hn) as Hs. fold M in Hs. pose proof (log2_le M ltac:(lia)) as Hl.
  assert (Hs' : nlogn (2 * n) <= 6 * M * M) by nia.
  assert (Hs2 : K * nlogn (2 * n) <= K * (6 * M * M)) by nia.
  replace (M ^ 3) with (M * M * M) by ring.
  assert (H1 : 1 <= M * M) by nia. assert (H2 : M <= M * M) by nia. assert (H3 : M * M <= M * M * M) by nia.
  set (M2 := M * M) in *. set (M3 := M2 * M) in *.
  assert (Hx : (2 * (M - 1) + 1) * (20 + 9 * M + (1 + M * (3 + 5 * M)) + 21) + 26 * (M - 1) + 120 <= 300 * M3).
  { replace ((2 * (M - 1) + 1) * (20 + 9 * M + (1 + M * (3 + 5 * M)) + 21) + 26 * (M - 1) + 120)
      with (10 * M3 + 19 * M2 + 98 * M + 52) by (unfold M3, M2; ring). lia. }
  assert (Hy : K * (6 * M * M) <= K * (6 * M3)) by (apply Z.mul_le_mono_nonneg_l; unfold M3, M2 in *; lia).
  assert (HM3 : 0 <= M3) by lia.
  assert (M3 <= K * M3) by nia. unfold M3, M2 in *. nia.
Qed.

(** ecdf2-mn2017 *)
Lemma ecdf2_fft_cost b B : sort_ok E ->
  fst (c_ecdf2 E P b B true) <= 2500 * K * (size b + 1) ^ 2 * (Z.log2 (size b + 1) + 1).
Proof.
  intros HS. pose proof (size_nonneg b) as Hn. set (n := size b) in *.
  eapply Z.le_trans; [apply (ecdf2_cost b B true (fft_cost K (n + 1)) HS); [intros _; apply Z.le_refl|discriminate]|]. fold n.
  unfold e2_total, fft_cost, ca_cost. set (M := n + 1). assert (HM : 1 <= M) by (unfold M; lia).
  replace n with (M - 1) at 2 3 4 by (unfold M; lia).
  pose proof (sort_part n Hn) as Hs. fold M in Hs. pose proof (Z.log2_nonneg M) as Hl.
  set (l := Z.log2 M) in *.
  assert (Hs2 : K * nlogn (2 * n) <= K * (2 * M * (l + 2))) by nia.
  replace (M ^ 2) with (M * M) by ring.
  assert (HKM : 0 <= K * M) by nia. assert (H1 : M <= M * M) by nia.
  assert (Hb : (2 * (M - 1) + 1) * (20 + 9 * M + (3 + K * M * (114 * l + 1000)) + 21) <=
               2 * M * (44 + 9 * M + K * M * (114 * l + 1000))).
  { assert (0 <= K * M * (114 * l + 1000)) by nia. set (Y := K * M * (114 * l + 1000)) in *. nia. }
  assert (Hc : 2 * M * (44 + 9 * M + K * M * (114 * l + 1000)) <= K * (M * M) * (228 * l + 2000) + K * (106 * (M * M))).
  { replace (2 * M * (44 + 9 * M + K * M * (114 * l + 1000)))
      with (K * (M * M) * (228 * l + 2000) + (88 * M + 18 * (M * M))) by ring.
    assert (88 * M + 18 * (M * M) <= 106 * (M * M)) by lia. assert (0 <= M * M) by lia.
    assert (106 * (M * M) <= K * (106 * (M * M))) by nia. lia. }
  assert (Hd : K * (2 * M * (l + 2)) <= K * (M * M) * (2 * l + 4)).
  { replace (K * (2 * M * (l + 2))) with (K * (M * (2 * l + 4))) by ring. rewrite <- Z.mul_assoc.
    apply Z.mul_le_mono_nonneg_l; [lia|]. apply Z.mul_le_mono_nonneg_r; lia. }
  assert (He : 26 * (M - 1) + 120 <= K * (146 * (M * M))).
  { assert (26 * (M - 1) + 120 <= 146 * (M * M)) by lia. nia. }
  set (Y := K * (M * M)) in *. assert (0 <= Y) by (unfold Y; nia).
  replace (2500 * K * (M * M) * (l + 1)) with (2500 * Y * l + 2500 * Y) by (unfold Y; ring).
  replace (K * (106 * (M * M))) with (106 * Y) in Hc by (unfold Y; ring).
  replace (K * (146 * (M * M))) with (146 * Y) in He by (unfold Y; ring).
  assert (HYl : 0 <= Y * l) by (apply Z.mul_nonneg_nonneg; lia).
  replace (Y * (228 * l + 2000)) with (228 * (Y * l) + 2000 * Y) in Hc by ring.
  replace (Y * (2 * l + 4)) with (2 * (Y * l) + 4 * Y) in Hd by ring.
  replace (2500 * Y * l) with (2500 * (Y * l)) by ring. lia.
Qed.
End Ecdf2.

(** ** ecdf1_mns2016 *)
Section Mns.
Context {N : num} (E : env N).
Notation T := (car N).

Section Poly.
Context {F : num}.

Lemma within_evaluate (p : ptm F) x c (Q : car F -> Prop) : 1 + 7 * Z.max 0 (degree p + 1) <= c -> (forall y, Q y) ->
  within (c_evaluate p x) c Q.
Proof.
  intros Hc HQ. unfold c_evaluate. apply within_for with (Inv := fun _ _ => True) (c := 6); auto; try lia.
  intros j t _ _. apply within_bind_op; [lia|]. intros m _. apply within_bind_op; [lia|]. intros a _.
  apply within_op; [lia|auto].
Qed.

Lemma within_integrate (p : ptm F) c (Q : ptm F -> Prop) : 5 + 7 * Z.max 0 (degree p + 1) <= c ->
  (forall p', degree p' = degree p + 1 -> Q p') -> within (c_integrate p) c Q.
Proof.
  intros Hc HQ. unfold c_integrate.
  apply within_bind with (c1 := 1 + 7 * Z.max 0 (degree p + 1)) (R := fun _ => True); [|lia|].
  - apply within_for_down with (Inv := fun _ => True) (c := 6); auto; try lia.
    intros j t _. apply within_pair.
    apply within_bind_op; [lia|]. intros x _. apply within_bind_op; [lia|]. intros m _.
    apply within_bind_op; [lia|]. intros y _. apply within_bind_op; [lia|]. intros a _. apply within_op; [lia|auto].
  - intros ma _. apply within_pair. apply within_bind_op; [lia|]. intros a1 _. apply within_bind_op; [lia|]. intros a2 _.
    apply within_bind_op; [lia|]. intros m _. apply within_op; [lia|]. intros p' Hp'. injection Hp' as <-. apply HQ. reflexivity.
Qed.

Lemma within_ldexp_all (p : ptm F) e c (Q : ptm F -> Prop) : 1 + 4 * Z.max 0 (degree p + 1) <= c ->
  (forall p', degree p' = degree p -> Q p') -> within (c_ldexp_all p e) c Q.
Proof.
  intros Hc HQ. unfold c_ldexp_all.
  apply within_bind with (c1 := 1 + 4 * Z.max 0 (degree p + 1)) (R := fun _ => True); [|lia|].
  - apply within_for with (Inv := fun _ _ => True) (c := 3); auto; try lia.
    intros j t _ _. apply within_bind_op; [lia|]. intros x _. apply within_op; [lia|auto].
  - intros m _. apply within_op; [lia|]. intros p' Hp'. injection Hp' as <-. apply HQ. reflexivity.
Qed.

Lemma within_maximum (p : ptm F) c (Q : car F -> Prop) : 5 + 6 * Z.max 0 (degree p + 1) <= c -> (forall y, Q y) ->
  within (c_maximum E p) c Q.
Proof.
  intros Hc HQ. unfold c_maximum. apply within_bind_op; [lia|]. intros _ _. apply within_bind_op; [lia|]. intros m0 _.
  apply within_for with (Inv := fun _ _ => True) (c := 5); auto; try lia.
  intros j t _ _. apply within_bind_op; [lia|]. intros x _. apply within_op; [lia|auto].
Qed.

Lemma set_add_degree (p : ptm F) d x p' : set_additive_coefficient E p d x = Ok p' -> degree p' = degree p.
Proof.
  unfold set_additive_coefficient. intros H. apply bind_ok in H. destruct H as (u & _ & H).
  apply bind_ok in H. destruct H as (m & _ & H). injection H as <-. reflexivity.
Qed.
Lemma set_mult_degree (p : ptm F) d x p' : set_multiplicative_coefficient E p d x = Ok p' -> degree p' = degree p.
Proof.
  unfold set_multiplicative_coefficient. intros H. apply bind_ok in H. destruct H as (u & _ & H).
  apply bind_ok in H. destruct H as (m & _ & H). injection H as <-. reflexivity.
Qed.
End Poly.

Variable LD : long_double N.

Lemma within_mns_step (b : list T) i s n : 0 <= i < n -> degree (fst s) = i ->
  within (c_mns_step E LD b i s) (24 * (n + 1) + 60) (fun s' => degree (fst s') = i + 1).
Proof.
  intros Hi Hd. unfold c_mns_step. apply within_pair. set (p := fst s) in *.
  apply within_bind with (c1 := 5 + 7 * (n + 1)) (R := fun p' => degree p' = i + 1); [|lia|].
  { apply within_integrate; [lia|]. intros p' Hp'. lia. }
  intros p1 H1. apply within_bind_op; [lia|]. intros bi _. apply within_bind_op; [lia|]. intros p2 H2.
  apply set_add_degree in H2.
  apply within_bind with (c1 := 1 + 7 * (n + 1)) (R := fun _ => True); [apply within_evaluate; auto; lia|lia|]. intros v _.
  apply within_bind_op; [lia|]. intros p3 H3. apply set_mult_degree in H3.
  apply within_if; intros _.
  - apply within_bind with (c1 := 5 + 6 * (n + 1)) (R := fun _ => True); [apply within_maximum; auto; lia|lia|]. intros mc _.
    cbv zeta. apply within_bind_op; [lia|]. intros _ _.
    apply within_if; intros _.
    + apply within_bind with (c1 := 1 + 4 * (n + 1)) (R := fun p' => degree p' = i + 1); [|lia|].
      { apply within_ldexp_all; [lia|]. intros p' Hp'. lia. }
      intros p4 H4. apply within_op; [lia|]. intros a Ha. injection Ha as <-. exact H4.
    + apply within_op; [lia|]. intros a Ha. injection Ha as <-. cbn [fst]. lia.
  - apply within_op; [lia|]. intros a Ha. injection Ha as <-. cbn [fst]. lia.
Qed.

Definition mns_total (n : Z) : Z := n * (24 * (n + 1) + 61) + 12 * n + 60.

Lemma within_mns_b (b : list T) c (Q : T -> Prop) : mns_total (size b) <= c -> (forall x, Q x) -> within (c_mns_b E LD b) c Q.
Proof.
  intros Hc HQ. unfold c_mns_b. pose proof (size_nonneg b) as Hn. set (n := size b) in *. cbv zeta. unfold mns_total in Hc.
  set (W := n * (24 * (n + 1) + 61)) in *. assert (HW : 0 <= W) by (unfold W; nia).
  apply within_bind with (c1 := 12 + 3 * n) (R := fun _ => True); [apply within_check; auto; lia|lia|]. intros _ _.
  apply within_bind with (c1 := 9 + 2 * n) (R := fun p => degree p = 0); [|lia|].
  { unfold c_ptm_make. apply within_op; [lia|]. intros p Hp. unfold ptm_make in Hp.
    apply bind_ok in Hp. destruct Hp as (u & _ & Hp). injection Hp as <-. reflexivity. }
  intros p Hp. apply within_bind_op; [lia|]. intros p1 H1. apply set_mult_degree in H1.
  apply within_bind with (c1 := 1 + W) (R := fun s => degree (fst s) = n); [|lia|].
  { apply within_for with (Inv := fun i s => degree (fst s) = i) (c := 24 * (n + 1) + 60).
    - lia.
    - cbn [fst]. lia.
    - intros j t Hj Ht. apply within_mns_step; auto.
    - unfold W. nia.
    - intros t Ht. lia. }
  intros s Hs. apply within_pair.
  apply within_bind with (c1 := 8 + 7 * n) (R := fun _ => True); [apply within_evaluate; auto; lia|lia|]. intros r _. cbv zeta.
  apply within_op; [lia|auto].
Qed.
End Mns.

Section MnsApi.
Context {N : num} (E : env N).
Notation T := (car N).

Lemma mns_square n : 0 <= n -> mns_total n + 8 * n + 20 <= 200 * (n + 1) ^ 2.
Proof. intros Hn. unfold mns_total. nia. Qed.

Lemma mns_b_cost (b : list T) : fst (c_mns2016_b E b) <= 200 * (size b + 1) ^ 2.
Proof.
  pose proof (size_nonneg b). pose proof (mns_square (size b) ltac:(lia)).
  assert (Hw : within (c_mns2016_b E b) (200 * (size b + 1) ^ 2) (fun _ => True)); [|apply Hw].
  apply within_mns_b; [lia|auto].
Qed.

Lemma reflect_size (v : list T) n lo hi (g : Z -> Z) r :
  for_ lo hi (vec n n0) (fun i st => x <- rd v (g i) ;; wr st i (n_sub n1 x)) = Ok r -> 0 <= n -> size r = n.
Proof.
  intros H Hn. revert H. apply for_keep with (I := fun d => size d = n); [|rewrite size_vec; lia].
  intros i s s' Hs H. apply bind_ok in H. destruct H as (x & _ & H). apply wr_size in H. congruence.
Qed.

Lemma within_reflect (v : list T) n (g : Z -> Z) c (Q : list T -> Prop) : 0 <= n -> 1 + 4 * n <= c ->
  (forall r, size r = n -> Q r) ->
  within (cfor 0 n (vec n n0) (fun i st => x <== op 1 (rd v (g i)) ;; op 2 (wr st i (n_sub n1 x)))) c Q.
Proof.
  intros Hn Hc HQ. apply within_for with (Inv := fun _ r => size r = n) (c := 3); auto; try lia.
  - rewrite size_vec; lia.
  - intros j t _ Ht. apply within_bind_op; [lia|]. intros x _. apply within_op; [lia|].
    intros r Hr. apply wr_size in Hr. congruence.
Qed.

Lemma mns_B_cost (B : list T) : fst (c_mns2016_B E B) <= 200 * (size B + 1) ^ 2.
Proof.
  pose proof (size_nonneg B) as Hn. pose proof (mns_square (size B) ltac:(lia)) as Hs.
  set (n := size B) in *.
  assert (Hw : within (c_mns2016_B E B) (mns_total n + 8 * n + 20) (fun _ => True)); [|destruct Hw; lia].
  assert (Ht : 0 <= mns_total n) by (unfold mns_total; nia).
  unfold c_mns2016_B. fold n. cbv zeta.
  apply within_bind with (c1 := 12 + 3 * n) (R := fun _ => True); [apply within_check; auto; lia|lia|]. intros _ _.
  apply within_bind_op; [lia|]. intros _ _.
  apply within_bind with (c1 := 1 + 4 * n) (R := fun r => size r = n); [apply within_reflect; auto; lia|lia|].
  intros r Hr. apply within_mns_b; [rewrite Hr; lia|auto].
Qed.
End MnsApi.
