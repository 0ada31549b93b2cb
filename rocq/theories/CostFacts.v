(** * CostFacts: bounds of the work of the convolutions, and of the algorithms that use them. *)
From Coq Require Import ZArith List Bool String Lia Permutation.
From Verif Require Import Base Num Hoare Common PoissonPmf FFTConv Ecdf2 SafeFft SafeEcdf2 Cost.
Import List. Import ListNotations.
Local Open Scope Z_scope.

(** ** Proof rules *)

(** At most c steps, and a result that satisfies Q if there is one. *)
Definition within {A} (m : costed A) (c : Z) (Q : A -> Prop) : Prop :=
  fst m <= c /\ forall a, snd m = Ok a -> Q a.

Lemma within_weaken {A} (m : costed A) c c' (Q Q' : A -> Prop) :
  within m c Q -> c <= c' -> (forall a, Q a -> Q' a) -> within m c' Q'.
Proof. intros [H1 H2] Hc HQ. split; [lia|]. auto. Qed.

Lemma within_op {A} c d (m : outcome A) (Q : A -> Prop) :
  c <= d -> (forall a, m = Ok a -> Q a) -> within (op c m) d Q.
Proof. intros H1 H2. split; auto. Qed.

(** The budget c is handed on, less what the first part may take. *)
Lemma within_bind {A B} (m : costed A) (k : A -> costed B) c1 c (R : A -> Prop) (Q : B -> Prop) :
  within m c1 R -> c1 <= c -> (forall a, R a -> within (k a) (c - c1) Q) -> within (cbind m k) c Q.
Proof.
  intros [H1 H2] Hc Hk. unfold cbind, within; cbn [fst snd]. destruct (snd m) as [a| | | |] eqn:E; cbn [bind].
  - destruct (Hk a (H2 a eq_refl)) as [K1 K2]. split; [lia|exact K2].
  - split; [lia|discriminate].
  - split; [lia|discriminate].
  - split; [lia|discriminate].
  - split; [lia|discriminate].
Qed.

Lemma within_bind_op {A B} d (m : outcome A) (k : A -> costed B) c (Q : B -> Prop) :
  d <= c -> (forall a, m = Ok a -> within (k a) (c - d) Q) -> within (cbind (op d m) k) c Q.
Proof.
  intros Hd Hk. apply within_bind with (c1 := d) (R := fun a => m = Ok a); auto.
  apply within_op; [lia|auto].
Qed.

Lemma within_if {A} (b : bool) (x y : costed A) c (Q : A -> Prop) :
  (b = true -> within x (c - 1) Q) -> (b = false -> within y (c - 1) Q) -> within (cif b x y) c Q.
Proof.
  intros Hx Hy. unfold cif. destruct b.
  - destruct (Hx eq_refl). split; cbn [fst snd]; [lia|auto].
  - destruct (Hy eq_refl). split; cbn [fst snd]; [lia|auto].
Qed.

Lemma within_pair {A B C} (u : A * B) (k : A -> B -> costed C) c (Q : C -> Prop) :
  within (k (fst u) (snd u)) c Q -> within (cpair u k) c Q.
Proof. destruct u as [a b]. intros H. exact H. Qed.

Lemma within_loop {S} (Inv : Z -> S -> Prop) (body : Z -> S -> costed S) c : 0 <= c -> forall k i s, Inv i s ->
  (forall j t, i <= j < i + Z.of_nat k -> Inv j t -> within (body j t) c (Inv (j + 1))) ->
  within (loop_steps k i body s, loop k i (fun i s => snd (body i s)) s) (Z.of_nat k * (1 + c)) (Inv (i + Z.of_nat k)).
Proof.
  intros Hc. induction k as [|k IH]; intros i s H0 Hb.
  - split; cbn [fst snd loop loop_steps]; [lia|]. intros a E. injection E as <-. rewrite Z.add_0_r. exact H0.
  - destruct (Hb i s ltac:(lia) H0) as [B1 B2]. unfold within; cbn [fst snd loop loop_steps].
    destruct (snd (body i s)) as [t| | | |] eqn:E; cbn [bind];
      try (split; [nia|discriminate]).
    destruct (IH (i + 1) t (B2 t eq_refl)) as [I1 I2].
    { intros j t' Hj. apply Hb. lia. }
    cbn [fst snd] in I1, I2. split; [nia|].
    intros a Ha. replace (i + Z.of_nat (Datatypes.S k)) with (i + 1 + Z.of_nat k) by lia. auto.
Qed.

Lemma within_for {S} (Inv : Z -> S -> Prop) lo hi s (body : Z -> S -> costed S) c d (Q : S -> Prop) :
  0 <= c -> Inv lo s ->
  (forall j t, lo <= j < hi -> Inv j t -> within (body j t) c (Inv (j + 1))) ->
  1 + Z.max 0 (hi - lo) * (1 + c) <= d -> (forall t, Inv (Z.max lo hi) t -> Q t) ->
  within (cfor lo hi s body) d Q.
Proof.
  intros Hc H0 Hb Hd HQ. destruct (within_loop Inv body c Hc (Z.to_nat (hi - lo)) lo s H0) as [L1 L2].
  { intros j t Hj. apply Hb. lia. }
  unfold cfor, for_. cbn [fst snd] in L1, L2. split; cbn [fst snd].
  - replace (Z.of_nat (Z.to_nat (hi - lo))) with (Z.max 0 (hi - lo)) in L1 by lia. lia.
  - intros a Ha. apply HQ. replace (Z.max lo hi) with (lo + Z.of_nat (Z.to_nat (hi - lo))) by lia. auto.
Qed.

Lemma within_loop_down {S} (Inv : S -> Prop) (body : Z -> S -> costed S) c : 0 <= c -> forall k i s, Inv s ->
  (forall j t, Inv t -> within (body j t) c Inv) ->
  within (loop_down_steps k i body s, loop_down k i (fun i s => snd (body i s)) s) (Z.of_nat k * (1 + c)) Inv.
Proof.
  intros Hc. induction k as [|k IH]; intros i s H0 Hb.
  - split; cbn [fst snd loop_down loop_down_steps]; [lia|]. intros a E. injection E as <-. exact H0.
  - destruct (Hb i s H0) as [B1 B2]. unfold within; cbn [fst snd loop_down loop_down_steps].
    destruct (snd (body i s)) as [t| | | |] eqn:E; cbn [bind];
      try (split; [nia|discriminate]).
    destruct (IH (i - 1) t (B2 t eq_refl) Hb) as [I1 I2]. cbn [fst snd] in I1, I2. split; [nia|auto].
Qed.

Lemma within_for_down {S} (Inv : S -> Prop) hi lo s (body : Z -> S -> costed S) c d (Q : S -> Prop) :
  0 <= c -> Inv s -> (forall j t, Inv t -> within (body j t) c Inv) ->
  1 + Z.max 0 (hi - lo + 1) * (1 + c) <= d -> (forall t, Inv t -> Q t) ->
  within (cfor_down hi lo s body) d Q.
Proof.
  intros Hc H0 Hb Hd HQ. destruct (within_loop_down Inv body c Hc (Z.to_nat (hi - lo + 1)) hi s H0 Hb) as [L1 L2].
  unfold cfor_down, for_down. cbn [fst snd] in L1, L2. split; cbn [fst snd]; [|auto].
  replace (Z.of_nat (Z.to_nat (hi - lo + 1))) with (Z.max 0 (hi - lo + 1)) in L1 by lia. lia.
Qed.

Lemma within_each {A S} (Inv : S -> Prop) (body : A -> S -> costed S) c : 0 <= c -> forall l s d (Q : S -> Prop), Inv s ->
  (forall x t, Inv t -> within (body x t) c Inv) ->
  1 + size l * (1 + c) <= d -> (forall t, Inv t -> Q t) -> within (ceach l s body) d Q.
Proof.
  intros Hc l s d Q H0 Hb Hd HQ.
  enough (H : within (each_steps l s body, for_each l s (fun x s => snd (body x s))) (size l * (1 + c)) Inv).
  { destruct H as [H1 H2]. cbn [fst snd] in H1, H2. split; unfold ceach; cbn [fst snd]; [lia|auto]. }
  clear Hd HQ. revert s H0. induction l as [|x l IH]; intros s H0.
  - split; cbn; [lia|]. intros a E. injection E as <-. exact H0.
  - destruct (Hb x s H0) as [B1 B2]. unfold within; cbn [fst snd for_each each_steps].
    assert (Hsz : size (x :: l) = 1 + size l) by (unfold size; cbn [List.length]; lia). rewrite Hsz.
    pose proof (size_nonneg l) as Hl.
    destruct (snd (body x s)) as [t| | | |] eqn:E; cbn [bind];
      try (split; [nia|discriminate]).
    destruct (IH t (B2 t eq_refl)) as [I1 I2]. cbn [fst snd] in I1, I2. split; [nia|auto].
Qed.

Lemma within_blit {A} (src : list A) so dst do_ len d (Q : list A -> Prop) :
  1 + Z.max 0 len * 3 <= d -> (forall r, size r = size dst -> Q r) -> within (cblit src so dst do_ len) d Q.
Proof.
  intros Hd HQ. unfold cblit. apply within_for with (Inv := fun _ r => size r = size dst) (c := 2); auto; try lia.
  intros j t _ Ht. apply within_bind_op; [lia|]. intros x _. apply within_op; [lia|].
  intros r Hr. apply wr_size in Hr. congruence.
Qed.

Lemma within_fill {A} (a : list A) lo hi v d (Q : list A -> Prop) :
  1 + Z.max 0 (hi - lo) * 2 <= d -> (forall r, size r = size a -> Q r) -> within (cfill a lo hi v) d Q.
Proof.
  intros Hd HQ. unfold cfill. apply within_for with (Inv := fun _ r => size r = size a) (c := 1); auto; try lia.
  intros j t _ Ht. apply within_op; [lia|]. intros r Hr. apply wr_size in Hr. congruence.
Qed.

(** ** Prices *)
Definition nlogn (m : Z) : Z := (m + 1) * (Z.log2 (m + 1) + 1).

(** Each of the three operations on m points or elements takes at most K (m+1) (log2 (m+1) + 1) steps. *)
Definition fair (K : Z) (P : prices) : Prop :=
  forall m, 0 <= m -> p_fft P m <= K * nlogn m /\ p_plan P m <= K * nlogn m /\ p_sort P m <= K * nlogn m.

Lemma nlogn_mono m m' : 0 <= m <= m' -> 0 <= nlogn m <= nlogn m'.
Proof.
  intros H. unfold nlogn. pose proof (Z.log2_nonneg (m + 1)). pose proof (Z.log2_le_mono (m + 1) (m' + 1) ltac:(lia)). nia.
Qed.

Section Facts.
Context {N : num} (E : env N) (P : prices) (K : Z).
Hypothesis HK : 1 <= K.
Hypothesis HP : fair K P.
Notation T := (car N).

(** ** The pieces *)
Lemma monotone_le (v : list T) : forall prev, monotone_steps prev v <= 1 + 3 * size v.
Proof.
  induction v as [|x v IH]; intros prev; cbn [monotone_steps]; [unfold size; cbn; lia|].
  assert (Hsz : size (x :: v) = 1 + size v) by (unfold size; cbn [List.length]; lia). rewrite Hsz.
  specialize (IH x). pose proof (size_nonneg v). destruct (n_lt x prev); lia.
Qed.

Lemma check_size name n (v : list T) u : check_boundary_vector name n v = Ok u -> size v = n.
Proof. unfold check_boundary_vector. destruct (Z.eqb_spec (size v) n); [auto|discriminate]. Qed.

Lemma within_check name n (v : list T) c (Q : unit -> Prop) : 0 <= n -> 12 + 3 * n <= c ->
  (size v = n -> Q tt) -> within (c_check name n v) c Q.
Proof.
  intros Hn Hc HQ. unfold c_check. apply within_op.
  - pose proof (monotone_le v n_ninf). destruct (Z.eqb_spec (size v) n); lia.
  - intros [] Hu. apply HQ. eapply check_size; eauto.
Qed.

Definition conv_cost (m : Z) : Z := 1 + m * (3 + 5 * m).

Lemma within_convolve sz (s0 : list T) o0 s1 o1 dest od c (Q : list T -> Prop) :
  conv_cost (Z.max 0 sz) <= c -> (forall r, size r = size dest -> Q r) ->
  within (c_convolve sz s0 o0 s1 o1 dest od) c Q.
Proof.
  intros Hc HQ. unfold c_convolve. set (m := Z.max 0 sz) in *. unfold conv_cost in Hc.
  apply within_for with (Inv := fun _ r => size r = size dest) (c := 2 + 5 * m); auto; try lia.
  intros j t Hj Ht.
  apply within_bind with (c1 := 1 + 5 * m) (R := fun _ => True); [|lia|].
  - apply within_for with (Inv := fun _ _ => True) (c := 4); auto; try lia.
    intros k acc _ _. apply within_bind_op; [lia|]. intros x _. apply within_bind_op; [lia|]. intros y _.
    apply within_op; [lia|auto].
  - intros acc _. apply within_op; [lia|]. intros r Hr. apply wr_size in Hr. congruence.
Qed.

Definition ca_cost (m : Z) : Z := 20 + 9 * m.

Lemma within_compute_array (g : pmfgen N) k lambda c (Q : pmfgen N -> Prop) :
  ca_cost (Z.max 0 k) <= c -> (forall g', Q g') -> within (c_compute_array E g k lambda) c Q.
Proof.
  intros Hc HQ. unfold c_compute_array, ca_cost in *. set (m := Z.max 0 k) in *.
  apply within_bind_op; [lia|]. intros _ _. apply within_bind_op; [lia|]. intros _ _.
  apply within_if; intros _; [apply within_op; [lia|discriminate]|].
  apply within_if; intros _.
  - apply within_bind_op; [lia|]. intros a _.
    apply within_bind with (c1 := 1 + 2 * m) (R := fun _ => True); [|lia|].
    + apply within_for with (Inv := fun _ _ => True) (c := 1); auto; try lia.
      intros j t _ _. apply within_op; [lia|auto].
    + intros a' _. apply within_op; [lia|auto].
  - cbv zeta. apply within_bind with (c1 := 1 + 9 * (m + 1)) (R := fun _ => True); [|lia|].
    + apply within_for with (Inv := fun _ _ => True) (c := 8); auto; try lia.
      intros j t _ _. apply within_bind_op; [lia|]. intros lg _. apply within_op; [lia|auto].
    + intros a' _. apply within_op; [lia|auto].
Qed.

Lemma within_pmfgen_make mk c (Q : pmfgen N -> Prop) : 0 <= mk -> 15 + 5 * mk <= c ->
  (forall g, Q g) -> within (c_pmfgen_make E mk) c Q.
Proof.
  intros Hmk Hc HQ. unfold c_pmfgen_make. apply within_bind_op; [lia|]. intros _ _.
  apply within_bind with (c1 := 1 + 3 * (mk + 2)) (R := fun _ => True); [|lia|].
  { apply within_for with (Inv := fun _ _ => True) (c := 2); auto; try lia.
    intros j t _ _. apply within_op; [lia|auto]. }
  intros lut _. apply within_bind with (c1 := 1 + 2 * (mk + 1)) (R := fun _ => True); [|lia|].
  { apply within_for with (Inv := fun _ _ => True) (c := 1); auto; try lia.
    intros j t _ _. apply within_op; [lia|auto]. }
  intros arr _. apply within_op; [lia|auto].
Qed.

Lemma plan_size pl q r S : plans_shape S pl -> 0 < q -> memoized_plan E pl (2048 * q) = Ok r -> snd r = 2048 * q.
Proof.
  intros [Hs Hp] Hq. unfold memoized_plan, ROUNDING.
  assert (Hi : Z.quot (2048 * q) 2048 = q) by (rewrite Z.mul_comm; apply Z.quot_mul; lia). rewrite Hi.
  intros H. apply bind_ok in H. destruct H as (u1 & _ & H). apply bind_ok in H. destruct H as (u2 & _ & H).
  apply bind_ok in H. destruct H as (u3 & _ & H). apply bind_ok in H. destruct H as (o & Hrd & H).
  destruct o as [sz|].
  - injection H as <-. cbn [snd]. unfold rd in Hrd. destruct (Z.ltb_spec (q - 1) 0); [lia|].
    destruct (nth_error pl (Z.to_nat (q - 1))) as [x|] eqn:En; [|discriminate].
    assert (Hlt : (Z.to_nat (q - 1) < List.length pl)%nat) by (apply nth_error_Some; congruence).
    assert (Hx : x = Some sz) by congruence. subst x.
    destruct (Hp (q - 1)) as [Hg|Hg]; [unfold size in Hs; lia| |];
      unfold get in Hg; rewrite (nth_error_nth _ _ _ En) in Hg; [discriminate|]. assert (sz = 2048 * (q - 1 + 1)) by congruence. lia.
  - apply bind_ok in H. destruct H as (pl' & Hw & H). assert (Hr : r = (pl', 2048 * q)) by congruence. subst r. reflexivity.
Qed.

Lemma within_plan pl q S c (Q : list (option Z) * Z -> Prop) : plans_shape S pl -> 0 < q ->
  10 + K * nlogn (2048 * q) <= c -> (forall pl', plans_shape S pl' -> Q (pl', 2048 * q)) ->
  within (c_memoized_plan E P pl (2048 * q)) c Q.
Proof.
  intros Hpl Hq Hc HQ. pose proof (HP (2048 * q) ltac:(lia)) as (_ & Hp & _).
  pose proof (nlogn_mono 0 (2048 * q) ltac:(lia)) as Hn.
  split.
  2:{ intros [pl' sz] Ha. change (memoized_plan E pl (2048 * q) = Ok (pl', sz)) in Ha.
      pose proof (plan_size _ _ _ _ Hpl Hq Ha) as Hsz. cbn [snd] in Hsz. subst sz.
      apply HQ. eapply (memoized_kept E _ _ _ _ Hpl Hq Ha). }
  assert (Hw : within (c_memoized_plan E P pl (2048 * q)) c (fun _ => True)); [|apply Hw].
  unfold c_memoized_plan. assert (0 <= K * nlogn (2048 * q)) by (apply Z.mul_nonneg_nonneg; lia).
  set (A := K * nlogn (2048 * q)) in *.
  apply within_bind_op; [lia|]. intros _ _. apply within_bind_op; [lia|]. intros _ _. cbv zeta.
  apply within_bind_op; [lia|]. intros _ _. apply within_bind_op; [lia|]. intros p _.
  apply within_op; [destruct p; lia|auto].
Qed.

Lemma within_copy (src : list T) so dest ss ds c (Q : list T -> Prop) :
  0 <= ss <= ds -> 2 + 3 * ds <= c -> (forall r, size r = size dest -> Q r) ->
  within (c_copy_zero_padded src so dest ss ds) c Q.
Proof.
  intros Hs Hc HQ. unfold c_copy_zero_padded.
  apply within_bind with (c1 := 1 + 3 * ss) (R := fun r => size r = size dest); [|lia|].
  - apply within_blit; [lia|auto].
  - intros r Hr. apply within_fill; [lia|]. intros r' Hr'. apply HQ. congruence.
Qed.

Lemma within_elementwise sz (s0 s1 dest : list (cplx N)) x c (Q : list (cplx N) -> Prop) :
  0 <= sz -> 1 + 12 * sz <= c -> (forall r, Q r) -> within (c_elementwise sz s0 s1 dest x) c Q.
Proof.
  intros Hs Hc HQ. unfold c_elementwise. apply within_for with (Inv := fun _ _ => True) (c := 11); auto; try lia.
  intros j t _ _. apply within_bind_op; [lia|]. intros a _. apply within_bind_op; [lia|]. intros b _.
  apply within_op; [lia|auto].
Qed.

(** A convolution of m elements by FFTWConvolver. *)
Definition fft_cost (m : Z) : Z := 3 + K * m * (114 * Z.log2 m + 1000).

Lemma fft_cost_mono m m' : 0 <= m <= m' -> 3 <= fft_cost m <= fft_cost m'.
Proof.
  intros H. unfold fft_cost. pose proof (Z.log2_nonneg m). pose proof (Z.log2_le_mono m m' ltac:(lia)).
  assert (0 <= m * (114 * Z.log2 m + 1000) <= m' * (114 * Z.log2 m' + 1000)) by nia.
  rewrite <- !Z.mul_assoc. nia.
Qed.

Lemma padded_cost sz p : 128 <= sz -> 2 * sz <= p < 2 * sz + 2048 ->
  6 * (K * nlogn p) + 12 * p + 3 * sz + 60 <= K * sz * (114 * Z.log2 sz + 1000).
Proof.
  intros Hsz Hp.
  assert (Hl : Z.log2 (p + 1) <= Z.log2 sz + 5).
  { replace (Z.log2 sz + 5) with (Z.log2 (sz * 2 ^ 5)) by (rewrite Z.log2_mul_pow2; lia).
    apply Z.log2_le_mono. change (2 ^ 5) with 32. lia. }
  pose proof (Z.log2_nonneg (p + 1)). pose proof (Z.log2_nonneg sz).
  assert (Hn : nlogn p <= 19 * sz * (Z.log2 sz + 6)).
  { unfold nlogn. assert (p + 1 <= 19 * sz) by lia. nia. }
  assert (0 <= nlogn p) by (unfold nlogn; nia).
  assert (G1 : K * nlogn p <= K * (19 * sz * (Z.log2 sz + 6))) by nia.
  assert (G2 : 12 * p + 3 * sz + 60 <= K * (316 * sz)) by nia.
  replace (K * sz * (114 * Z.log2 sz + 1000)) with (6 * (K * (19 * sz * (Z.log2 sz + 6))) + K * (316 * sz)) by ring.
  lia.
Qed.

Lemma within_fft_convolve mx (f : fftconv N) sz (a : list T) oa b ob out oo c (Q : fftconv N * list T -> Prop) :
  fft_shape mx f -> fft_cost (Z.max 0 sz) <= c ->
  (forall f' out', fft_shape mx f' -> size out' = size out -> Q (f', out')) ->
  within (c_fft_convolve E P f sz a oa b ob out oo) c Q.
Proof.
  intros Hf Hc HQ. split.
  2:{ intros [f' out'] Ha.
      change (fft_convolve_same_size E f sz a oa b ob out oo = Ok (f', out')) in Ha.
      apply (fft_shape_kept E mx) in Ha; [|exact Hf]. apply HQ; apply Ha. }
  assert (Hw : within (c_fft_convolve E P f sz a oa b ob out oo) c (fun _ => True)); [|apply Hw].
  pose proof (fft_cost_mono 0 (Z.max 0 sz) ltac:(lia)) as H0.
  unfold c_fft_convolve.
  apply within_if; intros _; [apply within_op; [lia|discriminate]|].
  apply within_if; intros E1; [apply within_op; [lia|auto]|]. apply Z.leb_gt in E1.
  rewrite Z.max_r in Hc by lia. rewrite Z.max_r in H0 by lia.
  apply within_if; intros E2.
  - apply Z.ltb_lt in E2. unfold MINIMUM_SIZE_FOR_FFTW_CONVOLUTION in E2.
    assert (Hcc : conv_cost sz <= c - 1 - 1 - 1).
    { unfold conv_cost, fft_cost in *. pose proof (Z.log2_nonneg sz).
      assert (sz * 1000 <= K * sz * (114 * Z.log2 sz + 1000)) by (rewrite <- Z.mul_assoc; nia). nia. }
    apply within_bind with (c1 := conv_cost sz) (R := fun _ => True); [|exact Hcc|].
    + apply within_convolve; [rewrite Z.max_r by lia; lia|auto].
    + intros r _. apply within_op; [lia|auto].
  - apply Z.ltb_ge in E2. unfold MINIMUM_SIZE_FOR_FFTW_CONVOLUTION in E2.
    destruct (round_up_shape (2 * sz) ltac:(lia)) as (q & Hq & Hr & Hqs). cbv zeta. rewrite Hr.
    pose proof (padded_cost sz (2048 * q) E2 Hqs) as Hb. unfold fft_cost in Hc.
    pose proof (nlogn_mono 0 (2048 * q) ltac:(lia)) as Hn0.
    pose proof (HP (2048 * q) ltac:(lia)) as (Hpf & _ & _).
    assert (HA : 0 <= K * nlogn (2048 * q)) by (apply Z.mul_nonneg_nonneg; lia).
    set (A := K * nlogn (2048 * q)) in *. set (p := 2048 * q) in *.
    destruct Hf as (_ & _ & _ & _ & _ & _ & Hplr & Hplc).
    assert (Hq0 : 0 < q) by lia. set (np := Z.quot (round_up (2 * mx) ROUNDING) ROUNDING) in *.
    apply within_bind with (c1 := 2 + 3 * p) (R := fun _ => True); [apply within_copy; auto; lia|lia|]. intros in1 _.
    apply within_bind with (c1 := 10 + A) (R := fun r => plans_shape np (fst r) /\ snd r = p); [apply (within_plan _ q _ _ _ Hplr Hq0); [unfold A, p; lia|]|lia|].
    { intros pl' Hpl'. split; [exact Hpl'|reflexivity]. }
    intros pl1 (Hpl1 & Hs1). rewrite Hs1.
    apply within_bind_op; [lia|]. intros rc1 _.
    apply within_bind with (c1 := 2 + 3 * p) (R := fun _ => True); [apply within_copy; auto; lia|lia|]. intros in2 _.
    apply within_bind with (c1 := 10 + A) (R := fun r => plans_shape np (fst r) /\ snd r = p); [apply (within_plan _ q _ _ _ Hpl1 Hq0); [unfold A, p; lia|]|lia|].
    { intros pl' Hpl'. split; [exact Hpl'|reflexivity]. }
    intros pl2 (Hpl2 & Hs2). rewrite Hs2.
    apply within_bind_op; [lia|]. intros rc2 _.
    assert (Hhalf : 0 <= Z.quot p 2 /\ 2 * Z.quot p 2 <= p) by (rewrite Z.quot_div_nonneg by lia; pose proof (Z.mul_div_le p 2); pose proof (Z.div_pos p 2); lia).
    apply within_bind with (c1 := 13 + 6 * p) (R := fun _ => True); [apply within_elementwise; auto; lia|lia|]. intros cin _.
    apply within_bind with (c1 := 10 + A) (R := fun r => plans_shape np (fst r) /\ snd r = p); [apply (within_plan _ q _ _ _ Hplc Hq0); [unfold A, p; lia|]|lia|].
    { intros pl' Hpl'. split; [exact Hpl'|reflexivity]. }
    intros pl3 (Hpl3 & Hs3). rewrite Hs3.
    apply within_bind_op; [lia|]. intros cr _.
    apply within_bind with (c1 := 1 + 3 * sz) (R := fun _ => True); [apply within_blit; auto; lia|lia|]. intros o _.
    apply within_op; [lia|auto].
Qed.
End Facts.
