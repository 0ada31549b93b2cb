(** * CostNew: bounds of the work of ecdf1_new. *)
From Coq Require Import ZArith List Bool String Lia.
From Verif Require Import Base Num Hoare Common PoissonPmf FFTConv Ecdf1New SafeFft SafeEcdf2 Cost CostFacts CostMain.
Import List. Import ListNotations.
Local Open Scope string_scope.
Local Open Scope Z_scope.

Section New.
Context {N : num} (E : env N) (P : prices) (K : Z).
Hypothesis HK : 1 <= K.
Hypothesis HP : fair K P.
Notation T := (car N).
Variables (n : Z) (intensity : T) (B : list T) (jump : Z).
Hypothesis Hn : 1 <= n.
Hypothesis HB : size B = n.
Hypothesis Hj : 1 <= jump.

Lemma within_subtract pg I i p lambda (dest : list T) c (Q : list T -> Prop) :
  1 + 18 * Z.max 0 (n - I) <= c -> (forall d, Q d) -> within (c_subtract_exits E n pg I i p lambda dest) c Q.
Proof.
  intros Hc HQ. unfold c_subtract_exits. apply within_for with (Inv := fun _ _ => True) (c := 17); auto; try lia.
  intros j t _ _. apply within_bind_op; [lia|]. intros d _.
  apply within_bind with (c1 := 12) (R := fun _ => True); [apply within_op; [lia|auto]|lia|]. intros q _.
  apply within_op; [lia|auto].
Qed.

Definition inner_total : Z := ca_cost jump + fft_cost K jump + 18 * n + 30.

Lemma within_inner I_prev I i s : I_prev < i < I -> -1 <= I_prev -> I - I_prev <= jump -> fft_shape (n + 1) (in_fft s) ->
  within (c_inner_step E P n intensity B I_prev I i s) inner_total (fun s' => fft_shape (n + 1) (in_fft s')).
Proof.
  intros Hi Hp HI Hf. unfold c_inner_step, inner_total.
  pose proof (fft_cost_mono K HK (Z.max 0 (I - i + 1)) jump ltac:(lia)) as Hfc.
  set (F := fft_cost K jump) in *.
  assert (Hca : ca_cost (Z.max 0 (I - i + 1)) <= ca_cost jump) by (unfold ca_cost; lia).
  assert (Hca0 : 0 <= ca_cost jump) by (unfold ca_cost; lia). set (C := ca_cost jump) in *.
  apply within_bind_op; [lia|]. intros Bi _.
  apply within_bind with (c1 := C) (R := fun _ => True); [apply within_compute_array; auto|lia|]. intros pg _. cbv zeta.
  apply within_bind_op; [lia|]. intros _ _. apply within_bind_op; [lia|]. intros _ _.
  apply within_bind with (c1 := F) (R := fun r => fft_shape (n + 1) (fst r)); [|lia|].
  { apply (within_fft_convolve E P K HK HP (n + 1)); auto; lia. }
  intros fd Hfd. apply within_bind_op; [lia|]. intros pe _. apply within_bind_op; [lia|]. intros BI _.
  apply within_bind with (c1 := 1 + 18 * n) (R := fun _ => True); [apply within_subtract; auto; lia|lia|]. intros dest _.
  apply within_bind_op; [lia|]. intros md _. apply within_bind_op; [lia|]. intros ms _.
  apply within_op; [lia|]. intros r Hr. injection Hr as <-. exact Hfd.
Qed.

Definition block_total : Z := ca_cost (n + 1) + fft_cost K (n + 1) + 8 * n + 60.

Lemma within_outer s : -1 <= o_I_prev s < o_I s -> o_I s < n -> o_I s - o_I_prev s <= jump -> fft_shape (n + 1) (o_fft s) ->
  within (c_outer_step E P n intensity B s)
    (block_total + (o_I s - o_I_prev s) * (1 + inner_total))
    (fun s' => fft_shape (n + 1) (o_fft s') /\ o_I s' = o_I s /\ o_I_prev s' = o_I s).
Proof.
  intros Hp HI HJ Hf. unfold c_outer_step. cbv zeta. set (I := o_I s) in *. set (Q := o_I_prev s) in *.
  pose proof (fft_cost_mono K HK (Z.max 0 (n - Q)) (n + 1) ltac:(lia)) as Hfc.
  pose proof (fft_cost_mono K HK 0 jump ltac:(lia)) as Hfj.
  assert (Hit : 0 <= inner_total) by (unfold inner_total, ca_cost; lia).
  assert (Hca : ca_cost (Z.max 0 (n - Q)) <= ca_cost (n + 1)) by (unfold ca_cost; lia).
  assert (Hca0 : 0 <= ca_cost (n + 1)) by (unfold ca_cost; lia).
  assert (HX : 0 <= (I - Q) * (1 + inner_total)) by (apply Z.mul_nonneg_nonneg; lia).
  assert (HX2 : (I - Q - 1) * (1 + inner_total) <= (I - Q) * (1 + inner_total)) by (apply Z.mul_le_mono_nonneg_r; lia).
  unfold block_total. set (X := (I - Q) * (1 + inner_total)) in *.
  set (F := fft_cost K (n + 1)) in *. set (C := ca_cost (n + 1)) in *.
  apply within_bind_op; [lia|]. intros BI _.
  apply within_bind with (c1 := C) (R := fun _ => True); [apply within_compute_array; auto|lia|]. intros pg _.
  apply within_bind_op; [lia|]. intros _ _.
  apply within_bind with (c1 := F) (R := fun r => fft_shape (n + 1) (fst r)); [|lia|].
  { apply (within_fft_convolve E P K HK HP (n + 1)); auto; lia. }
  intros ft Hft. apply within_bind_op; [lia|]. intros _ _. apply within_bind_op; [lia|]. intros _ _.
  apply within_bind with (c1 := 1 + 2 * (I + 1)) (R := fun _ => True); [apply within_fill; auto; lia|lia|]. intros d1 _.
  apply within_bind with (c1 := 1 + 3 * (n - I)) (R := fun _ => True); [apply within_blit; auto; lia|lia|]. intros d2 _.
  apply within_bind_op; [lia|]. intros _ _. apply within_bind_op; [lia|]. intros _ _.
  apply within_bind with (c1 := 1 + 3 * (I - Q)) (R := fun _ => True); [apply within_blit; auto; lia|lia|]. intros mini _.
  apply within_bind with (c1 := 1 + X) (R := fun r => fft_shape (n + 1) (in_fft r)); [|lia|].
  { apply within_for with (Inv := fun _ r => fft_shape (n + 1) (in_fft r)) (c := inner_total); auto.
    - intros i t Hi Ht. apply within_inner; auto; lia.
    - replace (Z.max 0 (I - (Q + 1))) with (I - Q - 1) by lia. lia. }
  intros r Hr. apply within_op; [lia|]. intros s' Hs'. injection Hs' as <-. cbn [o_fft o_I o_I_prev]. auto.
Qed.

(** How many blocks are left when d = n - 1 - I locations are. *)
Definition blocks (d : Z) : Z := if d =? 0 then 1 else 2 + (d - 1) / jump.

Lemma blocks_next d : 0 < d -> 1 + blocks (Z.max 0 (d - jump)) <= blocks d.
Proof.
  intros Hd. unfold blocks. destruct (Z.eqb_spec d 0); [lia|].
  pose proof (Z.div_pos (d - 1) jump ltac:(lia) ltac:(lia)).
  destruct (Z.eqb_spec (Z.max 0 (d - jump)) 0) as [e|e]; [lia|].
  replace (Z.max 0 (d - jump) - 1) with ((d - 1) + (-1) * jump) by lia.
  rewrite Z.div_add by lia. lia.
Qed.

Lemma outer_loop_cost fuel : forall s, -1 <= o_I_prev s < o_I s -> o_I s < n -> o_I s - o_I_prev s <= jump ->
  fft_shape (n + 1) (o_fft s) ->
  within (c_outer_loop E P fuel n n jump intensity B s)
    (blocks (n - 1 - o_I s) * (block_total + 5) + (n - 1 - o_I_prev s) * (1 + inner_total))
    (fun s' => fft_shape (n + 1) (o_fft s')).
Proof.
  pose proof (fft_cost_mono K HK 0 (n + 1) ltac:(lia)) as Hfn.
  pose proof (fft_cost_mono K HK 0 jump ltac:(lia)) as Hfj.
  assert (Hit : 0 <= 1 + inner_total) by (unfold inner_total, ca_cost; lia).
  assert (Hbt : 0 <= block_total + 5) by (unfold block_total, ca_cost; lia).
  induction fuel as [|fuel IH]; intros s Hp HI HJ Hf.
  { split; [|discriminate]. cbn [c_outer_loop op fst outer_steps].
    assert (0 <= blocks (n - 1 - o_I s)).
    { unfold blocks. destruct (Z.eqb_spec (n - 1 - o_I s) 0); [lia|]. pose proof (Z.div_pos (n - 1 - o_I s - 1) jump ltac:(lia) ltac:(lia)). lia. }
    apply Z.add_nonneg_nonneg; apply Z.mul_nonneg_nonneg; lia. }
  destruct (within_outer s Hp HI HJ Hf) as [W1 W2]. rewrite outer_step_same in W2.
  unfold within, c_outer_loop, op; cbn [fst snd outer_steps outer_loop]. rewrite outer_step_same.
  set (I := o_I s) in *. set (Q := o_I_prev s) in *.
  assert (Hsplit : (n - 1 - Q) * (1 + inner_total) = (I - Q) * (1 + inner_total) + (n - 1 - I) * (1 + inner_total)) by ring.
  assert (Hrest : 0 <= (n - 1 - I) * (1 + inner_total)) by (apply Z.mul_nonneg_nonneg; lia).
  assert (Hb1 : 1 <= blocks (n - 1 - I)).
  { unfold blocks. destruct (Z.eqb_spec (n - 1 - I) 0); [lia|]. pose proof (Z.div_pos (n - 1 - I - 1) jump ltac:(lia) ltac:(lia)). lia. }
  assert (Hb2 : block_total + 5 <= blocks (n - 1 - I) * (block_total + 5)) by nia.
  set (X := (n - 1 - I) * (1 + inner_total)) in *. set (Y := (I - Q) * (1 + inner_total)) in *.
  destruct (outer_step E n intensity B s) as [t| | | |] eqn:Es; cbn [bind];
    try (split; [lia|discriminate]).
  destruct (W2 t eq_refl) as (Hft & HIt & HQt). rewrite HIt.
  destruct (Z.eqb_spec I (n - 1)) as [e|e].
  - split; [lia|]. intros a Ha. injection Ha as <-. exact Hft.
  - destruct (IH (mkOuter (o_bufs t) (o_mini t) (o_fft t) (o_pmf t) (o_tmp t) (o_prev_loc t) (o_I_prev t) (Z.min (I + jump) (n - 1))))
      as [I1 I2]; cbn [o_I o_I_prev o_fft]; try lia; auto.
    unfold c_outer_loop, op in I1, I2. cbn [fst snd o_I o_I_prev] in I1, I2. rewrite HQt in I1.
    replace (n - 1 - Z.min (I + jump) (n - 1)) with (Z.max 0 (n - 1 - I - jump)) in I1 by lia.
    pose proof (blocks_next (n - 1 - I) ltac:(lia)) as Hnx.
    split; [|exact I2].
    assert (Hmul : (1 + blocks (Z.max 0 (n - 1 - I - jump))) * (block_total + 5) <= blocks (n - 1 - I) * (block_total + 5))
      by (apply Z.mul_le_mono_nonneg_r; lia).
    fold X in I1. rewrite Z.mul_add_distr_r in Hmul. rewrite HQt. lia.
Qed.

Definition n2_total : Z :=
  (2 + n / jump) * (block_total + 5) + n * (1 + inner_total) + fft_cost K 1 + 20 * n + 2 * jump + 150.

Lemma within_n2 fuel c (Q : list T -> Prop) : n2_total <= c -> (forall r, Q r) ->
  within (c_n2 E P fuel n intensity B jump) c Q.
Proof.
  intros Hc HQ. unfold c_n2. rewrite HB. cbv zeta. unfold n2_total in Hc.
  pose proof (fft_cost_mono K HK 0 (n + 1) ltac:(lia)) as Hfn.
  pose proof (fft_cost_mono K HK 0 jump ltac:(lia)) as Hfj.
  pose proof (fft_cost_mono K HK 0 1 ltac:(lia)) as Hf1.
  assert (Hit : 0 <= 1 + inner_total) by (unfold inner_total, ca_cost; lia).
  assert (Hbt : 0 <= block_total + 5) by (unfold block_total, ca_cost; lia).
  pose proof (Z.div_pos n jump ltac:(lia) ltac:(lia)) as Hdiv.
  assert (HX : 0 <= (2 + n / jump) * (block_total + 5)) by (apply Z.mul_nonneg_nonneg; lia).
  assert (HY : 0 <= n * (1 + inner_total)) by (apply Z.mul_nonneg_nonneg; lia).
  set (I0 := Z.min (-1 + jump) (n - 1)).
  assert (Hbl : blocks (n - 1 - I0) <= 2 + n / jump).
  { unfold blocks. destruct (Z.eqb_spec (n - 1 - I0) 0); [lia|].
    pose proof (Z.div_le_mono (n - 1 - I0 - 1) n jump ltac:(lia) ltac:(lia)). lia. }
  assert (Hb0 : 1 <= blocks (n - 1 - I0)).
  { unfold blocks. destruct (Z.eqb_spec (n - 1 - I0) 0); [lia|]. pose proof (Z.div_pos (n - 1 - I0 - 1) jump ltac:(lia) ltac:(lia)). lia. }
  assert (Hbm : blocks (n - 1 - I0) * (block_total + 5) <= (2 + n / jump) * (block_total + 5)) by (apply Z.mul_le_mono_nonneg_r; lia).
  set (X := (2 + n / jump) * (block_total + 5)) in *. set (Y := n * (1 + inner_total)) in *.
  pose proof (fftconv_make_le (n + 1) ltac:(lia)) as Hfm.
  apply within_bind_op; [lia|]. intros _ _. apply within_bind_op; [lia|]. intros src _.
  apply within_bind_op; [lia|]. intros _ _.
  apply within_bind with (c1 := 15 + 5 * (n + 1)) (R := fun _ => True); [apply within_pmfgen_make; auto; lia|lia|]. intros pg _.
  apply within_bind_op; [lia|]. intros _ _.
  apply within_bind with (c1 := X + Y) (R := fun s => fft_shape (n + 1) (o_fft s)); [|lia|].
  { eapply within_weaken; [apply outer_loop_cost| |auto]; cbn [o_I o_I_prev o_fft]; try (unfold I0; lia).
    - apply fft_shape_make. lia.
    - fold I0. replace (n - 1 - -1) with n by lia. fold Y. lia. }
  intros s Hs. replace (n - n + 1) with 1 by lia.
  apply within_bind with (c1 := ca_cost 1) (R := fun _ => True); [apply within_compute_array; [unfold ca_cost; lia|auto]|unfold ca_cost; lia|].
  intros pg' _. unfold ca_cost. apply within_bind_op; [lia|]. intros _ _. apply within_bind_op; [lia|]. intros _ _.
  apply within_bind with (c1 := fft_cost K 1) (R := fun _ => True); [|lia|].
  { apply (within_fft_convolve E P K HK HP (n + 1)); auto. apply Z.le_refl. }
  intros fd _. apply within_bind_op; [lia|]. intros _ _. apply within_fill; [lia|auto].
Qed.
End New.

Section NewApi.
Context {N : num} (E : env N) (P : prices) (K : Z).
Hypothesis HK : 1 <= K.
Hypothesis HP : fair K P.
Notation T := (car N).

(** The block length is of the order of the square root of n. *)
Definition root_jump (n : Z) : Prop :=
  forall k, jump_size_for (N := N) n = Ok k -> Z.sqrt n + 1 <= k <= 3 * (Z.sqrt n + 1).

Lemma within_new_B (B : list T) c (Q : T -> Prop) : 1 <= size B -> root_jump (size B) ->
  (forall k, Z.sqrt (size B) + 1 <= k <= 3 * (Z.sqrt (size B) + 1) -> n2_total K (size B) k + 3 * size B + 40 <= c) ->
  (forall x, Q x) -> within (c_new_B E P B) c Q.
Proof.
  intros Hn HR Hc HQ. set (n := size B) in *. unfold c_new_B. fold n. cbv zeta.
  pose proof (Z.sqrt_nonneg n) as Hs0.
  assert (Hc0 : 3 * n + 40 <= c).
  { specialize (Hc (Z.sqrt n + 1) ltac:(lia)). set (k := Z.sqrt n + 1) in *.
    assert (1 <= k) by (unfold k; lia).
    assert (0 <= n2_total K n k); [|lia]. unfold n2_total.
    pose proof (fft_cost_mono K HK 0 (n + 1) ltac:(lia)). pose proof (fft_cost_mono K HK 0 k ltac:(lia)).
    pose proof (fft_cost_mono K HK 0 1 ltac:(lia)). pose proof (Z.div_pos n k ltac:(lia) ltac:(lia)).
    assert (0 <= (2 + n / k) * (block_total K n + 5)) by (apply Z.mul_nonneg_nonneg; unfold block_total, ca_cost; lia).
    assert (0 <= n * (1 + inner_total K n k)) by (apply Z.mul_nonneg_nonneg; unfold inner_total, ca_cost; lia). lia. }
  apply within_bind with (c1 := 12 + 3 * n) (R := fun _ => True); [apply within_check; auto; lia|lia|]. intros _ _.
  apply within_bind_op; [lia|]. intros k Hk. specialize (HR k Hk). specialize (Hc k HR).
  apply within_bind with (c1 := n2_total K n k) (R := fun _ => True); [|lia|].
  { apply (within_n2 E P K HK HP n); auto; lia. }
  intros probs _. apply within_bind_op; [lia|]. intros pn _.
  apply within_bind with (c1 := 12) (R := fun _ => True); [apply within_op; [lia|auto]|lia|]. intros d _.
  apply within_op; [lia|auto].
Qed.

Lemma grow y : 0 <= y -> y <= K * y.
Proof. intros Hy. rewrite <- (Z.mul_1_l y) at 1. apply Z.mul_le_mono_nonneg_r; lia. Qed.

(** The arithmetic: with k of the order of sqrt n, everything but the n^2 subtractions is of lower order. *)
Lemma new_square n k : 1 <= n -> Z.sqrt n + 1 <= k <= 3 * (Z.sqrt n + 1) ->
  n2_total K n k + 13 * n + 60 <= 30000 * K * (n + 1) ^ 2.
Proof.
  intros Hn Hk. set (x := Z.sqrt n + 1) in *. set (M := n + 1).
  pose proof (Z.sqrt_spec n ltac:(lia)) as Hsq. pose proof (Z.sqrt_nonneg n) as Hs0.
  assert (Hx2 : M <= x * x) by (unfold M, x in *; nia).
  assert (Hx2' : x * x <= 2 * M).
  { cbv zeta in Hsq. pose proof (Z.square_nonneg (Z.sqrt n - 1)). unfold M, x. lia. }
  assert (Hx1 : 2 <= x).
  { unfold x. pose proof (Z.sqrt_le_mono 1 n Hn) as Hm. change (Z.sqrt 1) with 1 in Hm. lia. }
  assert (HM : 2 <= M) by (unfold M; lia).
  assert (Hdiv : n / k <= x).
  { apply Z.div_le_upper_bound; [lia|]. assert (x * x <= k * x) by (apply Z.mul_le_mono_nonneg_r; lia). unfold M in *. lia. }
  assert (Hdiv0 : 0 <= n / k) by (apply Z.div_pos; lia).
  (* logarithms *)
  assert (HlM : Z.log2 M <= 2 * x + 1).
  { eapply Z.le_trans; [apply Z.log2_le_mono, Hx2|].
    pose proof (Z.log2_mul_above x x ltac:(lia) ltac:(lia)). pose proof (log2_le x ltac:(lia)). lia. }
  assert (Hlk : Z.log2 k <= k) by (apply log2_le; lia).
  pose proof (Z.log2_nonneg M) as HlM0. pose proof (Z.log2_nonneg k) as Hlk0.
  unfold n2_total, block_total, inner_total, ca_cost, fft_cost. fold M. change (Z.log2 1) with 0.
  replace n with (M - 1) by (unfold M; lia). replace (M - 1 + 1) with M by lia.
  replace ((M - 1) / k) with (n / k) by (unfold M; f_equal; lia).
  set (lM := Z.log2 M) in *. set (lk := Z.log2 k) in *. set (w := n / k) in *.
  (* the blocks *)
  assert (Hblock : 20 + 9 * M + (3 + K * M * (114 * lM + 1000)) + 8 * (M - 1) + 60 + 5 <= K * M * (228 * x + 1220)).
  { assert (H1 : 20 + 9 * M + 3 + 8 * (M - 1) + 60 + 5 <= K * M * 57).
    { assert (20 + 9 * M + 3 + 8 * (M - 1) + 60 + 5 <= M * 57) by lia.
      replace (K * M * 57) with (K * (M * 57)) by ring. nia. }
    assert (H2 : K * M * (114 * lM + 1000) <= K * M * (228 * x + 1114)) by (apply Z.mul_le_mono_nonneg_l; [nia|lia]).
    assert (H3 : K * M * (228 * x + 1114) + K * M * 57 <= K * M * (228 * x + 1220)) by nia. lia. }
  assert (Hb2 : (2 + w) * (20 + 9 * M + (3 + K * M * (114 * lM + 1000)) + 8 * (M - 1) + 60 + 5) <= K * M * (4000 * M)).
  { eapply Z.le_trans.
    { apply Z.mul_le_mono_nonneg; [lia| |nia|exact Hblock]. apply (proj1 (Z.add_le_mono_l w x 2) Hdiv). }
    replace ((2 + x) * (K * M * (228 * x + 1220))) with (K * M * ((2 + x) * (228 * x + 1220))) by ring.
    apply Z.mul_le_mono_nonneg_l; [nia|]. assert (1676 * x <= 838 * (x * x)) by nia. nia. }
  (* the inner steps *)
  assert (Hkk : k * k <= 18 * M) by nia. assert (Hk1 : k <= k * k) by nia.
  assert (Hinner : 1 + (20 + 9 * k + (3 + K * k * (114 * lk + 1000)) + 18 * (M - 1) + 30) <= K * (20300 * M)).
  { assert (H1 : K * k * (114 * lk + 1000) <= K * (1114 * (k * k))).
    { rewrite <- Z.mul_assoc. apply Z.mul_le_mono_nonneg_l; [lia|].
      replace (1114 * (k * k)) with (k * (1114 * k)) by ring. apply Z.mul_le_mono_nonneg_l; lia. }
    assert (H2 : K * (1114 * (k * k)) <= K * (20052 * M)) by (apply Z.mul_le_mono_nonneg_l; lia).
    assert (H3 : 1 + 20 + 9 * k + 3 + 18 * (M - 1) + 30 <= 248 * M) by lia.
    assert (H4 : 248 * M <= K * (248 * M)) by (apply grow; lia). lia. }
  assert (Hi2 : (M - 1) * (1 + (20 + 9 * k + (3 + K * k * (114 * lk + 1000)) + 18 * (M - 1) + 30)) <= K * M * (20300 * M)).
  { eapply Z.le_trans.
    { apply Z.mul_le_mono_nonneg_l; [lia|exact Hinner]. }
    assert (0 <= K * (20300 * M)) by (apply Z.mul_nonneg_nonneg; lia).
    replace (K * M * (20300 * M)) with (M * (K * (20300 * M))) by ring. apply Z.mul_le_mono_nonneg_r; lia. }
  assert (Hlow : 3 + K * 1 * (114 * 0 + 1000) + 20 * (M - 1) + 2 * k + 150 + 13 * (M - 1) + 60 <= K * M * (1000 * M)).
  { assert (HM2 : 2 * M <= M * M) by (apply Z.mul_le_mono_nonneg_r; lia).
    assert (3 + 20 * (M - 1) + 2 * k + 150 + 13 * (M - 1) + 60 <= 200 * (M * M)) by lia.
    assert (200 * (M * M) <= K * (200 * (M * M))) by (apply grow; lia).
    assert (K * 1000 <= K * (500 * (M * M))) by (apply Z.mul_le_mono_nonneg_l; lia).
    replace (K * M * (1000 * M)) with (K * (200 * (M * M)) + K * (500 * (M * M)) + K * (300 * (M * M))) by ring.
    assert (0 <= K * (300 * (M * M))) by (apply Z.mul_nonneg_nonneg; lia). lia. }
  replace (30000 * K * M ^ 2) with (K * M * (4000 * M) + K * M * (20300 * M) + K * M * (1000 * M) + K * M * (4700 * M)) by ring.
  assert (0 <= K * M * (4700 * M)) by (repeat apply Z.mul_nonneg_nonneg; lia). lia.
Qed.

Lemma new_B_cost (B : list T) : 1 <= size B -> root_jump (size B) ->
  fst (c_new_B E P B) <= 30000 * K * (size B + 1) ^ 2.
Proof.
  intros Hn HR. assert (Hw : within (c_new_B E P B) (30000 * K * (size B + 1) ^ 2) (fun _ => True)); [|apply Hw].
  apply within_new_B; auto. intros k Hk. pose proof (new_square _ _ Hn Hk). lia.
Qed.

Lemma new_b_cost (b : list T) : 1 <= size b -> root_jump (size b) ->
  fst (c_new_b E P b) <= 30000 * K * (size b + 1) ^ 2.
Proof.
  intros Hn HR. set (n := size b) in *.
  assert (Hw : within (c_new_b E P b) (30000 * K * (n + 1) ^ 2) (fun _ => True)); [|apply Hw].
  assert (HB : 10 * n + 50 <= 30000 * K * (n + 1) ^ 2) by (replace ((n + 1) ^ 2) with ((n + 1) * (n + 1)) by ring; nia).
  unfold c_new_b. fold n. cbv zeta. replace (n - n) with 0 by lia.
  apply within_bind with (c1 := 12 + 3 * n) (R := fun _ => True); [apply within_check; auto; lia|lia|]. intros _ _.
  apply within_bind_op; [lia|]. intros _ _.
  apply within_bind with (c1 := 1 + 4 * n) (R := fun r => size r = n);
    [apply (within_reflect b n (fun i => n - 1 - i)); auto; lia|lia|].
  intros r Hr. apply within_new_B; try rewrite Hr; auto. intros k Hk. pose proof (new_square _ _ Hn Hk). lia.
Qed.
End NewApi.
