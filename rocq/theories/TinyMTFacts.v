(** * TinyMTFacts: the random number generator. *)
From Flocq Require Import Core.Raux.
From Coq Require Import ZArith Reals Lia Lra List Bool.
From Verif Require Import Base Num XReal TinyMT MonteCarlo.
Import List. Import ListNotations.
Local Open Scope Z_scope.

(** ** 64-bit words *)
Definition word (k x : Z) : Prop := 0 <= x < 2 ^ k.

Lemma word_bits k x : 0 <= k -> (word k x <-> 0 <= x /\ forall i, k <= i -> Z.testbit x i = false).
Proof.
  intros Hk. split.
  - intros (H0 & H). split; [exact H0|]. intros i Hi. destruct (Z.eq_dec x 0) as [->|NZ]; [apply Z.bits_0|].
    apply Z.bits_above_log2; [lia|]. apply Z.log2_lt_pow2; [lia|].
    apply Z.lt_le_trans with (2 ^ k); [lia|]. apply Z.pow_le_mono_r; lia.
  - intros (H0 & H). split; [exact H0|].
    assert (x = x mod 2 ^ k) as ->.
    { apply Z.bits_inj'. intros i Hi. destruct (Z.lt_ge_cases i k).
      - rewrite Z.mod_pow2_bits_low by lia. reflexivity.
      - rewrite Z.mod_pow2_bits_high by lia. apply H; lia. }
    apply Z.mod_pos_bound. apply Z.pow_pos_nonneg; lia.
Qed.
Lemma word_le k l x : 0 <= k <= l -> word k x -> word l x.
Proof. intros H (A & B). split; [exact A|]. apply Z.lt_le_trans with (2 ^ k); [exact B|]. apply Z.pow_le_mono_r; lia. Qed.
Lemma word_lxor k x y : 0 <= k -> word k x -> word k y -> word k (Z.lxor x y).
Proof.
  intros Hk Hx Hy. apply (word_bits k x Hk) in Hx. apply (word_bits k y Hk) in Hy. apply word_bits; [exact Hk|]. split.
  - apply Z.lxor_nonneg. tauto.
  - intros i Hi. rewrite Z.lxor_spec, (proj2 Hx), (proj2 Hy) by lia. reflexivity.
Qed.
Lemma word_lor k x y : 0 <= k -> word k x -> word k y -> word k (Z.lor x y).
Proof.
  intros Hk Hx Hy. apply (word_bits k x Hk) in Hx. apply (word_bits k y Hk) in Hy. apply word_bits; [exact Hk|]. split.
  - apply Z.lor_nonneg. tauto.
  - intros i Hi. rewrite Z.lor_spec, (proj2 Hx), (proj2 Hy) by lia. reflexivity.
Qed.
Lemma word_small x : ((0 <=? x) && (x <? 2 ^ 64)) = true -> word 64 x.
Proof. intros H. apply andb_prop in H as (A & B). unfold word. lia. Qed.
Lemma word_u64 x : word 64 (u64 x).
Proof. apply Z.mod_pos_bound. reflexivity. Qed.
Lemma word_shiftr k j x : 0 <= k -> 0 <= j -> word (k + j) x -> word k (Z.shiftr x j).
Proof.
  intros Hk Hj H. apply word_bits in H; [|lia]. apply word_bits; [exact Hk|]. split.
  - apply Z.shiftr_nonneg. tauto.
  - intros i Hi. rewrite Z.shiftr_spec by lia. apply H. lia.
Qed.
Lemma word_shiftr' k j x : 0 <= k -> 0 <= j -> word k x -> word k (Z.shiftr x j).
Proof. intros Hk Hj H. apply word_shiftr; auto. apply (word_le k); [lia|exact H]. Qed.
Lemma word_land_mask x : 0 <= x -> word 63 (Z.land x TINYMT64_MASK).
Proof.
  intros H. change TINYMT64_MASK with (Z.ones 63). rewrite Z.land_ones by lia. apply Z.mod_pos_bound. reflexivity.
Qed.
Lemma word_if k x m : 0 <= k -> word k m -> word k (mask_if_odd x m).
Proof. intros Hk H. unfold mask_if_odd. destruct (Z.odd x); [exact H|]. split; [lia|apply Z.pow_pos_nonneg; lia]. Qed.

(** A generator state that fits its C types. *)
Definition state_ok (r : tinymt) : Prop :=
  word 64 (status0 r) /\ word 64 (status1 r) /\ word 32 (mat1 r) /\ word 32 (mat2 r) /\ word 64 (tmat r).

Lemma next_ok r : state_ok r -> state_ok (tinymt64_next_state r).
Proof.
  intros (H0 & H1 & M1 & M2 & MT). unfold tinymt64_next_state.
  set (x0 := Z.lxor (Z.land (status0 r) TINYMT64_MASK) (status1 r)).
  assert (W0 : word 64 x0).
  { apply word_lxor; [lia| |exact H1]. apply (word_le 63); [lia|]. apply word_land_mask. apply H0. }
  set (x1 := Z.lxor x0 (u64 (Z.shiftl x0 TINYMT64_SH0))).
  assert (W1 : word 64 x1) by (apply word_lxor; auto using word_u64; lia).
  set (x2 := Z.lxor x1 (Z.shiftr x1 32)).
  assert (W2 : word 64 x2) by (apply word_lxor; auto using word_shiftr'; try lia; apply word_shiftr'; auto; lia).
  set (x3 := Z.lxor x2 (u64 (Z.shiftl x2 32))).
  assert (W3 : word 64 x3) by (apply word_lxor; auto using word_u64; lia).
  set (x4 := Z.lxor x3 (u64 (Z.shiftl x3 TINYMT64_SH1))).
  assert (W4 : word 64 x4) by (apply word_lxor; auto using word_u64; lia).
  unfold state_ok. cbn [status0 status1 mat1 mat2 tmat].
  split; [apply word_lxor; [lia|exact H1|apply word_if; [lia|apply (word_le 32); [lia|exact M1]]]|].
  split; [apply word_lxor; [lia|exact W4|apply word_if; [lia|apply word_u64]]|]. auto.
Qed.
Lemma iter_ok r k : state_ok r -> state_ok (Nat.iter k tinymt64_next_state r).
Proof. intros H. induction k; simpl; auto using next_ok. Qed.

(** ** Outputs *)
Lemma temper_word r : state_ok r -> word 64 (tinymt64_temper r).
Proof.
  intros (H0 & H1 & M1 & M2 & MT). unfold tinymt64_temper.
  assert (W : word 64 (Z.lxor (u64 (status0 r + status1 r)) (Z.shiftr (status0 r) TINYMT64_SH8))).
  { apply word_lxor; [lia|apply word_u64|apply word_shiftr'; auto; unfold TINYMT64_SH8; lia]. }
  apply word_lxor; [lia|exact W|apply word_if; [lia|exact MT]].
Qed.

Definition one_bits : Z := 0x3ff0000000000000.
Lemma conv_bits r : temper_conv_bits r = Z.lor (Z.shiftr (tinymt64_temper r) 12) one_bits.
Proof. reflexivity. Qed.
Lemma conv_open_bits r : temper_conv_open_bits r = Z.lor (Z.lor (Z.shiftr (tinymt64_temper r) 12) 1) one_bits.
Proof. unfold temper_conv_open_bits. rewrite <- Z.lor_assoc. reflexivity. Qed.

Lemma lor_one m : word 52 m -> Z.lor m one_bits = m + 1023 * 2 ^ 52.
Proof.
  intros H. change one_bits with (Z.shiftl 1023 52). change (1023 * 2 ^ 52) with (Z.shiftl 1023 52).
  assert (L : Z.land m (Z.shiftl 1023 52) = 0).
  { apply Z.bits_inj'. intros i Hi. rewrite Z.land_spec, Z.bits_0. destruct (Z.lt_ge_cases i 52).
    - rewrite (Z.shiftl_spec_low 1023 52 i) by lia. apply andb_false_r.
    - rewrite (proj2 (proj1 (word_bits 52 m ltac:(lia)) H)) by lia. reflexivity. }
  rewrite (Z.add_nocarry_lxor _ _ L). symmetry. apply Z.lxor_lor. exact L.
Qed.

Lemma of_bits_one m : word 52 m -> xof_bits (Z.lor m one_bits) = Fin (1 + IZR m / IZR (2 ^ 52)).
Proof.
  intros H. rewrite (lor_one m H). unfold xof_bits.
  assert (T : Z.testbit (m + 1023 * 2 ^ 52) 63 = false).
  { apply (word_bits 63 (m + 1023 * 2 ^ 52)); [lia| |lia]. destruct H. split; lia. }
  assert (S : Z.shiftr (m + 1023 * 2 ^ 52) 52 = 1023).
  { rewrite Z.shiftr_div_pow2 by lia. rewrite Z.div_add by lia. rewrite Z.div_small by exact H. reflexivity. }
  assert (M : Z.land (m + 1023 * 2 ^ 52) (2 ^ 52 - 1) = m).
  { change (2 ^ 52 - 1) with (Z.ones 52). rewrite Z.land_ones by lia. rewrite Z.mod_add by lia. apply Z.mod_small. exact H. }
  rewrite T, S, M. change (Z.land 1023 2047 =? 2047) with false. change (Z.land 1023 2047 =? 0) with false. cbv beta iota zeta.
  f_equal. rewrite plus_IZR. change (Z.land 1023 2047 - 1075) with (-52).
  change (bpow Zaux.radix2 (-52)) with (/ IZR (2 ^ 52))%R.
  assert (0 < IZR (2 ^ 52))%R by (apply IZR_lt; reflexivity). field. lra.
Qed.

Lemma unit_fraction m : word 52 m -> (0 <= IZR m / IZR (2 ^ 52) < 1)%R.
Proof.
  intros (A & B). assert (0 < IZR (2 ^ 52))%R by (apply IZR_lt; reflexivity).
  assert (0 <= IZR m)%R by (apply IZR_le; exact A). assert (IZR m < IZR (2 ^ 52))%R by (apply IZR_lt; exact B).
  split.
  - apply Rmult_le_pos; [lra|]. apply Rlt_le, Rinv_0_lt_compat. lra.
  - apply Rmult_lt_reg_r with (IZR (2 ^ 52)); [lra|]. unfold Rdiv. rewrite Rmult_assoc, Rinv_l by lra. lra.
Qed.

Section Doubles.
Context {frexp : xr -> Z}.
Notation XN := (Xnum frexp).

Lemma conv_value r : state_ok r -> exists m, word 52 m /\
  @tinymt64_temper_conv XN r = Fin (1 + IZR m / IZR (2 ^ 52)).
Proof.
  intros H. exists (Z.shiftr (tinymt64_temper r) 12).
  assert (W : word 52 (Z.shiftr (tinymt64_temper r) 12)) by (apply word_shiftr; try lia; apply temper_word; exact H).
  split; [exact W|]. unfold tinymt64_temper_conv. rewrite conv_bits. exact (of_bits_one _ W).
Qed.
Lemma conv_open_value r : state_ok r -> exists m, word 52 m /\ 0 < m /\
  @tinymt64_temper_conv_open XN r = Fin (1 + IZR m / IZR (2 ^ 52)).
Proof.
  intros H. exists (Z.lor (Z.shiftr (tinymt64_temper r) 12) 1).
  assert (W : word 52 (Z.shiftr (tinymt64_temper r) 12)) by (apply word_shiftr; try lia; apply temper_word; exact H).
  assert (W1 : word 52 (Z.lor (Z.shiftr (tinymt64_temper r) 12) 1)) by (apply word_lor; [lia|exact W|split; lia]).
  split; [exact W1|]. split.
  - destruct W1 as (A & _). destruct (Z.eq_dec (Z.lor (Z.shiftr (tinymt64_temper r) 12) 1) 0) as [E|NE]; [|lia].
    exfalso. apply Z.lor_eq_0_iff in E as (_ & E). discriminate.
  - unfold tinymt64_temper_conv_open. rewrite conv_open_bits. exact (of_bits_one _ W1).
Qed.

Lemma outputs_in_range r : state_ok r ->
  (exists u, fst (@tinymt64_generate_double01 XN r) = Fin u /\ (0 <= u < 1)%R /\ exists m, 0 <= m /\ u = (IZR m / IZR (2 ^ 52))%R) /\
  (exists u, fst (@tinymt64_generate_double12 XN r) = Fin u /\ (1 <= u < 2)%R) /\
  (exists u, fst (@tinymt64_generate_doubleOC XN r) = Fin u /\ (0 < u <= 1)%R) /\
  (exists u, fst (@tinymt64_generate_doubleOO XN r) = Fin u /\ (0 < u < 1)%R) /\
  0 <= fst (tinymt64_generate_uint64 r) < 2 ^ 64 /\
  state_ok (tinymt64_next_state r).
Proof.
  intros H. pose proof (next_ok r H) as H'.
  destruct (conv_value _ H') as (m & W & V). pose proof (unit_fraction m W) as U.
  destruct (conv_open_value _ H') as (m' & W' & P' & V'). pose proof (unit_fraction m' W') as U'.
  unfold tinymt64_generate_double01, tinymt64_generate_double12, tinymt64_generate_doubleOC, tinymt64_generate_doubleOO. cbn [fst].
  rewrite V, V'. cbn [n_sub n_of_Z Xnum xsub]. unfold n1. cbn [n_of_Z Xnum].
  split; [|split; [|split; [|split; [|split; [|exact H']]]]].
  - eexists. split; [reflexivity|]. split; [lra|]. exists m. split; [apply W|]. ring.
  - eexists. split; [reflexivity|]. lra.
  - eexists. split; [reflexivity|]. lra.
  - eexists. split; [reflexivity|].
    assert (0 < IZR m' / IZR (2 ^ 52))%R.
    { apply Rmult_lt_0_compat; [apply IZR_lt; exact P'|]. apply Rinv_0_lt_compat. apply IZR_lt. reflexivity. }
    lra.
  - exact (temper_word _ H').
Qed.
End Doubles.

(** ** The state transition is injective on masked states *)
Definition masked (r : tinymt) : Z * Z := (Z.land (status0 r) TINYMT64_MASK, status1 r).
Definition parameters (r : tinymt) : Z * Z * Z := (mat1 r, mat2 r, tmat r).

Lemma bits_eq k x y : 0 <= k -> word k x -> word k y -> (forall i, 0 <= i < k -> Z.testbit x i = Z.testbit y i) -> x = y.
Proof.
  intros Hk Hx Hy H. apply Z.bits_inj'. intros i Hi. destruct (Z.lt_ge_cases i k); [apply H; lia|].
  apply word_bits in Hx; [|lia]. apply word_bits in Hy; [|lia].
  rewrite (proj2 Hx), (proj2 Hy) by lia. reflexivity.
Qed.
Lemma u64_bits x i : 0 <= i < 64 -> Z.testbit (u64 x) i = Z.testbit x i.
Proof. intros H. unfold u64. apply Z.mod_pow2_bits_low. lia. Qed.

Lemma xorshift_left_inj k x y : 0 < k -> word 64 x -> word 64 y ->
  Z.lxor x (u64 (Z.shiftl x k)) = Z.lxor y (u64 (Z.shiftl y k)) -> x = y.
Proof.
  intros Hk Hx Hy E. apply (bits_eq 64); auto; [lia|].
  assert (G : forall n : nat, forall i, 0 <= i < Z.of_nat n -> i < 64 -> Z.testbit x i = Z.testbit y i).
  { induction n as [|n IH]; intros i Hi H64; [lia|]. destruct (Z.lt_ge_cases i (Z.of_nat n)); [apply IH; lia|].
    pose proof (f_equal (fun z => Z.testbit z i) E) as B. cbv beta in B. rewrite !Z.lxor_spec, !u64_bits in B by lia.
    rewrite !Z.shiftl_spec in B by lia.
    assert (S : Z.testbit x (i - k) = Z.testbit y (i - k)).
    { destruct (Z.lt_ge_cases (i - k) 0); [rewrite !Z.testbit_neg_r by lia; reflexivity|]. apply IH; lia. }
    rewrite S in B. destruct (Z.testbit x i), (Z.testbit y i), (Z.testbit y (i - k)); simpl in B; congruence. }
  intros i Hi. apply (G 64%nat); lia.
Qed.
Lemma xorshift_right_inj k x y : 0 < k -> word 64 x -> word 64 y ->
  Z.lxor x (Z.shiftr x k) = Z.lxor y (Z.shiftr y k) -> x = y.
Proof.
  intros Hk Hx Hy E. apply (bits_eq 64); auto; [lia|].
  assert (G : forall n : nat, forall i, 0 <= i -> 64 - Z.of_nat n <= i -> Z.testbit x i = Z.testbit y i).
  { induction n as [|n IH]; intros i Hi H64.
    - apply word_bits in Hx; [|lia]. apply word_bits in Hy; [|lia].
      rewrite (proj2 Hx), (proj2 Hy) by lia. reflexivity.
    - destruct (Z.lt_ge_cases i (64 - Z.of_nat n)); [|apply IH; lia].
      pose proof (f_equal (fun z => Z.testbit z i) E) as B. cbv beta in B. rewrite !Z.lxor_spec in B.
      rewrite !Z.shiftr_spec in B by lia. rewrite (IH (i + k)) in B by lia.
      destruct (Z.testbit x i), (Z.testbit y i), (Z.testbit y (i + k)); simpl in B; congruence. }
  intros i Hi. apply (G 64%nat); lia.
Qed.

Lemma odd_high m : Z.odd (u64 (Z.shiftl m 32)) = false.
Proof. rewrite <- Z.bit0_odd. rewrite u64_bits by lia. rewrite Z.shiftl_spec_low by lia. reflexivity. Qed.
Lemma odd_if x m : Z.odd (mask_if_odd x (u64 (Z.shiftl m 32))) = false.
Proof. unfold mask_if_odd. destruct (Z.odd x); [apply odd_high|reflexivity]. Qed.
Lemma odd_lxor x y : Z.odd (Z.lxor x y) = xorb (Z.odd x) (Z.odd y).
Proof. rewrite <- !Z.bit0_odd. apply Z.lxor_spec. Qed.
Lemma lxor_cancel_r a c m : Z.lxor a m = Z.lxor c m -> a = c.
Proof.
  intros H. apply (f_equal (fun z => Z.lxor z m)) in H. cbv beta in H.
  rewrite !Z.lxor_assoc, !Z.lxor_nilpotent, !Z.lxor_0_r in H. exact H.
Qed.
Lemma mask_bit z i : Z.testbit (Z.land z TINYMT64_MASK) i = (Z.testbit z i && (0 <=? i) && (i <? 63)).
Proof.
  change TINYMT64_MASK with (Z.ones 63). rewrite Z.land_spec.
  destruct (Z.lt_ge_cases i 0).
  - rewrite Z.testbit_neg_r by lia. reflexivity.
  - rewrite Z.testbit_ones_nonneg by lia. rewrite (proj2 (Z.leb_le 0 i)) by lia. rewrite andb_true_r. reflexivity.
Qed.

Lemma next_injective r1 r2 : state_ok r1 -> state_ok r2 -> parameters r1 = parameters r2 ->
  masked (tinymt64_next_state r1) = masked (tinymt64_next_state r2) -> masked r1 = masked r2.
Proof.
  intros (A0 & A1 & A2 & A3 & A4) (B0 & B1 & B2 & B3 & B4) P.
  destruct r1 as [a0 a1 m1 m2 t], r2 as [b0 b1 m1' m2' t']. cbn in A0, A1, A2, A3, A4, B0, B1, B2, B3, B4.
  unfold parameters in P. cbn in P. injection P as <- <- <-.
  unfold tinymt64_next_state, masked. cbn [status0 status1 mat1 mat2 tmat].
  set (ma := Z.land a0 TINYMT64_MASK). set (mb := Z.land b0 TINYMT64_MASK).
  assert (Wma : word 63 ma) by (apply word_land_mask, A0). assert (Wmb : word 63 mb) by (apply word_land_mask, B0).
  set (x0 := Z.lxor ma a1). set (y0 := Z.lxor mb b1).
  assert (X0 : word 64 x0) by (apply word_lxor; [lia|apply (word_le 63); [lia|exact Wma]|exact A1]).
  assert (Y0 : word 64 y0) by (apply word_lxor; [lia|apply (word_le 63); [lia|exact Wmb]|exact B1]).
  set (x1 := Z.lxor x0 (u64 (Z.shiftl x0 TINYMT64_SH0))). set (y1 := Z.lxor y0 (u64 (Z.shiftl y0 TINYMT64_SH0))).
  assert (X1 : word 64 x1) by (apply word_lxor; auto using word_u64; lia).
  assert (Y1 : word 64 y1) by (apply word_lxor; auto using word_u64; lia).
  set (x2 := Z.lxor x1 (Z.shiftr x1 32)). set (y2 := Z.lxor y1 (Z.shiftr y1 32)).
  assert (X2 : word 64 x2) by (apply word_lxor; try lia; auto; apply word_shiftr'; auto; lia).
  assert (Y2 : word 64 y2) by (apply word_lxor; try lia; auto; apply word_shiftr'; auto; lia).
  set (x3 := Z.lxor x2 (u64 (Z.shiftl x2 32))). set (y3 := Z.lxor y2 (u64 (Z.shiftl y2 32))).
  assert (X3 : word 64 x3) by (apply word_lxor; auto using word_u64; lia).
  assert (Y3 : word 64 y3) by (apply word_lxor; auto using word_u64; lia).
  set (x4 := Z.lxor x3 (u64 (Z.shiftl x3 TINYMT64_SH1))). set (y4 := Z.lxor y3 (u64 (Z.shiftl y3 TINYMT64_SH1))).
  assert (X4 : word 64 x4) by (apply word_lxor; auto using word_u64; lia).
  assert (Y4 : word 64 y4) by (apply word_lxor; auto using word_u64; lia).
  intros E. pose proof (f_equal fst E) as E0. pose proof (f_equal snd E) as E1. cbv beta delta [fst snd] iota in E0, E1.
  (* the low bit of the new status1 is the low bit of x *)
  assert (O : Z.odd x4 = Z.odd y4).
  { apply (f_equal Z.odd) in E1. rewrite !odd_lxor, !odd_if, !xorb_false_r in E1. exact E1. }
  assert (Q4 : x4 = y4).
  { unfold mask_if_odd in E1. rewrite O in E1. exact (lxor_cancel_r _ _ _ E1). }
  assert (Q3 : x3 = y3) by (apply (xorshift_left_inj TINYMT64_SH1); auto; reflexivity).
  assert (Q2 : x2 = y2) by (apply (xorshift_left_inj 32); auto; reflexivity).
  assert (Q1 : x1 = y1) by (apply (xorshift_right_inj 32); auto; reflexivity).
  assert (Q0 : x0 = y0) by (apply (xorshift_left_inj TINYMT64_SH0); auto; reflexivity).
  (* the new status0 gives the low 63 bits of status1 *)
  assert (L : forall i, 0 <= i < 63 -> Z.testbit a1 i = Z.testbit b1 i).
  { intros i Hi. pose proof (f_equal (fun z => Z.testbit z i) E0) as B. cbv beta in B.
    rewrite !mask_bit, !Z.lxor_spec in B. rewrite (proj2 (Z.leb_le 0 i)), (proj2 (Z.ltb_lt i 63)) in B by lia.
    rewrite !andb_true_r in B. unfold mask_if_odd in B. rewrite O in B.
    destruct (Z.testbit a1 i), (Z.testbit b1 i); auto;
    destruct (Z.testbit (if Z.odd y4 then m1 else 0) i); simpl in B; congruence. }
  assert (T : Z.testbit a1 63 = Z.testbit b1 63).
  { pose proof (f_equal (fun z => Z.testbit z 63) Q0) as B. cbv beta in B. unfold x0, y0 in B. rewrite !Z.lxor_spec in B.
    apply word_bits in Wma; [|lia]. apply word_bits in Wmb; [|lia].
    rewrite (proj2 Wma), (proj2 Wmb) in B by lia.
    rewrite !xorb_false_l in B. exact B. }
  assert (Ea : a1 = b1).
  { apply (bits_eq 64); auto; [lia|]. intros i Hi. destruct (Z.eq_dec i 63) as [->|]; [exact T|]. apply L. lia. }
  f_equal; [|exact Ea]. unfold x0, y0 in Q0. rewrite Ea in Q0. exact (lxor_cancel_r _ _ _ Q0).
Qed.

Lemma parameters_next r : parameters (tinymt64_next_state r) = parameters r.
Proof. reflexivity. Qed.
Lemma parameters_iter r k : parameters (Nat.iter k tinymt64_next_state r) = parameters r.
Proof. induction k; simpl; auto. Qed.

(** The all-zero state is a fixed point of the masked transition. *)
Lemma next_zero r : masked r = (0, 0) -> masked (tinymt64_next_state r) = (0, 0).
Proof.
  destruct r as [a0 a1 m1 m2 t]. unfold masked, tinymt64_next_state. cbn [status0 status1 mat1 mat2 tmat].
  intros E. injection E as E0 E1. rewrite E0, E1. reflexivity.
Qed.
Lemma next_nonzero r : state_ok r -> masked r <> (0, 0) -> masked (tinymt64_next_state r) <> (0, 0).
Proof.
  intros H NZ E. apply NZ.
  set (z := mkTinymt 0 0 (mat1 r) (mat2 r) (tmat r)).
  assert (Z0 : masked z = (0, 0)) by reflexivity.
  rewrite <- Z0. apply next_injective; [exact H| |reflexivity|].
  - destruct H as (_ & _ & A). split; [apply word_small; reflexivity|]. split; [apply word_small; reflexivity|exact A].
  - rewrite (next_zero z Z0). exact E.
Qed.
Lemma iter_nonzero r k : state_ok r -> masked r <> (0, 0) -> masked (Nat.iter k tinymt64_next_state r) <> (0, 0).
Proof. intros H NZ. induction k; simpl; [exact NZ|]. apply next_nonzero; auto using iter_ok. Qed.

Lemma iter_injective r1 r2 k : state_ok r1 -> state_ok r2 -> parameters r1 = parameters r2 ->
  masked (Nat.iter k tinymt64_next_state r1) = masked (Nat.iter k tinymt64_next_state r2) -> masked r1 = masked r2.
Proof.
  intros H1 H2 P. induction k as [|k IH]; simpl; [auto|]. intros E. apply IH.
  apply next_injective; auto using iter_ok. rewrite !parameters_iter. exact P.
Qed.

(** ** Every masked state recurs *)
Lemma repeats (l : list Z) : NoDup l \/ exists i j, (i < j < length l)%nat /\ nth i l 0 = nth j l 0.
Proof.
  induction l as [|a l IH]; [left; constructor|].
  destruct (in_dec Z.eq_dec a l) as [I|NI].
  - right. destruct (In_nth l a 0 I) as (j & Hj & E). exists 0%nat, (S j). simpl. split; [lia|auto].
  - destruct IH as [N|(i & j & H & E)]; [left; constructor; auto|].
    right. exists (S i), (S j). simpl. split; [lia|exact E].
Qed.
Lemma pigeonhole (f : nat -> Z) (M : Z) : (forall k, 0 <= f k < M) ->
  exists i j, (i < j)%nat /\ Z.of_nat j <= M /\ f i = f j.
Proof.
  intros H. assert (HM : 0 <= M) by (specialize (H 0%nat); lia).
  set (l := map f (seq 0 (S (Z.to_nat M)))).
  assert (Ll : length l = S (Z.to_nat M)) by (unfold l; rewrite map_length, seq_length; reflexivity).
  assert (Nl : forall k, (k < S (Z.to_nat M))%nat -> nth k l 0 = f k).
  { intros k Hk. unfold l. rewrite (nth_indep _ 0 (f 0%nat)) by (rewrite map_length, seq_length; lia).
    rewrite map_nth, seq_nth by lia. reflexivity. }
  destruct (repeats l) as [N|(i & j & Hij & E)].
  - exfalso. set (all := map Z.of_nat (seq 0 (Z.to_nat M))).
    assert (I : incl l all).
    { intros z Hz. unfold l in Hz. apply in_map_iff in Hz as (k & <- & _). specialize (H k).
      apply in_map_iff. exists (Z.to_nat (f k)). split; [lia|]. apply in_seq. lia. }
    pose proof (NoDup_incl_length N I) as C. unfold all in C. rewrite map_length, seq_length in C. lia.
  - exists i, j. rewrite !Nl in E by lia. split; [lia|]. split; [lia|exact E].
Qed.
Lemma masked_word r : state_ok r -> word 63 (fst (masked r)) /\ word 64 (snd (masked r)).
Proof. intros (H0 & H1 & _). split; [apply word_land_mask, H0|exact H1]. Qed.

Lemma iter_add (A : Type) (f : A -> A) i j x : Nat.iter (i + j) f x = Nat.iter i f (Nat.iter j f x).
Proof. induction i; simpl; congruence. Qed.

Lemma recurs r : state_ok r -> exists p, (0 < p)%nat /\ Z.of_nat p <= 2 ^ 127 /\
  masked (Nat.iter p tinymt64_next_state r) = masked r.
Proof.
  intros H.
  set (f := fun k => fst (masked (Nat.iter k tinymt64_next_state r)) * 2 ^ 64 + snd (masked (Nat.iter k tinymt64_next_state r))).
  assert (B : forall k, 0 <= f k < 2 ^ 127).
  { intros k. unfold f. destruct (masked_word _ (iter_ok r k H)) as ((? & ?) & (? & ?)). lia. }
  destruct (pigeonhole f (2 ^ 127) B) as (i & j & Hij & HM & E).
  exists (j - i)%nat. split; [lia|]. split; [lia|]. symmetry.
  apply (iter_injective _ _ i); [exact H|apply iter_ok; exact H|symmetry; apply parameters_iter|].
  rewrite <- iter_add. replace (i + (j - i))%nat with j by lia.
  unfold f in E. destruct (masked_word _ (iter_ok r i H)) as ((? & ?) & (? & ?)). destruct (masked_word _ (iter_ok r j H)) as ((? & ?) & (? & ?)).
  destruct (masked (Nat.iter i tinymt64_next_state r)) as (a & c), (masked (Nat.iter j tinymt64_next_state r)) as (a' & c').
  cbn [fst snd] in *. f_equal; lia.
Qed.

(** ** Initialisation *)
Lemma certified r : masked (period_certification r) <> (0, 0).
Proof.
  unfold period_certification.
  destruct (Z.eqb_spec (Z.land (status0 r) TINYMT64_MASK) 0); destruct (Z.eqb_spec (status1 r) 0); cbn [andb]; unfold masked; cbn [status0 status1]; congruence.
Qed.
Lemma certified_ok r : state_ok r -> state_ok (period_certification r).
Proof.
  intros H. unfold period_certification. destruct (_ && _); [|exact H]. destruct H as (_ & _ & A).
  split; [apply word_small; reflexivity|]. split; [apply word_small; reflexivity|exact A].
Qed.
Lemma init_round_ok i r : state_ok r -> state_ok (init_round i r).
Proof.
  intros (H0 & H1 & A). unfold init_round.
  set (v := u64 (i + 6364136223846793005 * _)). assert (Wv : word 64 v) by apply word_u64.
  assert (G : word 64 (get_status r (Z.odd i))) by (unfold get_status; destruct (Z.odd i); assumption).
  assert (W : word 64 (Z.lxor (get_status r (Z.odd i)) v)) by (apply word_lxor; auto; lia).
  unfold set_status. destruct (Z.odd i); (split; [assumption|split; [assumption|exact A]]).
Qed.
Lemma init_rounds_ok l : forall r, state_ok r -> state_ok (fold_left (fun r i => init_round i r) l r).
Proof. induction l as [|i l IH]; intros r H; simpl; auto using init_round_ok. Qed.
Lemma init_ok r seed : word 32 (mat1 r) -> word 32 (mat2 r) -> word 64 (tmat r) -> word 64 seed ->
  state_ok (tinymt64_init r seed) /\ masked (tinymt64_init r seed) <> (0, 0).
Proof.
  intros M1 M2 MT HS. unfold tinymt64_init. split; [|apply certified]. apply certified_ok, init_rounds_ok.
  split; [apply word_lxor; [lia|exact HS|apply word_u64]|].
  split; [apply word_lxor; [lia|apply (word_le 32); [lia|exact M2]|exact MT]|]. auto.
Qed.

Lemma ia_get_word st i : Forall (word 64) st -> word 64 (ia_get st i).
Proof.
  intros F. unfold ia_get. destruct (nth_in_or_default (Z.to_nat (i mod 4)) st 0) as [I | ->].
  - rewrite Forall_forall in F. auto.
  - split; [lia|reflexivity].
Qed.
Lemma upd_word st k v : Forall (word 64) st -> word 64 v -> Forall (word 64) (upd st k v).
Proof.
  intros F Hv. revert k. induction F as [|x st Hx F IH]; intros [|k]; simpl; auto.
Qed.
Lemma ia_set_word st i v : Forall (word 64) st -> word 64 v -> Forall (word 64) (ia_set st i v).
Proof. intros. apply upd_word; auto. Qed.
Lemma ia_mix_word k si : Forall (word 64) (fst si) -> Forall (word 64) (fst (ia_mix k si)).
Proof. destruct si as (st, i). intros F. cbn [ia_mix fst] in *. repeat apply ia_set_word; auto using word_u64. Qed.
Lemma ia_final_word si : Forall (word 64) (fst si) -> Forall (word 64) (fst (ia_final si)).
Proof.
  destruct si as (st, i). intros F. cbn [ia_final fst] in *.
  assert (F1 : Forall (word 64) (ia_set st (i + 1) (Z.lxor (ia_get st (i + 1))
     (ini_func2 (u64 (ia_get st i + ia_get st (i + 1) + ia_get st (i + 3))))))).
  { apply ia_set_word; auto. apply word_lxor; [lia|apply ia_get_word; exact F|apply word_u64]. }
  apply ia_set_word; [|apply word_u64]. apply ia_set_word; auto.
  apply word_lxor; [lia|apply ia_get_word; exact F1|apply word_u64].
Qed.
Lemma iter_inv (A : Type) (P : A -> Prop) f k x : (forall y, P y -> P (f y)) -> P x -> P (Nat.iter k f x).
Proof. intros H Hx. induction k; simpl; auto. Qed.
Lemma init_by_array_ok r key : word 32 (mat1 r) -> word 32 (mat2 r) -> word 64 (tmat r) ->
  state_ok (tinymt64_init_by_array r key) /\ masked (tinymt64_init_by_array r key) <> (0, 0).
Proof.
  intros M1 M2 MT. unfold tinymt64_init_by_array. split; [|apply certified]. apply certified_ok.
  set (st0 := [0; mat1 r; mat2 r; tmat r]).
  assert (F0 : Forall (word 64) st0).
  { repeat apply Forall_cons; try apply Forall_nil; try assumption; try (apply (word_le 32); [lia|assumption]). split; [lia|reflexivity]. }
  set (st1 := ia_set (ia_set (ia_set st0 1 _) 2 _) 0 _).
  assert (F1 : Forall (word 64) st1) by (unfold st1; repeat apply ia_set_word; auto using word_u64).
  set (keys := firstn _ key).
  set (P := fun si : list Z * Z => Forall (word 64) (fst si)).
  assert (F2 : P (fold_left (fun si k => ia_mix k si) keys (st1, 1))).
  { assert (G : forall l si, P si -> P (fold_left (fun si k => ia_mix k si) l si)).
    { induction l as [|k l IH]; intros si Hs; simpl; [exact Hs|]. apply IH, ia_mix_word. exact Hs. }
    apply G. exact F1. }
  set (si2 := fold_left _ keys (st1, 1)) in *. set (m := Z.to_nat _).
  assert (F3 : P (Nat.iter m (ia_mix 0) si2)) by (apply iter_inv; [intros; apply ia_mix_word; assumption|exact F2]).
  set (si3 := Nat.iter m _ _) in *.
  assert (F4 : P (Nat.iter 4 ia_final si3)) by (apply iter_inv; [intros; apply ia_final_word; assumption|exact F3]).
  set (si4 := Nat.iter 4 _ _) in *. unfold P in F4.
  split; [apply word_lxor; auto using ia_get_word; lia|]. split; [apply word_lxor; auto using ia_get_word; lia|]. auto.
Qed.

(** The seed and the three parameters decide everything. *)
Lemma rng_make_parameters u1 u2 seed : parameters u1 = parameters u2 -> rng_make u1 seed = rng_make u2 seed.
Proof.
  destruct u1 as [a b c d e], u2 as [a' b' c' d' e']. unfold parameters. cbn. intros E. injection E as -> -> ->.
  unfold rng_make, tinymt64_init. cbn [mat1 mat2 tmat]. reflexivity.
Qed.

(** First output for seed 1 with two contents of the never-assigned parameters. *)
Definition content_0 : tinymt := mkTinymt 0 0 0 0 0.
Definition content_1 : tinymt := mkTinymt 0 0 0 0 1.
Lemma contents_differ {frexp} :
  fst (@generate_uniform01 (Xnum frexp) (rng_make content_0 1)) <> fst (@generate_uniform01 (Xnum frexp) (rng_make content_1 1)).
Proof.
  unfold generate_uniform01, tinymt64_generate_double01, tinymt64_temper_conv. cbn [fst n_sub n_of_bits Xnum]. rewrite !conv_bits.
  set (m0 := Z.shiftr (tinymt64_temper (tinymt64_next_state (rng_make content_0 1))) 12).
  set (m1 := Z.shiftr (tinymt64_temper (tinymt64_next_state (rng_make content_1 1))) 12).
  assert (H : (0 <=? m0) && (m0 <? 2 ^ 52) && (0 <=? m1) && (m1 <? 2 ^ 52) && negb (m0 =? m1) = true) by (vm_compute; reflexivity).
  clearbody m0 m1. apply andb_prop in H as (H & H5). apply andb_prop in H as (H & H4). apply andb_prop in H as (H & H3). apply andb_prop in H as (H1 & H2).
  rewrite !of_bits_one by (split; lia). cbn [xsub n_of_Z Xnum]. unfold n1. cbn [n_of_Z Xnum xsub]. intros E. injection E as E.
  assert (0 < IZR (2 ^ 52))%R by (apply IZR_lt; reflexivity).
  assert (Q : IZR m0 = IZR m1).
  { assert (D : (IZR m0 / IZR (2 ^ 52) = IZR m1 / IZR (2 ^ 52))%R) by lra.
    apply (f_equal (fun z => z * IZR (2 ^ 52))%R) in D. unfold Rdiv in D. rewrite !Rmult_assoc, Rinv_l, !Rmult_1_r in D by lra. exact D. }
  apply eq_IZR in Q. rewrite Q, Z.eqb_refl in H5. discriminate.
Qed.
Lemma not_a_function_of_the_seed {frexp} : exists u1 u2 seed, state_ok u1 /\ state_ok u2 /\
  fst (@generate_uniform01 (Xnum frexp) (rng_make u1 seed)) <> fst (@generate_uniform01 (Xnum frexp) (rng_make u2 seed)).
Proof.
  exists content_0, content_1, 1. split; [repeat split; vm_compute; congruence|]. split; [repeat split; vm_compute; congruence|].
  apply contents_differ.
Qed.
