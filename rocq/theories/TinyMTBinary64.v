(** * TinyMTBinary64: the floating-point outputs of the generator in binary64. *)
From Coquelicot Require Import Coquelicot.
From Flocq Require Import Core.Core IEEE754.BinarySingleNaN Mult_error.
From Coq Require Import ZArith Reals List Bool Lia Lra.
From Verif Require Import Base Num XReal Binary64 TinyMT.
From Verif Require Import TinyMTFacts TinyMTPeriod Binary64Facts TinyMTVisits.
Import List. Import ListNotations.
Local Open Scope R_scope.

(** The double x is the real number u. *)
Definition is_real (x : f64) (u : R) : Prop := is_finite x = true /\ B2R x = u.

Lemma rnd_scaled a e : (Z.abs a < 2 ^ 53)%Z -> (-1074 <= e)%Z -> rnd (IZR a * bpow radix2 e) = IZR a * bpow radix2 e.
Proof.
  intros Ha He. apply round_generic; auto with typeclass_instances.
  change (IZR a * bpow radix2 e) with (F2R (Float radix2 a e)).
  change (SpecFloat.fexp 53 1024) with (FLT_exp (-1074) 53).
  apply generic_format_FLT. exists (Float radix2 a e); simpl; [reflexivity|exact Ha|exact He].
Qed.
Lemma bpow_52 : bpow radix2 (-52) = / IZR (2 ^ 52).
Proof. reflexivity. Qed.
Lemma frac m : IZR m / IZR (2 ^ 52) = IZR m * bpow radix2 (-52).
Proof. reflexivity. Qed.
Lemma below_max x : Rabs x <= 2 -> Rlt_bool (Rabs x) (bpow radix2 1024) = true.
Proof.
  intros H. apply Rlt_bool_true. eapply Rle_lt_trans; [exact H|].
  change 2 with (bpow radix2 1). apply bpow_lt. lia.
Qed.

Lemma of_bits_one64 m : word 52 m -> is_real (b64_of_bits (Z.lor m one_bits)) (1 + IZR m / IZR (2 ^ 52)).
Proof.
  intros H. rewrite (lor_one m H). unfold b64_of_bits.
  assert (T : Z.testbit (m + 1023 * 2 ^ 52) 63 = false).
  { apply (word_bits 63 (m + 1023 * 2 ^ 52)); [lia| |lia]. destruct H. split; lia. }
  assert (S : Z.shiftr (m + 1023 * 2 ^ 52) 52 = 1023%Z).
  { rewrite Z.shiftr_div_pow2 by lia. rewrite Z.div_add by lia. rewrite Z.div_small by exact H. reflexivity. }
  assert (M : Z.land (m + 1023 * 2 ^ 52) (2 ^ 52 - 1) = m).
  { change (2 ^ 52 - 1)%Z with (Z.ones 52). rewrite Z.land_ones by lia. rewrite Z.mod_add by lia. apply Z.mod_small. exact H. }
  rewrite T, S, M. change (Z.land 1023 2047 =? 2047)%Z with false. change (Z.land 1023 2047 =? 0)%Z with false. cbv beta iota zeta.
  change (Z.land 1023 2047 - 1075)%Z with (-52)%Z. cbn [cond_Zopp].
  pose proof (unit_fraction m H) as U.
  pose proof (binary_normalize_correct 53 1024 prec_ok emax_ok mode_NE (m + 2 ^ 52) (-52) false) as C.
  cbv zeta in C. cbn [round_mode] in C.
  replace (F2R (Float radix2 (m + 2 ^ 52) (-52))) with (1 + IZR m / IZR (2 ^ 52)) in C.
  2: { unfold F2R. cbn [Fnum Fexp]. rewrite plus_IZR, bpow_52. assert (0 < IZR (2 ^ 52)) by (apply IZR_lt; reflexivity). field. lra. }
  assert (Rr : rnd (1 + IZR m / IZR (2 ^ 52)) = 1 + IZR m / IZR (2 ^ 52)).
  { replace (1 + IZR m / IZR (2 ^ 52)) with (IZR (m + 2 ^ 52) * bpow radix2 (-52)).
    - apply rnd_scaled; destruct H; lia.
    - rewrite plus_IZR, bpow_52. assert (0 < IZR (2 ^ 52)) by (apply IZR_lt; reflexivity). field. lra. }
  rewrite Rr, below_max in C by (rewrite Rabs_pos_eq; lra). split; apply C.
Qed.

Lemma minus_exact (x y : f64) a b m : is_real x a -> is_real y b -> (0 <= m < 2 ^ 53)%Z ->
  a - b = IZR m * bpow radix2 (-52) -> is_real (Bminus mode_NE x y) (a - b).
Proof.
  intros (Fx & Vx) (Fy & Vy) Hm E. pose proof (Bminus_correct 53 1024 prec_ok emax_ok mode_NE x y Fx Fy) as C.
  cbn [round_mode] in C. rewrite Vx, Vy, E, rnd_scaled in C by lia. rewrite below_max in C.
  - split; [apply C|]. rewrite E. apply C.
  - assert (0 <= IZR m) by (apply IZR_le; lia).
    assert (IZR m <= 2 * IZR (2 ^ 52)). { rewrite <- mult_IZR. apply IZR_le. lia. }
    rewrite bpow_52. assert (P : 0 < IZR (2 ^ 52)) by (apply IZR_lt; reflexivity). pose proof (Rinv_0_lt_compat _ P).
    rewrite Rabs_pos_eq by (apply Rmult_le_pos; lra).
    apply Rle_trans with (2 * IZR (2 ^ 52) * / IZR (2 ^ 52)); [apply Rmult_le_compat_r; lra|].
    rewrite Rmult_assoc, Rinv_r by lra. lra.
Qed.

Section Doubles.
Context (L : libm) {frexp : xr -> Z}.
Notation BN := (Bnum L).
Notation XN := (Xnum frexp).

Definition top52 (r : tinymt) : Z := Z.shiftr (tinymt64_temper r) 12.
Lemma top52_word r : state_ok r -> word 52 (top52 r).
Proof. intros H. apply word_shiftr; try lia. apply temper_word. exact H. Qed.

Lemma conv64 r : state_ok r -> is_real (@tinymt64_temper_conv BN r) (1 + IZR (top52 r) / IZR (2 ^ 52)).
Proof. intros H. unfold tinymt64_temper_conv. rewrite conv_bits. exact (of_bits_one64 _ (top52_word r H)). Qed.
Lemma conv_open64 r : state_ok r -> is_real (@tinymt64_temper_conv_open BN r) (1 + IZR (Z.lor (top52 r) 1) / IZR (2 ^ 52)).
Proof.
  intros H. unfold tinymt64_temper_conv_open. rewrite conv_open_bits. apply of_bits_one64.
  apply word_lor; [lia|apply top52_word; exact H|split; lia].
Qed.

(** The four bit-pattern outputs are exactly the real numbers the exact model computes. *)
Theorem outputs64 r : state_ok r ->
  (exists u, fst (@tinymt64_generate_double01 XN r) = Fin u /\ is_real (fst (@tinymt64_generate_double01 BN r)) u /\ 0 <= u < 1) /\
  (exists u, fst (@tinymt64_generate_double12 XN r) = Fin u /\ is_real (fst (@tinymt64_generate_double12 BN r)) u /\ 1 <= u < 2) /\
  (exists u, fst (@tinymt64_generate_doubleOC XN r) = Fin u /\ is_real (fst (@tinymt64_generate_doubleOC BN r)) u /\ 0 < u <= 1) /\
  (exists u, fst (@tinymt64_generate_doubleOO XN r) = Fin u /\ is_real (fst (@tinymt64_generate_doubleOO BN r)) u /\ 0 < u < 1).
Proof.
  intros H. pose proof (next_ok r H) as H'. pose proof (conv64 _ H') as C. pose proof (conv_open64 _ H') as O.
  pose proof (top52_word _ H') as W. pose proof (unit_fraction _ W) as U.
  assert (W1 : word 52 (Z.lor (top52 (tinymt64_next_state r)) 1)) by (apply word_lor; [lia|exact W|split; lia]).
  assert (N1 : (0 < Z.lor (top52 (tinymt64_next_state r)) 1)%Z).
  { destruct W1 as (A & _). destruct (Z.eq_dec (Z.lor (top52 (tinymt64_next_state r)) 1) 0) as [E|NE]; [|lia].
    exfalso. apply Z.lor_eq_0_iff in E as (_ & E). discriminate. }
  pose proof (unit_fraction _ W1) as U1.
  assert (P : 0 < IZR (2 ^ 52)) by (apply IZR_lt; reflexivity).
  assert (EC : @tinymt64_temper_conv XN (tinymt64_next_state r) = Fin (1 + IZR (top52 (tinymt64_next_state r)) / IZR (2 ^ 52))).
  { unfold tinymt64_temper_conv. rewrite conv_bits. exact (of_bits_one _ W). }
  assert (EO : @tinymt64_temper_conv_open XN (tinymt64_next_state r) = Fin (1 + IZR (Z.lor (top52 (tinymt64_next_state r)) 1) / IZR (2 ^ 52))).
  { unfold tinymt64_temper_conv_open. rewrite conv_open_bits. exact (of_bits_one _ W1). }
  assert (L1 : 0 < IZR (Z.lor (top52 (tinymt64_next_state r)) 1) / IZR (2 ^ 52)).
  { apply Rmult_lt_0_compat; [apply IZR_lt; exact N1|]. apply Rinv_0_lt_compat. exact P. }
  assert (I1 : is_real (@n1 BN) 1) by (split; apply one_ok).
  assert (I2 : is_real (@n_of_Z BN 2) 2) by (apply of_Z_ok; lia).
  unfold tinymt64_generate_double01, tinymt64_generate_double12, tinymt64_generate_doubleOC, tinymt64_generate_doubleOO. cbn [fst].
  rewrite EC, EO. cbn [n_sub n_of_Z Xnum xsub]. change (@n1 XN) with (Fin 1). cbn [xsub].
  set (m := top52 (tinymt64_next_state r)) in *. set (m1 := Z.lor m 1) in *. clearbody m1. clearbody m.
  split; [|split; [|split]]; eexists; (split; [reflexivity|]).
  - split; [|lra]. apply (minus_exact _ _ _ _ m C I1); [destruct W; lia|rewrite <- frac; lra].
  - split; [exact C|lra].
  - split; [|lra]. apply (minus_exact _ _ _ _ (2 ^ 52 - m) I2 C); [destruct W; lia|].
    rewrite minus_IZR, bpow_52. field. lra.
  - split; [|lra]. apply (minus_exact _ _ _ _ m1 O I1); [destruct W1; lia|rewrite <- frac; lra].
Qed.

(** ** tinymt64_generate_double *)
Definition two64 : f64 := b64_of_Z (2 ^ 64).
Lemma of_Z64 z : (0 <= z <= 2 ^ 64)%Z -> is_finite (b64_of_Z z) = true /\ B2R (b64_of_Z z) = rnd (IZR z).
Proof.
  intros Hz. pose proof (binary_normalize_correct 53 1024 prec_ok emax_ok mode_NE z 0 false) as H.
  cbv zeta in H. cbn [round_mode] in H.
  replace (F2R (Float radix2 z 0)) with (IZR z) in H by (unfold F2R; simpl; ring).
  assert (B : 0 <= rnd (IZR z) <= bpow radix2 64).
  { apply rnd_between; [apply rnd_0| |].
    - replace (bpow radix2 64) with (1 * bpow radix2 64) by ring. apply (rnd_scaled 1 64); lia.
    - split; [apply IZR_le; lia|]. change (bpow radix2 64) with (IZR (2 ^ 64)). apply IZR_le. lia. }
  rewrite Rlt_bool_true in H.
  - unfold b64_of_Z. tauto.
  - rewrite Rabs_pos_eq by lra. eapply Rle_lt_trans; [apply B|]. apply bpow_lt. lia.
Qed.
Lemma mul_real : is_real (@TINYMT64_MUL BN) (/ IZR (2 ^ 64)).
Proof.
  assert (E : B2SF (@TINYMT64_MUL BN) = SpecFloat.S754_finite false 4503599627370496 (-116)) by (vm_compute; reflexivity).
  split; [rewrite <- is_finite_SF_B2SF, E; reflexivity|].
  rewrite <- SF2R_B2SF, E. unfold SF2R, F2R. cbn [Fnum Fexp cond_Zopp].
  change (bpow radix2 (-116)) with (/ IZR (2 ^ 116)). change (2 ^ 116)%Z with (2 ^ 52 * 2 ^ 64)%Z. rewrite mult_IZR.
  change (Z.pos 4503599627370496) with (2 ^ 52)%Z.
  assert (0 < IZR (2 ^ 52)) by (apply IZR_lt; reflexivity). assert (0 < IZR (2 ^ 64)) by (apply IZR_lt; reflexivity).
  field. lra.
Qed.
Lemma rnd_64 z : word 64 z -> 0 <= rnd (IZR z) <= IZR (2 ^ 64) /\ (rnd (IZR z) = 0 \/ 1 <= rnd (IZR z)).
Proof.
  intros (A & B). split.
  - apply rnd_between; [apply rnd_0| |split; apply IZR_le; lia].
    change (IZR (2 ^ 64)) with (bpow radix2 64).
    replace (bpow radix2 64) with (1 * bpow radix2 64) by ring. apply (rnd_scaled 1 64); lia.
  - destruct (Z.eq_dec z 0) as [->|]; [left; apply rnd_0|right]. rewrite <- rnd_1. apply rnd_le. apply IZR_le. lia.
Qed.

Lemma scaled64 z : word 64 z -> is_real (@n_mul BN (n_of_Z z) TINYMT64_MUL) (rnd (IZR z) / IZR (2 ^ 64)).
Proof.
  intros H. destruct (of_Z64 z) as (F & V); [destruct H; lia|]. destruct mul_real as (Fm & Vm).
  pose proof (Bmult_correct 53 1024 prec_ok emax_ok mode_NE (b64_of_Z z) (@TINYMT64_MUL BN)) as C.
  rewrite Vm, V in C. cbn [round_mode] in C.
  destruct (rnd_64 z H) as (B & D).
  assert (P : 0 < IZR (2 ^ 64)) by (apply IZR_lt; reflexivity).
  assert (Rx : rnd (rnd (IZR z) * / IZR (2 ^ 64)) = rnd (IZR z) * / IZR (2 ^ 64)).
  { destruct D as [D|D]; [rewrite D, Rmult_0_l; apply rnd_0|].
    assert (G : generic_format radix2 (SpecFloat.fexp 53 1024) (rnd (IZR z))) by (apply generic_format_round; auto with typeclass_instances).
    apply round_generic; auto with typeclass_instances. clear Vm V C B. set (y := rnd (IZR z)) in *. clearbody y.
    change (/ IZR (2 ^ 64)) with (bpow radix2 (-64)). change (SpecFloat.fexp 53 1024) with (FLT_exp (-1074) 53).
    apply mult_bpow_exact_FLT; [exact G|].
    assert (1 <= mag radix2 y)%Z; [|lia]. apply mag_ge_bpow. rewrite Rabs_pos_eq by lra. exact D. }
  rewrite Rx in C. rewrite below_max in C.
  - split; [|apply C]. replace (is_finite (@n_mul BN (n_of_Z z) TINYMT64_MUL)) with (is_finite (b64_of_Z z) && is_finite (@TINYMT64_MUL BN))%bool.
    + rewrite F, Fm. reflexivity.
    + symmetry. apply C.
  - rewrite Rabs_pos_eq by (apply Rmult_le_pos; [lra|apply Rlt_le, Rinv_0_lt_compat, P]).
    apply Rle_trans with (IZR (2 ^ 64) * / IZR (2 ^ 64)); [apply Rmult_le_compat_r; [apply Rlt_le, Rinv_0_lt_compat, P|lra]|rewrite Rinv_r; lra].
Qed.

(** In exact arithmetic the output is below 1; in binary64 it is 1 for the 2^10
    largest 64-bit values, which the conversion rounds up to 2^64. *)
Lemma round_top : rnd (IZR (2 ^ 64 - 2 ^ 10)) = IZR (2 ^ 64) /\ rnd (IZR (2 ^ 64 - 2 ^ 10 - 1)) = IZR (2 ^ 64 - 2 ^ 11).
Proof.
  split.
  - rewrite <- (proj2 (of_Z64 (2 ^ 64 - 2 ^ 10) ltac:(split; discriminate))).
    assert (E : B2SF (b64_of_Z (2 ^ 64 - 2 ^ 10)) = SpecFloat.S754_finite false 4503599627370496 12) by (vm_compute; reflexivity).
    rewrite <- SF2R_B2SF, E. unfold SF2R, F2R. cbn [Fnum Fexp cond_Zopp]. change (bpow radix2 12) with (IZR 4096). rewrite <- mult_IZR. reflexivity.
  - rewrite <- (proj2 (of_Z64 (2 ^ 64 - 2 ^ 10 - 1) ltac:(split; discriminate))).
    assert (E : B2SF (b64_of_Z (2 ^ 64 - 2 ^ 10 - 1)) = SpecFloat.S754_finite false 9007199254740991 11) by (vm_compute; reflexivity).
    rewrite <- SF2R_B2SF, E. unfold SF2R, F2R. cbn [Fnum Fexp cond_Zopp]. change (bpow radix2 11) with (IZR 2048). rewrite <- mult_IZR. reflexivity.
Qed.
Lemma rounds_to_top z : word 64 z -> (rnd (IZR z) = IZR (2 ^ 64) <-> (2 ^ 64 - 2 ^ 10 <= z)%Z).
Proof.
  intros H. destruct (rnd_64 z H) as (B & _). destruct round_top as (T1 & T2). split; intros E.
  - destruct (Z.le_gt_cases (2 ^ 64 - 2 ^ 10) z) as [|G]; [assumption|exfalso].
    assert (X : rnd (IZR z) <= IZR (2 ^ 64 - 2 ^ 11)). { rewrite <- T2. apply rnd_le, IZR_le. lia. }
    rewrite E in X. apply le_IZR in X. lia.
  - apply Rle_antisym; [apply B|]. rewrite <- T1. apply rnd_le, IZR_le. exact E.
Qed.
Theorem double_exact r : state_ok r ->
  exists u, fst (@tinymt64_generate_double XN r) = Fin u /\ 0 <= u < 1 /\ u = IZR (fst (tinymt64_generate_uint64 r)) / IZR (2 ^ 64).
Proof.
  intros H. pose proof (temper_word _ (next_ok r H)) as (A & B).
  unfold tinymt64_generate_double, tinymt64_generate_uint64, TINYMT64_MUL. cbn [fst].
  assert (P : 0 < IZR (2 ^ 64)) by (apply IZR_lt; reflexivity).
  exists (IZR (tinymt64_temper (tinymt64_next_state r)) / IZR (2 ^ 64)). split; [|split; [|reflexivity]].
  - change (@n1 XN) with (Fin 1). cbn [n_of_Z n_div n_mul Xnum].
    replace (xdiv (Fin 1) (Fin (IZR (2 ^ 64)))) with (Fin (1 / IZR (2 ^ 64))).
    + cbn [xmul]. f_equal. field. lra.
    + unfold xdiv. rewrite Req_bool_false by lra. reflexivity.
  - apply IZR_le in A. apply IZR_lt in B. split.
    + apply Rmult_le_pos; [exact A|apply Rlt_le, Rinv_0_lt_compat, P].
    + apply Rmult_lt_reg_r with (IZR (2 ^ 64)); [exact P|]. unfold Rdiv. rewrite Rmult_assoc, Rinv_l by lra. lra.
Qed.
Theorem double64 r : state_ok r ->
  let x := fst (@tinymt64_generate_double BN r) in
  is_finite x = true /\ 0 <= B2R x <= 1 /\ (B2R x = 1 <-> (2 ^ 64 - 2 ^ 10 <= fst (tinymt64_generate_uint64 r))%Z).
Proof.
  intros H. pose proof (temper_word _ (next_ok r H)) as W. cbv zeta.
  unfold tinymt64_generate_double, tinymt64_generate_uint64. cbn [fst].
  destruct (scaled64 _ W) as (F & V). split; [exact F|]. rewrite V. clear F V.
  destruct (rnd_64 _ W) as (B & _). rewrite <- (rounds_to_top _ W).
  set (y := rnd (IZR (tinymt64_temper (tinymt64_next_state r)))) in *. clearbody y.
  assert (P : 0 < IZR (2 ^ 64)) by (apply IZR_lt; reflexivity). set (q := IZR (2 ^ 64)) in *. clearbody q.
  split; [split|split].
  - apply Rmult_le_pos; [lra|apply Rlt_le, Rinv_0_lt_compat, P].
  - apply Rmult_le_reg_r with q; [exact P|]. unfold Rdiv. rewrite Rmult_assoc, Rinv_l by lra. lra.
  - intros E. apply (f_equal (fun t => t * q)) in E. unfold Rdiv in E. rewrite Rmult_assoc, Rinv_l in E by lra. lra.
  - intros ->. field. lra.
Qed.
Lemma ones_after t : tinymt64_temper (tinymt64_next_state (mkTinymt 2557411419939131395 0 MAT1 MAT2 t)) = (2 ^ 64 - 2)%Z.
Proof.
  unfold tinymt64_temper. replace (tmat (tinymt64_next_state (mkTinymt 2557411419939131395 0 MAT1 MAT2 t))) with t by reflexivity.
  replace (status0 (tinymt64_next_state (mkTinymt 2557411419939131395 0 MAT1 MAT2 t))) with 0%Z by (symmetry; vm_compute; reflexivity).
  replace (status1 (tinymt64_next_state (mkTinymt 2557411419939131395 0 MAT1 MAT2 t))) with (2 ^ 64 - 2)%Z by (symmetry; vm_compute; reflexivity).
  reflexivity.
Qed.
Theorem every_seed_one r seed : word 64 (tmat r) -> word 64 seed -> mat1 r = MAT1 -> mat2 r = MAT2 ->
  exists i : nat, (Z.of_nat i < 2 ^ 127 - 1)%Z /\
    let x := fst (@tinymt64_generate_double BN (Nat.iter i tinymt64_next_state (tinymt64_init r seed))) in
    is_finite x = true /\ B2R x = 1.
Proof.
  intros Ht Hs P1 P2.
  destruct (reaches r seed 2557411419939131395 0 Ht Hs P1 P2) as (i & t & Hi & _ & O & E);
    [split; [discriminate|reflexivity]|split; [discriminate|reflexivity]|discriminate|].
  exists i. split; [exact Hi|]. cbv zeta in O, E |- *.
  destruct (double64 _ O) as (F & _ & X). split; [exact F|]. apply X.
  unfold tinymt64_generate_uint64. cbn [fst]. rewrite E, ones_after. discriminate.
Qed.
End Doubles.
