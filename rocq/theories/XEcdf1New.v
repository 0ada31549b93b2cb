(** * XEcdf1New: ecdf1_new_B and ecdf1_new_b in exact arithmetic. *)
From Flocq Require Import Core.Raux.
From Coq Require Import ZArith Reals List Bool Lia Lra String Permutation Sorted Factorial.
From Verif Require Import Base Num Hoare XReal RSum PoissonPmf Common FFTConv Ecdf1New XPmf.
From Verif Require Import Spec SpecFacts Cells Events XCommon XEcdf2 XEcdf2Main XFft NewMath.
Import List.
Local Open Scope Z_scope.

Lemma valid_nth (v : list R) i : valid_boundary v -> (i < length v)%nat -> (0 <= nth i v 0 <= 1)%R.
Proof. intros [_ HF] Hi. rewrite Forall_forall in HF. apply HF, nth_In, Hi. Qed.

Lemma valid_nth_le (v : list R) i j : valid_boundary v -> (i <= j < length v)%nat -> (nth i v 0 <= nth j v 0)%R.
Proof.
  intros [HS _] Hij. apply Sorted_strong in HS. revert i j Hij.
  induction HS as [|x l HS IH Hx]; simpl; intros i j Hij; [lia|].
  destruct j as [|j], i as [|i]; try lia; try lra; try (apply IH; lia).
  rewrite Forall_forall in Hx. apply Hx, nth_In. lia.
Qed.

Section New.
Context {frexp : xr -> Z} (E : env (Xnum frexp)).
Notation XN := (Xnum frexp).
Notation gx := (@get (car XN) (Fin 0)).
Variable B : list R.
Notation n := (List.length B).
Notation zn := (Z.of_nat n).
Notation BX := (map Fin B : list (car XN)).
Hypothesis HV : valid_boundary B.
Hypothesis HF : fft_ok E.
Variable jump : Z.
Hypothesis Hj : 1 <= jump.
Context {thr : exn -> Prop} {abt : Prop}.
Notation WP := (wp thr abt).
Notation W := (W n B).
Notation pre := (pre n B).
Notation T := (T n B).
Notation Bf := (Bf B).
Notation prevloc := (prevloc B).
Notation pmf_ok := (pmfgen_ok (frexp := frexp) (zn + 1)).
Notation FI := (fft_inv (frexp := frexp) (zn + 1)).

Lemma size_BX : size BX = zn.
Proof. unfold size. rewrite map_length. reflexivity. Qed.

Lemma wp_rd_B i (Q : car XN -> Prop) : 0 <= i < zn -> Q (Fin (Bf (Z.to_nat i))) -> WP (rd BX i) Q.
Proof.
  intros Hi HQ. apply wp_rdx; [rewrite size_BX; lia|]. unfold get, Bf.
  change (@nil (car XN)) with (@nil xr). 
  rewrite (nth_indep _ (Fin 0) (Fin 0%R)) by (rewrite map_length; lia). rewrite map_nth. exact HQ.
Qed.

Lemma rn_pos : (0 <= rn n)%R.
Proof. unfold rn. apply IZR_le. lia. Qed.

Lemma prevloc_le i : (i < n)%nat -> (prevloc i <= Bf i)%R.
Proof.
  intros Hi. destruct i as [|i]; simpl; unfold Bf.
  - apply valid_nth; auto.
  - apply valid_nth_le; [auto|lia].
Qed.
Lemma lam_prev i I : (i <= I < n)%nat -> (0 <= rn n * (Bf I - prevloc i))%R.
Proof.
  intros Hi. apply Rmult_le_pos; [apply rn_pos|].
  pose proof (prevloc_le i ltac:(lia)). pose proof (valid_nth_le B i I HV ltac:(lia)). unfold Bf in *. lra.
Qed.
Lemma lam_B i I : (i <= I < n)%nat -> (0 <= rn n * (Bf I - Bf i))%R.
Proof.
  intros Hi. apply Rmult_le_pos; [apply rn_pos|].
  pose proof (valid_nth_le B i I HV ltac:(lia)). unfold Bf in *. lra.
Qed.

(** ** The loop over j *)
Lemma wp_subtract pg I i c l (dest : list (car XN)) (f : Z -> R) (Q : list (car XN) -> Prop) :
  pmf_ok pg -> 0 <= i <= I -> I < zn -> (0 <= l)%R -> size dest = zn + 1 ->
  (forall j, I < j <= zn -> gx dest j = Fin (f j)) ->
  (forall dest', size dest' = zn + 1 ->
     (forall j, I < j <= zn -> gx dest' j = Fin (f j - c * pois l (Z.to_nat (j - i)))) -> Q dest') ->
  WP (subtract_exits E zn pg I i (Fin c) (Fin l) dest) Q.
Proof.
  intros Hpg Hi HI Hl Hs Hd HQ. unfold subtract_exits.
  apply wp_for with (P := fun k d => size d = zn + 1 /\
    forall j, I < j <= zn -> gx d j = if j <? k then Fin (f j - c * pois l (Z.to_nat (j - i))) else Fin (f j)).
  - split; auto. intros j Hj'. destruct (Z.ltb_spec j (I + 1)); [lia|]. auto.
  - intros k d Hk [Hsd Hdj]. apply wp_bind, wp_rdx; [lia|].
    apply wp_bind, wp_evaluate_pmf with (mk := zn + 1); auto; [lia|].
    apply wp_wr; [lia|]. rewrite size_upd. split; auto. intros j Hj'. rewrite get_upd by lia.
    rewrite !Hdj by lia.
    destruct (Z.eqb_spec k j) as [->|].
    + destruct (Z.ltb_spec j j), (Z.ltb_spec j (j + 1)); try lia. reflexivity.
    + destruct (Z.ltb_spec j k), (Z.ltb_spec j (k + 1)); try lia; reflexivity.
  - intros d [Hsd Hdj]. apply HQ; auto. intros j Hj'. rewrite Hdj by lia.
    destruct (Z.ltb_spec j (Z.max (I + 1) (zn + 1))); [reflexivity|lia].
Qed.

(** ** The loop over i *)
Definition inner_inv (I_prev I i : Z) (s : inner) : Prop :=
  pmf_ok (in_pmf s) /\ FI (in_fft s) /\
  size (get_src (in_mini s)) = jump /\ size (get_dest (in_mini s)) = jump /\
  (forall j, i <= j <= I -> gx (get_src (in_mini s)) (j - I_prev - 1) = Fin (W (Z.to_nat i) (Z.to_nat j))) /\
  size (in_dest s) = zn + 1 /\
  (forall j, I < j <= zn -> gx (in_dest s) j = Fin (T (Z.to_nat i) (Z.to_nat I) (Z.to_nat j))) /\
  in_prev s = Fin (prevloc (Z.to_nat i)).

Lemma get_src_flip2 (d : dbuf XN) md ms : get_src (flip (set_src (set_dest d md) ms)) = md.
Proof. unfold get_src, flip, set_src, set_dest. destruct (buf0_is_src d); reflexivity. Qed.
Lemma get_dest_flip2 (d : dbuf XN) md ms : get_dest (flip (set_src (set_dest d md) ms)) = ms.
Proof. unfold get_dest, flip, set_src, set_dest. destruct (buf0_is_src d); reflexivity. Qed.

Lemma inner_ok I_prev I i s : -1 <= I_prev -> I < zn -> I - I_prev <= jump -> I_prev + 1 <= i < I ->
  inner_inv I_prev I i s -> WP (inner_step E zn (Fin (rn n)) BX I_prev I i s) (inner_inv I_prev I (i + 1)).
Proof.
  intros HIp HI Hw Hi (Hpm & Hfi & Hss & Hsd & Hsrc & Hsz & Hdst & Hprev). unfold inner_step.
  set (i' := Z.to_nat i). set (I' := Z.to_nat I).
  apply wp_bind, wp_rd_B; [lia|]. fold i'.
  rewrite Hprev. change (@n_mul XN (Fin (rn n)) (@n_sub XN (Fin (Bf i')) (Fin (prevloc i')))) with (Fin (rn n * (Bf i' - prevloc i'))).
  apply wp_bind, wp_compute_array with (mk := zn + 1); auto; try lia.
  { apply lam_prev. lia. }
  intros _ pg Hpg Hpois.
  apply wp_bind, wp_addr; [lia|]. apply wp_bind, wp_addr; [lia|].
  apply wp_bind.
  eapply wp_fft_convolve with (m := zn + 1) (fn := pois (rn n * (Bf i' - prevloc i'))) (gn := fun m => W i' (i' + m)); auto; try lia.
  { intros _. unfold get_array. destruct Hpg as (_ & _ & _ & Hpsz). lia. }
  { intros k Hk. rewrite Z.add_0_l. apply Hpois. lia. }
  { intros k Hk. replace (i - I_prev - 1 + k) with ((i + k) - I_prev - 1) by lia.
    rewrite Hsrc by lia. fold i'. do 2 f_equal. lia. }
  intros f' md Hf' Hsmd Hmd. cbn [fst snd].
  assert (Hmdv : forall j, i <= j <= I -> gx md (j - I_prev - 1) = Fin (pre i' (Z.to_nat j))).
  { intros j Hjr. rewrite Hmd by lia.
    destruct (Z.leb_spec (i - I_prev - 1) (j - I_prev - 1)), (Z.ltb_spec (j - I_prev - 1) (i - I_prev - 1 + (I - i + 1)));
      cbn [andb]; try lia. f_equal. unfold pre. rewrite conv_shift by (apply W_low). f_equal. lia. }
  apply wp_bind, wp_rdx; [lia|]. rewrite Hmdv by lia. fold i'.
  apply wp_bind, wp_rd_B; [lia|]. fold I'. cbv zeta.
  change (@n_mul XN (Fin (rn n)) (@n_sub XN (Fin (Bf I')) (Fin (Bf i')))) with (Fin (rn n * (Bf I' - Bf i'))).
  apply wp_bind. eapply wp_subtract with (f := fun j => T i' I' (Z.to_nat j)); auto; try lia.
  { apply lam_B. lia. }
  intros dest Hsdest Hdest.
  apply wp_bind, wp_wr; [lia|]. apply wp_bind, wp_wr; [lia|]. apply wp_ok.
  unfold inner_inv. cbn [in_pmf in_fft in_mini in_dest in_prev].
  rewrite get_src_flip2, get_dest_flip2, !size_upd.
  assert (Hi1 : Z.to_nat (i + 1) = S i') by lia. rewrite Hi1.
  split; [exact Hpg|]. split; [exact Hf'|]. split; [lia|]. split; [lia|]. split; [|split; [exact Hsdest|split]].
  - intros j Hjr. rewrite get_upd by lia. destruct (Z.eqb_spec (i - I_prev - 1) (j - I_prev - 1)); [lia|].
    rewrite Hmdv by lia. rewrite W_S. destruct (Nat.ltb_spec i' (Z.to_nat j)); [reflexivity|lia].
  - intros j Hjr. rewrite Hdest by lia. rewrite T_step by lia. f_equal. f_equal. f_equal. f_equal. lia.
  - reflexivity.
Qed.

(** ** The while loop *)
Definition outer_inv (s : outer) : Prop :=
  -1 <= o_I_prev s < zn /\ FI (o_fft s) /\ pmf_ok (o_pmf s) /\
  size (get_src (o_bufs s)) = zn + 1 /\ size (get_dest (o_bufs s)) = zn + 1 /\
  size (get_src (o_mini s)) = jump /\ size (get_dest (o_mini s)) = jump /\
  size (o_tmp s) = zn + 1 /\
  o_prev_loc s = Fin (prevloc (Z.to_nat (o_I_prev s + 1))) /\
  (forall j, o_I_prev s < j <= zn ->
     gx (get_src (o_bufs s)) j = Fin (W (Z.to_nat (o_I_prev s + 1)) (Z.to_nat j))).

Lemma outer_ok s : outer_inv s -> o_I_prev s < o_I s < zn -> o_I s - o_I_prev s <= jump ->
  WP (outer_step E zn (Fin (rn n)) BX s)
     (fun s' => outer_inv s' /\ o_I s' = o_I s /\ o_I_prev s' = o_I s).
Proof.
  intros (HIp & Hfi & Hpm & Hss & Hsd & Hms & Hmd & Hst & Hprev & Hsrc) HI Hw. unfold outer_step.
  set (Ip := o_I_prev s) in *. set (I := o_I s) in *. cbv zeta.
  set (P := Z.to_nat (Ip + 1)) in *. set (I' := Z.to_nat I).
  apply wp_bind, wp_rd_B; [lia|]. fold I'. rewrite Hprev.
  change (@n_mul XN (Fin (rn n)) (@n_sub XN (Fin (Bf I')) (Fin (prevloc P)))) with (Fin (rn n * (Bf I' - prevloc P))).
  apply wp_bind, wp_compute_array with (mk := zn + 1); auto; try lia.
  { apply lam_prev. lia. }
  intros _ pg Hpg Hpois.
  apply wp_bind, wp_addr; [lia|].
  apply wp_bind.
  eapply wp_fft_convolve with (m := zn + 1) (fn := pois (rn n * (Bf I' - prevloc P))) (gn := fun m => W P (P + m)); auto; try lia.
  { intros _. unfold get_array. destruct Hpg as (_ & _ & _ & Hpsz). lia. }
  { intros k Hk. rewrite Z.add_0_l. apply Hpois. lia. }
  { intros k Hk. rewrite Hsrc by lia. do 2 f_equal. lia. }
  intros f1 tmp Hf1 Hstmp Htmp. cbn [fst snd].
  apply wp_bind, wp_addr; [lia|]. apply wp_bind, wp_addr; [lia|].
  apply wp_bind, wp_fill with (d := Fin 0 : car XN); [lia|]. intros d1 Hsd1 Hd1.
  apply wp_bind, wp_blit with (d := Fin 0 : car XN); [lia|]. intros d2 Hsd2 Hd2.
  apply wp_bind, wp_addr; [lia|]. apply wp_bind, wp_addr; [lia|].
  apply wp_bind, wp_blit with (d := Fin 0 : car XN); [lia|]. intros mini Hsmini Hmini.
  apply wp_bind. apply wp_for with (P := inner_inv Ip I).
  - unfold inner_inv. cbn [in_pmf in_fft in_mini in_dest in_prev].
    rewrite get_src_set_src, get_dest_set_src.
    split; [exact Hpg|]. split; [exact Hf1|]. split; [lia|]. split; [lia|]. fold P.
    split; [|split; [lia|split; [|reflexivity]]].
    + intros j Hjr. rewrite Hmini by lia.
      destruct (Z.leb_spec 0 (j - Ip - 1)), (Z.ltb_spec (j - Ip - 1) (0 + (I - Ip))); cbn [andb]; try lia.
      replace (Ip + 1 + (j - Ip - 1 - 0)) with j by lia. apply Hsrc. lia.
    + intros j Hjr. rewrite Hd2 by lia.
      destruct (Z.leb_spec (I + 1) j), (Z.ltb_spec j (I + 1 + (zn - I))); cbn [andb]; try lia.
      rewrite Htmp by lia.
      destruct (Z.leb_spec 0 (I - Ip + (j - (I + 1)))), (Z.ltb_spec (I - Ip + (j - (I + 1))) (0 + (zn - Ip))); cbn [andb]; try lia.
      rewrite conv_shift by (apply W_low). unfold T, NewMath.T. fold I'. do 2 f_equal. lia.
  - intros i st Hi Hinv. apply inner_ok; auto; lia.
  - intros st Hinv. replace (Z.max (Ip + 1) I) with I in Hinv by lia.
    destruct Hinv as (Hpm' & Hfi' & Hss' & Hsd' & _ & Hdsz & Hdst & _).
    apply wp_ok. split; [|split; reflexivity].
    unfold outer_inv. cbn [o_bufs o_mini o_fft o_pmf o_tmp o_prev_loc o_I_prev o_I].
    rewrite get_src_flip_set_dest, get_dest_flip_set_dest.
    assert (HI1 : Z.to_nat (I + 1) = S I') by lia. rewrite HI1.
    repeat (split; [first [assumption|lia|apply Hfi'|apply Hpm'|reflexivity]|]).
    intros j Hjr. rewrite Hdst by lia. fold I'. rewrite T_last, W_S.
    destruct (Nat.ltb_spec I' (Z.to_nat j)); [reflexivity|lia].
Qed.

Lemma outer_loop_ok fuel : forall s, outer_inv s -> o_I_prev s < o_I s < zn -> o_I s - o_I_prev s <= jump ->
  (Z.to_nat (zn - 1 - o_I s) < fuel)%nat ->
  WP (outer_loop E fuel zn zn jump (Fin (rn n)) BX s) (fun s' => outer_inv s' /\ o_I_prev s' = zn - 1).
Proof.
  induction fuel as [|fuel IH]; intros s Hs HI Hw Hfuel; [lia|]. cbn [outer_loop].
  apply wp_bind. eapply wp_mono; [apply outer_ok; auto|]. cbv beta. intros s' (Hs' & HI' & HIp').
  destruct (Z.eqb_spec (o_I s') (zn - 1)) as [He|Hne].
  - apply wp_ok. split; auto. lia.
  - apply IH; cbn [o_I o_I_prev]; try lia. exact Hs'.
Qed.

(** ** The whole function *)
Lemma new_n2_ok (Q : list (car XN) -> Prop) : (0 < n)%nat -> (asserts E = true -> jump <= zn) ->
  (forall probs, size probs = zn + 1 ->
     gx probs zn = Fin (conv (pois (rn n * (1 - prevloc n))) (W n) n) -> Q probs) ->
  WP (poisson_B_noncrossing_probability_n2 E (Z.to_nat (zn + 1)) zn (Fin (rn n)) BX jump) Q.
Proof.
  intros Hn Ha HQ. unfold poisson_B_noncrossing_probability_n2.
  apply wp_bind. destruct (asserts E) eqn:HE.
  2: apply wp_ok.
  1: apply wp_cassert_true; [apply Z.leb_le; auto|].
  all: assert (Hsz0 : @size (car XN) (get_src (dbuf_make (zn + 1) n0)) = zn + 1)
    by (unfold get_src, dbuf_make; simpl; rewrite size_vec; lia).
  all: apply wp_bind, wp_wr; [lia|]; cbv zeta.
  all: apply wp_bind, wp_pmfgen_make; [lia|]; intros g Hg; rewrite size_BX.
  all: apply wp_bind; eapply wp_mono; [apply outer_loop_ok; cbn [o_I_prev o_I]; try lia|].
  1, 3: unfold outer_inv; cbn [o_bufs o_mini o_fft o_pmf o_tmp o_prev_loc o_I_prev o_I];
    rewrite get_src_set_src, get_dest_set_src;
    split; [lia|]; split; [apply fft_inv_make; lia|]; split; [exact Hg|];
    split; [rewrite size_upd; exact Hsz0|]; split; [exact Hsz0|];
    split; [unfold get_src, dbuf_make; simpl; rewrite size_vec; lia|];
    split; [unfold get_dest, dbuf_make; simpl; rewrite size_vec; lia|];
    split; [apply size_alloc_doubles; lia|]; split; [reflexivity|];
    intros j Hjr; rewrite get_upd by lia; simpl (Z.to_nat (-1 + 1)); simpl NewMath.W; unfold delta;
    destruct (Z.eqb_spec 0 j), (Nat.eqb_spec (Z.to_nat j) 0); try lia; [reflexivity|];
    unfold get_src, dbuf_make; cbn [buf0_is_src buf0]; rewrite get_vec by lia; reflexivity.
  all: cbv beta; intros s ((HIp & Hfi & Hpm & Hss & Hsd & Hms & Hmd & Hst & Hprev & Hsrc) & Hlast);
    rewrite Hlast in *; replace (Z.to_nat (zn - 1 + 1)) with n in * by lia; rewrite Hprev;
    change (@n_mul XN (Fin (rn n)) (@n_sub XN n1 (Fin (prevloc n)))) with (Fin (rn n * (1 - prevloc n)));
    apply wp_bind, wp_compute_array with (mk := zn + 1); auto; try lia;
    [ apply Rmult_le_pos; [apply rn_pos|];
      assert (prevloc n <= 1)%R; [|lra];
      destruct n as [|k] eqn:Ek; [lia|]; simpl; unfold Bf; apply valid_nth; auto; lia | ];
    intros _ pg Hpg Hpois;
    apply wp_bind, wp_addr; [lia|]; apply wp_bind, wp_addr; [lia|];
    apply wp_bind;
    eapply wp_fft_convolve with (m := zn + 1) (fn := pois (rn n * (1 - prevloc n))) (gn := fun m => W n (n + m)); auto; try lia;
    [ intros _; unfold get_array; destruct Hpg as (_ & _ & _ & Hpsz); lia
    | intros k Hk; rewrite Z.add_0_l; apply Hpois; lia
    | intros k Hk; rewrite Hsrc by lia; do 2 f_equal; lia | ];
    intros f1 d1 Hf1 Hsd1 Hd1; cbn [fst snd];
    apply wp_fill with (d := Fin 0 : car XN); [lia|]; intros d2 Hsd2 Hd2; apply HQ; [lia|];
    rewrite Hd2, Hd1 by lia;
    destruct (Z.leb_spec 0 zn), (Z.ltb_spec zn zn), (Z.leb_spec zn zn), (Z.ltb_spec zn (zn + (zn - zn + 1))); try lia;
    cbn [andb]; f_equal; rewrite conv_shift by (apply W_low); f_equal; lia.
Qed.
End New.
