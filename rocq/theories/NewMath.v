(** * NewMath: the recursion behind ecdf1_new, as pure mathematics. *)
From Flocq Require Import Core.Raux.
From Coq Require Import ZArith Reals List Bool Lia Lra Permutation Sorted Factorial.
From Verif Require Import Base Num RSum Spec SpecFacts Cells Events XEcdf2.
Import List.
Local Open Scope R_scope.

Lemma conv_shift f g i k : (forall j, (j < i)%nat -> g j = 0) ->
  conv f (fun m => g (i + m)%nat) k = conv f g (i + k).
Proof.
  intros Hg. rewrite (conv_comm f g), (conv_comm f). unfold conv.
  replace (S (i + k)) with (i + S k)%nat by lia. rewrite rsum_add.
  rewrite (rsum_0 i) by (intros m Hm; rewrite Hg by lia; ring). rewrite Rplus_0_l.
  apply rsum_ext. intros m Hm. replace (i + k - (i + m))%nat with (k - m)%nat by lia. reflexivity.
Qed.

Lemma conv_low f g i N : (forall j, (j < i)%nat -> g j = 0) -> (N < i)%nat -> conv f g N = 0.
Proof. intros Hg HN. unfold conv. apply rsum_0. intros k Hk. rewrite Hg by lia. ring. Qed.

Section NewMath.
Variables (n : nat) (B : list R).
Definition Bf (i : nat) : R := nth i B 0.
Definition prevloc (i : nat) : R := match i with O => 0 | S i' => Bf i' end.

(** mass of the Poisson process that has not crossed the first i steps *)
Fixpoint W (i : nat) : nat -> R :=
  match i with
  | O => delta 0
  | S i' => fun j => if (i' <? j)%nat then conv (pois (rn n * (Bf i' - prevloc i'))) (W i') j else 0
  end.
Definition pre (i : nat) : nat -> R := conv (pois (rn n * (Bf i - prevloc i))) (W i).
Definition T (i I : nat) : nat -> R := conv (pois (rn n * (Bf I - prevloc i))) (W i).

Lemma W_S i j : W (S i) j = if (i <? j)%nat then pre i j else 0.
Proof. reflexivity. Qed.
Lemma W_low i j : (j < i)%nat -> W i j = 0.
Proof. destruct i as [|i]; intros H; [lia|]. rewrite W_S. destruct (Nat.ltb_spec i j); auto; lia. Qed.
Lemma pre_low i j : (j < i)%nat -> pre i j = 0.
Proof. intros H. apply conv_low with (i := i); auto. apply W_low. Qed.

Lemma pre_split i N : pre i N = W (S i) N + pre i i * delta i N.
Proof.
  rewrite W_S. unfold delta. destruct (Nat.ltb_spec i N), (Nat.eqb_spec N i); subst; try lia; try ring.
  rewrite pre_low by lia. ring.
Qed.

Lemma T_step i I j : (i <= j)%nat -> T (S i) I j = T i I j - pre i i * pois (rn n * (Bf I - Bf i)) (j - i).
Proof.
  intros Hj. unfold T at 2.
  replace (rn n * (Bf I - prevloc i)) with (rn n * (Bf I - Bf i) + rn n * (Bf i - prevloc i)) by ring.
  rewrite (conv_ext _ (conv (pois (rn n * (Bf I - Bf i))) (pois (rn n * (Bf i - prevloc i)))) (W i) (W i) j);
    [|intros k Hk; symmetry; apply conv_pois|reflexivity].
  rewrite conv_assoc. change (conv (pois (rn n * (Bf i - prevloc i))) (W i)) with (pre i).
  rewrite (conv_comm _ (pre i)).
  rewrite (conv_ext (pre i) (fun N => W (S i) N + pre i i * delta i N) (pois (rn n * (Bf I - Bf i)))
    (pois (rn n * (Bf I - Bf i))) j); [|intros; apply pre_split|reflexivity].
  rewrite conv_plus_l, conv_scal_l, conv_delta.
  destruct (Nat.leb_spec i j); [|lia]. unfold T. simpl prevloc. rewrite conv_comm. ring.
Qed.

Lemma T_last I j : T I I j = pre I j.
Proof. reflexivity. Qed.

(** ** The masses and D *)
Definition Bsteps : list (R * bound_tag) := map (fun x => (x, BSTEP)) B.

Lemma W_D i : (i <= length B)%nat -> length B = n ->
  exists u : nat -> R,
    (forall o, (o <= n)%nat -> W i o = scale n (prevloc i) o * u o) /\
    rsum (S n) (fun o => u o * D o n i (prevloc i) (skipn i Bsteps ++ [(1, END)]) (n - o)) =
      D 0 n 0 0 (Bsteps ++ [(1, END)]) n.
Proof.
  intros Hi HB. induction i as [|i IH].
  - exists (delta 0). split.
    + intros o Ho. simpl. unfold delta, scale. destruct (Nat.eqb_spec o 0) as [->|]; [|ring].
      simpl. rewrite Rmult_0_r, Ropp_0, exp_0. ring.
    + rewrite (rsum_single (S n) 0); [|lia|].
      * simpl skipn. rewrite Nat.sub_0_r. unfold delta. simpl Nat.eqb. cbv iota. simpl prevloc. ring.
      * intros o Ho Hne. unfold delta. destruct (Nat.eqb_spec o 0); [lia|ring].
  - destruct IH as (u & Hu & Hs); [lia|].
    assert (Hsk : skipn i Bsteps = (Bf i, BSTEP) :: skipn (S i) Bsteps).
    { unfold Bsteps, Bf. clear - Hi. revert i Hi. induction B as [|x l IH]; intros [|i] Hi; simpl in *; try lia; auto.
      rewrite IH by lia. reflexivity. }
    rewrite Hsk in Hs. cbn [app] in Hs. rewrite u_next_sum in Hs. cbn [next_b next_B] in Hs.
    exists (u_next (Bf i) (prevloc i) BSTEP n i u). split; [|exact Hs].
    intros o Ho. rewrite W_S. unfold u_next. cbn [next_B].
    destruct (Nat.ltb_spec i o), (Nat.leb_spec (S i) o), (Nat.leb_spec o n); cbn [andb]; try lia; try ring.
    unfold pre, conv. rewrite <- rsum_scal. apply rsum_ext. intros k Hk.
    rewrite Hu by lia. simpl (prevloc (S i)).
    rewrite <- !Rmult_assoc. rewrite scale_step by lia. ring.
Qed.

Lemma final_mass : length B = n ->
  conv (pois (rn n * (1 - prevloc n))) (W n) n = scale n 1 n * D 0 n 0 0 (Bsteps ++ [(1, END)]) n.
Proof.
  intros HB. destruct (W_D n) as (u & Hu & Hs); [lia|exact HB|].
  assert (Hsk : skipn n Bsteps = []) by (apply skipn_all2; unfold Bsteps; rewrite map_length; lia).
  rewrite Hsk in Hs. cbn [app] in Hs. rewrite u_next_sum in Hs. cbn [next_b next_B] in Hs.
  rewrite <- Hs. rewrite (rsum_single (S n) n); [|lia|].
  - unfold u_next. cbn [next_B]. rewrite !Nat.leb_refl, Nat.sub_diag. cbn [andb]. simpl (D n n n 1 [] 0).
    rewrite Rmult_1_r. unfold conv. rewrite <- rsum_scal. apply rsum_ext. intros k Hk.
    rewrite Hu by lia. rewrite <- !Rmult_assoc. rewrite scale_step by lia. ring.
  - intros o Ho Hne. unfold u_next. cbn [next_B].
    destruct (Nat.leb_spec n o), (Nat.leb_spec o n); cbn [andb]; try lia; ring.
Qed.

(** ** ... and the probability *)
Lemma D_zeros k : forall beta steps N,
  D 0 beta 0 0 (map (fun x => (x, bSTEP)) (repeat 0 k) ++ steps) N = D 0 (beta + k) 0 0 steps N.
Proof.
  induction k as [|k IH]; intros beta steps N.
  - simpl. rewrite Nat.add_0_r. reflexivity.
  - cbn [repeat map app D next_b next_B].
    rewrite (rsum_single (S N) 0); [|lia|].
    + replace (0 - 0) with 0 by ring. rewrite mono_zero. simpl Nat.eqb. cbv iota. rewrite Rmult_1_l.
      simpl Nat.leb. simpl andb. cbv iota. rewrite Nat.sub_0_r, IH. f_equal; lia.
    + intros j Hj Hne. replace (0 - 0) with 0 by ring. rewrite mono_zero.
      destruct (Nat.eqb_spec j 0); [lia|ring].
Qed.

Lemma valid_repeat c k : 0 <= c <= 1 -> valid_boundary (repeat c k).
Proof.
  intros Hc. split.
  - induction k as [|k IH]; simpl; constructor; auto. destruct k; simpl; constructor; lra.
  - apply Forall_forall. intros x Hx. apply repeat_spec in Hx. subst; exact Hc.
Qed.

Lemma arranged_zeros : valid_boundary B ->
  arranged (repeat 0 (length B)) B (map (fun x => (x, bSTEP)) (repeat 0 (length B)) ++ Bsteps).
Proof.
  intros [HS HF]. split; [apply Permutation_refl|]. unfold loc_sorted. apply Sorted_strong in HS.
  induction (length B) as [|k IH]; cbn [repeat map app].
  - unfold Bsteps. clear HF. induction HS as [|x l HS IH Hx]; [constructor|]. cbn [map]. constructor; auto.
    apply Forall_map. exact Hx.
  - constructor; auto. apply Forall_app. split.
    + apply Forall_map, Forall_forall. intros x Hx. apply repeat_spec in Hx. subst; simpl; lra.
    + unfold Bsteps. apply Forall_map. eapply Forall_impl; [|exact HF]. simpl. intros; lra.
Qed.

Lemma Forall2_repeat_l (P : R -> R -> Prop) c l : Forall (fun x => P c x) l <-> Forall2 P (repeat c (length l)) l.
Proof.
  split.
  - induction 1; simpl; constructor; auto.
  - induction l as [|x l IH]; simpl; intros H; [constructor|inversion H; subst; constructor; auto].
Qed.
Lemma Forall2_repeat_r (P : R -> R -> Prop) c l : Forall (fun x => P x c) l <-> Forall2 P l (repeat c (length l)).
Proof.
  split.
  - induction 1; simpl; constructor; auto.
  - induction l as [|x l IH]; simpl; intros H; [constructor|inversion H; subst; constructor; auto].
Qed.

Lemma one_sided_B l : length l = length B -> Forall (fun x => 0 <= x <= 1) l ->
  (noncrossing (repeat 0 (length B)) B l <-> noncrossing_B B l).
Proof.
  intros Hl HF. split.
  - intros (o & H1 & H2 & _ & H3). exists o; auto.
  - intros (o & H1 & H2 & H3). exists o; repeat split; auto.
    rewrite <- Hl, (Permutation_length H1). apply Forall2_repeat_l.
    eapply Permutation_Forall in HF; [|exact H1]. eapply Forall_impl; [|exact HF]. simpl; intros; lra.
Qed.
Lemma one_sided_b (b : list R) l : length l = length b -> Forall (fun x => 0 <= x <= 1) l ->
  (noncrossing b (repeat 1 (length b)) l <-> noncrossing_b b l).
Proof.
  intros Hl HF. split.
  - intros (o & H1 & H2 & H3 & _). exists o; auto.
  - intros (o & H1 & H2 & H3). exists o; repeat split; auto.
    rewrite <- Hl, (Permutation_length H1). apply Forall2_repeat_r.
    eapply Permutation_Forall in HF; [|exact H1]. eapply Forall_impl; [|exact HF]. simpl; intros; lra.
Qed.

Lemma prob_is_D_B : valid_boundary B -> length B = n ->
  is_prob n (noncrossing_B B) (INR (fact n) * D 0 n 0 0 (Bsteps ++ [(1, END)]) n).
Proof.
  intros HV Hn.
  pose proof (prob_is_D (repeat 0 (length B)) B _ (valid_repeat 0 (length B) ltac:(lra)) HV
     (repeat_length _ _) (arranged_zeros HV)) as [_ HP].
  rewrite repeat_length, <- app_assoc, D_zeros in HP. rewrite Hn in HP. simpl in HP.
  eapply is_prob_ext; [|exact HP].
  intros l Hl HF. rewrite <- Hn. apply one_sided_B; auto. lia.
Qed.
End NewMath.
