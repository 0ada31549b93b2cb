(** * ProbFacts: extreme values of the non-crossing probability. *)
From Coquelicot Require Import Coquelicot.
From Flocq Require Import Core.Raux.
From Coq Require Import Reals List Permutation Sorted Lra Lia Bool.
From Verif Require Import Spec SpecFacts Events NewMath.
Import ListNotations.
Local Open Scope R_scope.

(** a sample contains a given point with probability 0 *)
Lemma prob_point c n : is_prob n (fun l => In c l) 0.
Proof.
  induction n as [|n IH]; cbn [is_prob].
  - right; split; auto.
  - exists (fun x => if Req_EM_T x c then 1 else 0). split.
    + intros x Hx. destruct (Req_EM_T x c) as [->|Hne].
      * apply is_prob_full. intros l _ _. left; reflexivity.
      * apply is_prob_ext with (A := fun l => In c l); auto. intros l _ _. simpl. intuition.
    + destruct (Rle_or_lt 0 c) as [H0|H0]; [destruct (Rle_or_lt c 1) as [H1|H1]|].
      * apply (is_RInt_Chasles_R _ 0 c 1 0 0); [| |ring].
        -- eapply is_RInt_ext; [|apply (is_RInt_const_eq 0); ring].
           intros x Hx. rewrite Rmin_left, Rmax_right in Hx by lra. simpl. destruct (Req_EM_T x c); lra.
        -- eapply is_RInt_ext; [|apply (is_RInt_const_eq 0); ring].
           intros x Hx. rewrite Rmin_left, Rmax_right in Hx by lra. simpl. destruct (Req_EM_T x c); lra.
      * eapply is_RInt_ext; [|apply (is_RInt_const_eq 0); ring].
        intros x Hx. rewrite Rmin_left, Rmax_right in Hx by lra. simpl. destruct (Req_EM_T x c); lra.
      * eapply is_RInt_ext; [|apply (is_RInt_const_eq 0); ring].
        intros x Hx. rewrite Rmin_left, Rmax_right in Hx by lra. simpl. destruct (Req_EM_T x c); lra.
Qed.

Lemma prob_touching b B p i : (i < length b)%nat -> nth i B 0 <= nth i b 0 ->
  is_noncrossing_probability b B p -> p = 0.
Proof.
  intros Hi Hle [Hlen Hp]. pose proof (is_prob_range _ _ _ Hp) as [H0 _].
  enough (p <= 0) by lra.
  eapply is_prob_mono; [|exact Hp|apply (prob_point (nth i b 0))].
  intros l Hl HF (o & HP & HS & Hb & HB). cbv beta.
  apply (Permutation_in _ (Permutation_sym HP)).
  apply Forall2_nth in Hb. destruct Hb as [Hbl Hb]. apply Forall2_nth in HB. destruct HB as [HBl HB].
  specialize (Hb i Hi). specialize (HB i ltac:(lia)).
  replace (nth i b 0) with (nth i o 0) by lra. apply nth_In. lia.
Qed.

Lemma prob_trivial n : is_noncrossing_probability (repeat 0 n) (repeat 1 n) 1.
Proof.
  split; [rewrite !repeat_length; reflexivity|]. rewrite repeat_length. apply is_prob_full.
  intros l Hl HF. subst n. exists (rsort l).
  pose proof (rsort_perm l) as HP. pose proof (Permutation_length HP) as HL.
  eapply Permutation_Forall in HF; [|exact HP].
  split; [exact HP|]. split; [apply StronglySorted_Sorted, rsort_sorted|]. rewrite HL. split.
  - apply Forall2_repeat_l. eapply Forall_impl; [|exact HF]. simpl; intros; lra.
  - apply Forall2_repeat_r. eapply Forall_impl; [|exact HF]. simpl; intros; lra.
Qed.

(** boxes *)
Lemma prob_box (c d : list R) : length c = length d ->
  Forall (fun x => 0 <= x <= 1) c -> Forall (fun x => 0 <= x <= 1) d -> Forall2 Rlt c d ->
  exists p, 0 < p /\ is_prob (length c) (fun l => Forall2 Rle c l /\ Forall2 Rle l d) p.
Proof.
  revert d. induction c as [|x c IH]; intros [|y d] Hl Hc Hd HF; try discriminate.
  - exists 1. split; [lra|]. left. repeat split; constructor.
  - inversion Hc; inversion Hd; inversion HF; subst. simpl in Hl.
    destruct (IH d) as (p & Hp & HP); auto.
    exists ((y - x) * p). split; [nra|]. cbn [length is_prob].
    exists (fun t => if Rle_dec x t then if Rle_dec t y then p else 0 else 0). split.
    + intros t Ht. destruct (Rle_dec x t) as [H1'|H1']; [destruct (Rle_dec t y) as [H2'|H2']|].
      * eapply is_prob_ext; [|exact HP]. intros l _ _. simpl. split.
        -- intros [Ha Hb]. split; constructor; auto.
        -- intros [Ha Hb]. inversion Ha; inversion Hb; subst; auto.
      * apply is_prob_empty. intros l _ _ [_ Hb]. inversion Hb; subst; auto.
      * apply is_prob_empty. intros l _ _ [Ha _]. inversion Ha; subst; auto.
    + apply (is_RInt_Chasles_R _ 0 x 1 0 ((y - x) * p)); [| |ring].
      * eapply is_RInt_ext; [|apply (is_RInt_const_eq 0); ring].
        intros t Ht. rewrite Rmin_left, Rmax_right in Ht by lra. simpl. destruct (Rle_dec x t); lra.
      * apply (is_RInt_Chasles_R _ x y 1 ((y - x) * p) 0); [| |ring].
        -- eapply is_RInt_ext; [|apply (is_RInt_const_eq p); ring].
           intros t Ht. rewrite Rmin_left, Rmax_right in Ht by lra. simpl.
           destruct (Rle_dec x t); [|lra]. destruct (Rle_dec t y); lra.
        -- eapply is_RInt_ext; [|apply (is_RInt_const_eq 0); ring].
           intros t Ht. rewrite Rmin_left, Rmax_right in Ht by lra. simpl.
           destruct (Rle_dec x t); [|lra]. destruct (Rle_dec t y); lra.
Qed.

(** strictly separated boxes inside the band *)
Lemma choose_boxes (b : list R) : forall (B : list R) lo, Sorted Rle B -> HdRel Rlt lo B -> 0 <= lo ->
  Forall (fun x => 0 <= x <= 1) b -> Forall (fun x => 0 <= x <= 1) B -> Forall2 Rlt b B ->
  exists c d, length c = length b /\ length d = length b /\
    Forall (fun x => 0 <= x <= 1) c /\ Forall (fun x => 0 <= x <= 1) d /\
    Forall2 Rlt c d /\ Forall2 Rle b c /\ Forall2 Rle d B /\
    Forall (fun x => lo <= x) c /\
    (forall l, Forall2 Rle c l -> Forall2 Rle l d -> StronglySorted Rle l).
Proof.
  induction b as [|x b IH]; intros B lo HS Hlo H0 Hb HB HF; inversion HF; subst.
  - exists [], []. repeat split; auto. intros l Hl. inversion Hl; subst. constructor.
  - rename l' into B'. rename y into y0. apply Forall_inv_tail in HB as HB'. apply Forall_inv in HB as Hy.
    apply Forall_inv_tail in Hb as Hb'. apply Forall_inv in Hb as Hx.
    apply Sorted_inv in HS as [HS' Hhd]. apply HdRel_inv in Hlo.
    set (m := Rmax x lo). assert (Hm1 : x <= m) by apply Rmax_l. assert (Hm2 : lo <= m) by apply Rmax_r.
    assert (Hm3 : m < y0) by (apply Rmax_lub_lt; auto).
    set (d0 := (m + y0) / 2).
    assert (Hd : m < d0 < y0) by (unfold d0; lra).
    destruct (IH B' d0) as (c & d & Lc & Ld & Fc & Fd & Fcd & Fbc & FdB & Flo & Fs); auto.
    { destruct Hhd; constructor. lra. } { lra. }
    exists (m :: c), (d0 :: d). simpl. repeat split; auto; try (constructor; auto; lra).
    + constructor; auto. eapply Forall_impl; [|exact Flo]. simpl; intros; lra.
    + intros l Hl1 Hl2. destruct l as [|t l]; [constructor|].
      inversion_clear Hl1 as [|? ? ? ? Ht1 Hc1]. inversion_clear Hl2 as [|? ? ? ? Ht2 Hc2].
      constructor; [apply Fs; auto|].
      apply Forall_forall. intros z Hz. apply In_nth with (d := 0) in Hz. destruct Hz as (k & Hk & <-).
      apply Forall2_nth in Hc1. destruct Hc1 as [HL HN]. rewrite Forall_forall in Flo.
      assert (Hin : In (nth k c 0) c) by (apply nth_In; lia). apply Flo in Hin.
      specialize (HN k ltac:(lia)). lra.
Qed.

Lemma prob_positive b B p : valid_boundary b -> valid_boundary B -> Forall2 Rlt b B ->
  is_noncrossing_probability b B p -> 0 < p.
Proof.
  intros [Sb Fb] [SB FB] HF [Hlen Hp].
  destruct (choose_boxes b B 0) as (c & d & Lc & Ld & Fc & Fd & Fcd & Fbc & FdB & _ & Fs); auto; try lra.
  { destruct HF as [|x y b' B' Hxy]; constructor. inversion Fb; subst. lra. }
  destruct (prob_box c d) as (q & Hq & HQ); auto; [lia|].
  rewrite Lc in HQ. enough (q <= p) by lra.
  eapply is_prob_mono; [|exact HQ|exact Hp].
  intros l Hl _ [H1 H2]. exists l. split; [apply Permutation_refl|].
  split; [apply StronglySorted_Sorted; auto|].
  apply Forall2_nth in Fbc, FdB, H1, H2. destruct Fbc as [? Fbc], FdB as [? FdB], H1 as [? H1], H2 as [? H2].
  split; apply Forall2_nth; split; try lia; intros i Hi.
  - specialize (Fbc i ltac:(lia)). specialize (H1 i ltac:(lia)). lra.
  - specialize (FdB i ltac:(lia)). specialize (H2 i ltac:(lia)). lra.
Qed.

Lemma prob_widen b B b' B' p p' : Forall2 Rle b' b -> Forall2 Rle B B' ->
  is_noncrossing_probability b B p -> is_noncrossing_probability b' B' p' -> p <= p'.
Proof.
  intros Hb HB [L1 H1] [L2 H2].
  apply Forall2_nth in Hb, HB. destruct Hb as [Lb Hb], HB as [LB HB]. rewrite Lb in H2.
  eapply is_prob_mono; [|exact H1|exact H2].
  intros l Hl _ (o & HP & HS & F1 & F2). exists o. split; [exact HP|]. split; [exact HS|].
  apply Forall2_nth in F1, F2. destruct F1 as [? F1], F2 as [? F2].
  split; apply Forall2_nth; split; try lia; intros i Hi.
  - specialize (Hb i ltac:(lia)). specialize (F1 i ltac:(lia)). lra.
  - specialize (HB i ltac:(lia)). specialize (F2 i ltac:(lia)). lra.
Qed.
