(** * Reflect: probabilities are invariant under x -> 1 - x. *)
From Coquelicot Require Import Coquelicot.
From Coq Require Import Reals List Permutation Sorted Lra Lia.
From Verif Require Import Spec SpecFacts Events.
Import ListNotations.
Local Open Scope R_scope.

Definition flip1 (x : R) : R := 1 - x.

Lemma flip1_inv l : map flip1 (map flip1 l) = l.
Proof.
  induction l as [|x l IH]; simpl; auto. rewrite IH. f_equal. unfold flip1. ring.
Qed.

Lemma is_RInt_flip (f : R -> R) p : is_RInt f 0 1 p -> is_RInt (fun x => f (1 - x)) 0 1 p.
Proof.
  intros H. apply is_RInt_swap in H.
  pose proof (is_RInt_comp_lin f (-1) 1 0 1 (opp p)) as Hc.
  replace (-1 * 0 + 1) with 1 in Hc by ring. replace (-1 * 1 + 1) with 0 in Hc by ring.
  specialize (Hc H). apply is_RInt_opp in Hc. rewrite opp_opp in Hc.
  eapply is_RInt_ext; [|exact Hc]. intros x Hx. simpl. unfold scal, opp; simpl. unfold mult; simpl.
  replace (-1 * x + 1) with (1 - x) by ring. ring.
Qed.

Lemma is_prob_flip n : forall (A : list R -> Prop) p, is_prob n A p -> is_prob n (fun l => A (map flip1 l)) p.
Proof.
  induction n as [|n IH]; intros A p; cbn [is_prob]; [simpl; tauto|].
  intros (f & Hf & Hi). exists (fun x => f (1 - x)). split; [|apply is_RInt_flip; exact Hi].
  intros x Hx. apply (IH (fun l => A ((1 - x) :: l))). apply Hf. lra.
Qed.

Lemma reflect_length v : length (reflect v) = length v.
Proof. unfold reflect. rewrite map_length, rev_length. reflexivity. Qed.

Lemma reflect_invol v : reflect (reflect v) = v.
Proof.
  unfold reflect. change (fun x => 1 - x) with flip1.
  rewrite <- map_rev, rev_involutive. apply flip1_inv.
Qed.

Lemma reflect_perm l l' : Permutation l l' -> Permutation (map flip1 l) (reflect l').
Proof.
  intros H. unfold reflect. change (fun x => 1 - x) with flip1. apply Permutation_map.
  eapply Permutation_trans; [exact H|apply Permutation_rev].
Qed.

Lemma StronglySorted_app (l l' : list R) : StronglySorted Rle l -> StronglySorted Rle l' ->
  (forall x y, In x l -> In y l' -> x <= y) -> StronglySorted Rle (l ++ l').
Proof.
  intros Hl Hl' H. induction Hl as [|x l Hl IH Hx]; simpl; auto. constructor.
  - apply IH. intros; apply H; simpl; auto.
  - apply Forall_app. split; auto. apply Forall_forall. intros y Hy. apply H; simpl; auto.
Qed.

Lemma reflect_sorted l : Sorted Rle l -> Sorted Rle (reflect l).
Proof.
  intros H. apply Sorted_strong in H. apply StronglySorted_Sorted.
  unfold reflect. induction H as [|x l H IH Hx]; simpl; [constructor|].
  rewrite map_app. apply StronglySorted_app; auto.
  - simpl. constructor; constructor.
  - intros a c Ha Hc. simpl in Hc. destruct Hc as [<-|[]].
    apply in_map_iff in Ha. destruct Ha as (y & <- & Hy). apply in_rev in Hy.
    rewrite Forall_forall in Hx. specialize (Hx y Hy). lra.
Qed.

Lemma Forall2_app_snoc (P : R -> R -> Prop) l l' x y : Forall2 P l l' -> P x y -> Forall2 P (l ++ [x]) (l' ++ [y]).
Proof. intros H H'. apply Forall2_app; auto. Qed.

Lemma reflect_Forall2 l l' : Forall2 Rle l l' -> Forall2 Rle (reflect l') (reflect l).
Proof.
  unfold reflect. induction 1 as [|x y l l' Hxy H IH]; simpl; [constructor|].
  rewrite !map_app. simpl. apply Forall2_app_snoc; auto. lra.
Qed.

Lemma valid_reflect v : valid_boundary v -> valid_boundary (reflect v).
Proof.
  intros [HS HF]. split; [apply reflect_sorted; exact HS|].
  unfold reflect. apply Forall_map, Forall_rev. eapply Forall_impl; [|exact HF]. simpl. intros; lra.
Qed.

Lemma noncrossing_reflect_imp b B l : noncrossing b B l -> noncrossing (reflect B) (reflect b) (map flip1 l).
Proof.
  intros (o & H1 & H2 & H3 & H4). exists (reflect o).
  repeat split; [apply reflect_perm|apply reflect_sorted|apply reflect_Forall2|apply reflect_Forall2]; auto.
Qed.
Lemma noncrossing_b_reflect_imp b l : noncrossing_b b l -> noncrossing_B (reflect b) (map flip1 l).
Proof.
  intros (o & H1 & H2 & H3). exists (reflect o).
  repeat split; [apply reflect_perm|apply reflect_sorted|apply reflect_Forall2]; auto.
Qed.
Lemma noncrossing_B_reflect_imp B l : noncrossing_B B l -> noncrossing_b (reflect B) (map flip1 l).
Proof.
  intros (o & H1 & H2 & H3). exists (reflect o).
  repeat split; [apply reflect_perm|apply reflect_sorted|apply reflect_Forall2]; auto.
Qed.

Lemma prob_b_reflect n b p : is_prob n (noncrossing_B (reflect b)) p -> is_prob n (noncrossing_b b) p.
Proof.
  intros H. eapply is_prob_ext; [|apply is_prob_flip; exact H]. intros l _ _. cbv beta. split.
  - intros H'. apply noncrossing_B_reflect_imp in H'. rewrite reflect_invol, flip1_inv in H'. exact H'.
  - apply noncrossing_b_reflect_imp.
Qed.
Lemma prob_B_reflect n B p : is_prob n (noncrossing_b (reflect B)) p -> is_prob n (noncrossing_B B) p.
Proof.
  intros H. eapply is_prob_ext; [|apply is_prob_flip; exact H]. intros l _ _. cbv beta. split.
  - intros H'. apply noncrossing_b_reflect_imp in H'. rewrite reflect_invol, flip1_inv in H'. exact H'.
  - apply noncrossing_B_reflect_imp.
Qed.
Lemma prob_reflect b B p : is_noncrossing_probability b B p ->
  is_noncrossing_probability (reflect B) (reflect b) p.
Proof.
  intros [Hl H]. split; [rewrite !reflect_length; auto|]. rewrite reflect_length, <- Hl.
  eapply is_prob_ext; [|apply is_prob_flip; exact H]. intros l _ _. cbv beta. split.
  - intros H'. apply noncrossing_reflect_imp in H'. rewrite flip1_inv in H'. exact H'.
  - intros H'. apply noncrossing_reflect_imp in H'. rewrite !reflect_invol in H'. exact H'.
Qed.
