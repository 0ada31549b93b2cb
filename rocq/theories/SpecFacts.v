(** * SpecFacts: basic facts about the specification. *)
From Coquelicot Require Import Coquelicot.
From Coq Require Import Reals List Permutation Sorted Lra Lia Bool.
From Verif Require Import Spec.
Import ListNotations.
Local Open Scope R_scope.

Lemma is_prob_ext n : forall (A A' : list R -> Prop) p,
  (forall l, length l = n -> Forall (fun x : R => 0 <= x <= 1) l -> (A l <-> A' l)) -> is_prob n A p -> is_prob n A' p.
Proof.
  induction n as [|n IH]; intros A A' p H; cbn [is_prob].
  - specialize (H [] eq_refl (Forall_nil _)). tauto.
  - intros (f & Hf & Hi). exists f; split; [|exact Hi].
    intros x Hx. apply IH with (A := fun l => A (x :: l)); [|auto].
    intros l Hl Hr. apply H; simpl; [lia|]. constructor; auto.
Qed.

(** Two values of the same probability are equal. *)
Theorem is_prob_unique n : forall A p q, is_prob n A p -> is_prob n A q -> p = q.
Proof.
  induction n as [|n IH]; intros A p q; cbn [is_prob].
  - intuition lra.
  - intros (f & Hf & Hif) (g & Hg & Hig).
    rewrite <- (is_RInt_unique f 0 1 p Hif), <- (is_RInt_unique g 0 1 q Hig).
    apply RInt_ext. intros x Hx. rewrite Rmin_left, Rmax_right in Hx by lra.
    eapply IH; [apply Hf; lra|apply Hg; lra].
Qed.

(** Monotone: a larger event is at least as probable. *)
Theorem is_prob_mono n : forall (A A' : list R -> Prop) p q,
  (forall l, length l = n -> Forall (fun x : R => 0 <= x <= 1) l -> A l -> A' l) ->
  is_prob n A p -> is_prob n A' q -> p <= q.
Proof.
  induction n as [|n IH]; intros A A' p q H; cbn [is_prob].
  - specialize (H [] eq_refl (Forall_nil _)). intuition lra.
  - intros (f & Hf & Hif) (g & Hg & Hig).
    apply (is_RInt_le f g 0 1 p q); [lra|exact Hif|exact Hig|].
    intros x Hx. eapply IH; [|apply Hf; lra|apply Hg; lra].
    intros l Hl Hr. apply H; simpl; [lia|]. constructor; [lra|auto].
Qed.

Lemma is_RInt_const_R (c a b : R) : is_RInt (fun _ => c) a b ((b - a) * c).
Proof. exact (is_RInt_const a b c). Qed.

Lemma is_RInt_const_eq (c a b v : R) : v = (b - a) * c -> is_RInt (fun _ => c) a b v.
Proof. intros ->. apply is_RInt_const_R. Qed.

Lemma is_RInt_Chasles_R (f : R -> R) (a b c u v w : R) :
  is_RInt f a b u -> is_RInt f b c v -> w = u + v -> is_RInt f a c w.
Proof. intros H1 H2 ->. exact (is_RInt_Chasles f a b c u v H1 H2). Qed.

Lemma is_prob_full n : forall (A : list R -> Prop),
  (forall l, length l = n -> Forall (fun x : R => 0 <= x <= 1) l -> A l) -> is_prob n A 1.
Proof.
  induction n as [|n IH]; intros A H; cbn [is_prob].
  - left; split; auto.
  - exists (fun _ => 1); split.
    + intros x Hx. apply IH. intros l Hl Hr. apply H; simpl; [lia|]. constructor; auto.
    + apply is_RInt_const_eq; lra.
Qed.

Lemma is_prob_empty n : forall (A : list R -> Prop),
  (forall l, length l = n -> Forall (fun x : R => 0 <= x <= 1) l -> ~ A l) -> is_prob n A 0.
Proof.
  induction n as [|n IH]; intros A H; cbn [is_prob].
  - right; split; auto.
  - exists (fun _ => 0); split.
    + intros x Hx. apply IH. intros l Hl Hr. apply H; simpl; [lia|]. constructor; auto.
    + apply is_RInt_const_eq; lra.
Qed.

Theorem is_prob_range n A p : is_prob n A p -> 0 <= p <= 1.
Proof.
  intros H; split.
  - apply (is_prob_mono n (fun _ => False) A 0 p); [tauto| |exact H].
    apply is_prob_empty. auto.
  - apply (is_prob_mono n A (fun _ => True) p 1); [tauto|exact H|].
    apply is_prob_full. auto.
Qed.

(** Non-vacuity of the specification: one uniform is at most t with probability t. *)
Example is_prob_one_uniform t : 0 <= t <= 1 -> is_prob 1 (fun l => Forall (fun x : R => x <= t) l) t.
Proof.
  intros Ht. exists (fun x => if Rle_dec x t then 1 else 0). split.
  - intros x Hx. cbn [is_prob]. destruct (Rle_dec x t) as [H|H].
    + left; split; [constructor; [exact H|constructor]|reflexivity].
    + right; split; [|reflexivity]. intros HF; inversion HF; auto.
  - apply (is_RInt_Chasles_R _ 0 t 1 ((t - 0) * 1) ((1 - t) * 0)); [| |ring].
    + eapply is_RInt_ext; [|apply is_RInt_const_R].
      intros x Hx. rewrite Rmin_left, Rmax_right in Hx by lra. simpl. destruct (Rle_dec x t); lra.
    + eapply is_RInt_ext; [|apply is_RInt_const_R].
      intros x Hx. rewrite Rmin_left, Rmax_right in Hx by lra. simpl. destruct (Rle_dec x t); lra.
Qed.

(** ** Order statistics and counting *)

Definition count (P : R -> bool) (l : list R) : nat := length (filter P l).

Lemma count_perm P l l' : Permutation l l' -> count P l = count P l'.
Proof.
  unfold count. induction 1 as [|x l l' H IH|x y l|l l' l'' H1 IH1 H2 IH2]; simpl; auto.
  - destruct (P x); simpl; auto.
  - destruct (P x), (P y); simpl; auto.
  - congruence.
Qed.
