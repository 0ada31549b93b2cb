(** * ProbSums: additivity of [is_prob]. *)
From Coquelicot Require Import Coquelicot.
From Coq Require Import ZArith Reals List Bool Lia Lra.
From Verif Require Import Base Num RSum Spec SpecFacts.
Import List. Import ListNotations.
Local Open Scope R_scope.

Lemma is_prob_or n : forall (A1 A2 : list R -> Prop) p1 p2,
  (forall l, length l = n -> Forall (fun x : R => 0 <= x <= 1) l -> ~ (A1 l /\ A2 l)) ->
  is_prob n A1 p1 -> is_prob n A2 p2 -> is_prob n (fun l => A1 l \/ A2 l) (p1 + p2).
Proof.
  induction n as [|n IH]; intros A1 A2 p1 p2 H; cbn [is_prob].
  - specialize (H [] eq_refl (Forall_nil _)).
    intros [(H1 & ->)|(H1 & ->)] [(H2 & ->)|(H2 & ->)]; try tauto.
    + left. split; [tauto|ring].
    + left. split; [tauto|ring].
    + right. split; [tauto|ring].
  - intros (f & Hf & If) (g & Hg & Ig). exists (fun x => f x + g x). split.
    + intros x Hx. apply IH; auto. intros l Hl Hr. apply H; simpl; [lia|]. constructor; auto.
    + apply (is_RInt_plus (V := R_NormedModule)); auto.
Qed.

Lemma is_prob_not n : forall (A : list R -> Prop) p, is_prob n A p -> is_prob n (fun l => ~ A l) (1 - p).
Proof.
  induction n as [|n IH]; intros A p; cbn [is_prob].
  - intros [(H & ->)|(H & ->)]; [right|left]; split; try tauto; ring.
  - intros (f & Hf & If). exists (fun x => 1 - f x). split.
    + intros x Hx. apply (IH (fun l => A (x :: l))). auto.
    + apply (is_RInt_minus (V := R_NormedModule) (fun _ => 1)); auto. apply is_RInt_const_eq. ring.
Qed.

Lemma is_prob_exists n m (A : nat -> list R -> Prop) (p : nat -> R) :
  (forall i, (i < m)%nat -> is_prob n (A i) (p i)) ->
  (forall i j l, (i < j < m)%nat -> length l = n -> Forall (fun x : R => 0 <= x <= 1) l -> ~ (A i l /\ A j l)) ->
  is_prob n (fun l => exists i, (i < m)%nat /\ A i l) (rsum m p).
Proof.
  induction m as [|m IH]; intros Hp Hd; cbn [rsum].
  - apply is_prob_empty. intros l _ _ (i & Hi & _). lia.
  - eapply is_prob_ext; [|apply (is_prob_or n (fun l => exists i, (i < m)%nat /\ A i l) (A m) (rsum m p) (p m))].
    + intros l _ _. split.
      * intros [(i & Hi & H)|H]; [exists i; split; [lia|auto]|exists m; auto].
      * intros (i & Hi & H). destruct (Nat.eq_dec i m) as [->|Hn]; auto. left. exists i. split; [lia|auto].
    + intros l Hl Hr ((i & Hi & H1) & H2). apply (Hd i m l); auto.
    + apply IH; auto. intros i j l Hij. apply Hd. lia.
    + apply Hp. lia.
Qed.

(** Further random numbers that are not looked at do not matter. *)
Lemma is_prob_unused m : forall (Q : Prop), (Q -> is_prob m (fun _ => Q) 1) /\ (~ Q -> is_prob m (fun _ => Q) 0).
Proof. intros Q; split; intros H; [apply is_prob_full|apply is_prob_empty]; auto. Qed.

Lemma is_prob_firstn n m : forall (A : list R -> Prop) p, is_prob n A p -> is_prob (n + m) (fun l => A (firstn n l)) p.
Proof.
  induction n as [|n IH]; intros A p; cbn [is_prob Nat.add].
  - intros [(H & ->)|(H & ->)]; simpl; apply is_prob_unused; auto.
  - intros (f & Hf & If). exists f. split; auto. intros x Hx. cbn [firstn]. apply (IH (fun l => A (x :: l))). auto.
Qed.
