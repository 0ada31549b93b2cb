(** * ProbLipschitz: how much the probability changes when the boundary is changed. *)
From Coquelicot Require Import Coquelicot.
From Coq Require Import ZArith Reals List Bool Lia Lra Permutation Sorted.
From Verif Require Import Spec SpecFacts.
Import List. Import ListNotations.
Local Open Scope R_scope.

(** ** A union bound *)
Lemma prob_union (g : R -> R) m : is_RInt g 0 1 m -> (forall x, 0 <= x <= 1 -> 0 <= g x) ->
  forall n (A A' : list R -> Prop) p p', is_prob n A p -> is_prob n A' p' ->
  (forall l, length l = n -> Forall (fun x : R => 0 <= x <= 1) l -> A l -> A' l \/ Exists (fun x => 1 <= g x) l) ->
  p <= p' + INR n * m.
Proof.
  intros Hg Hg0. assert (Hm : 0 <= m).
  { apply (is_RInt_le (fun _ => 0) g 0 1 0 m); [lra| |exact Hg|intros x Hx; apply Hg0; lra].
    eapply is_RInt_const_eq. ring. }
  induction n as [|n IH]; intros A A' p p' HA HA' Hi.
  - simpl in HA, HA'. simpl (INR 0). rewrite Rmult_0_l, Rplus_0_r.
    destruct HA as [[H ->]|[H ->]], HA' as [[H' ->]|[H' ->]]; try lra.
    destruct (Hi [] eq_refl (Forall_nil _) H) as [?|He]; [tauto|inversion He].
  - destruct HA as (f & Hf & If), HA' as (f' & Hf' & If').
    apply (is_RInt_le f (fun x => f' x + (INR n * m + g x)) 0 1 p (p' + INR (S n) * m)); [lra|exact If| |].
    + rewrite S_INR. replace (p' + (INR n + 1) * m) with (p' + (INR n * m + m)) by ring.
      apply (is_RInt_plus (V := R_NormedModule) f' (fun x => INR n * m + g x)); [exact If'|].
      apply (is_RInt_plus (V := R_NormedModule) (fun _ => INR n * m) g); [|exact Hg].
      eapply is_RInt_const_eq. ring.
    + intros x Hx. pose proof (Hf x ltac:(lra)) as P. pose proof (Hf' x ltac:(lra)) as P'.
      pose proof (is_prob_range _ _ _ P) as R0. pose proof (is_prob_range _ _ _ P') as R1. pose proof (Hg0 x ltac:(lra)) as G0.
      assert (Hnm : 0 <= INR n * m) by (apply Rmult_le_pos; [apply pos_INR|exact Hm]).
      destruct (Rle_dec 1 (g x)) as [H1|H1]; [lra|].
      pose proof (IH _ _ _ _ P P') as H. cbv beta in H.
      enough (f x <= f' x + INR n * m) by lra. apply H.
      intros l Hl Fl Al. destruct (Hi (x :: l)) as [?|He]; auto; [simpl; lia|constructor; auto; lra|].
      right. inversion He; subst; [lra|assumption].
Qed.

(** ** Indicators of the intervals between old and new boundary *)
Definition ind (u v x : R) : R := if Rle_dec (Rmin u v) x then if Rle_dec x (Rmax u v) then 1 else 0 else 0.

Lemma ind_int u v : 0 <= u <= 1 -> 0 <= v <= 1 -> is_RInt (ind u v) 0 1 (Rabs (u - v)).
Proof.
  intros Hu Hv. unfold ind. set (x := Rmin u v). set (y := Rmax u v).
  assert (Hxy : 0 <= x <= y /\ y <= 1 /\ Rabs (u - v) = y - x).
  { unfold x, y, Rmin, Rmax. destruct (Rle_dec u v); [rewrite Rabs_left1 by lra|rewrite Rabs_pos_eq by lra]; lra. }
  destruct Hxy as (H1 & H2 & ->). clearbody x y.
  apply (is_RInt_Chasles_R _ 0 x 1 0 (y - x)); [| |ring].
  - eapply is_RInt_ext; [|apply (is_RInt_const_eq 0); ring].
    intros t Ht. rewrite Rmin_left, Rmax_right in Ht by lra. simpl. destruct (Rle_dec x t); lra.
  - apply (is_RInt_Chasles_R _ x y 1 (y - x) 0); [| |ring].
    + eapply is_RInt_ext; [|apply (is_RInt_const_eq 1); ring].
      intros t Ht. rewrite Rmin_left, Rmax_right in Ht by lra. simpl.
      destruct (Rle_dec x t); [|lra]. destruct (Rle_dec t y); lra.
    + eapply is_RInt_ext; [|apply (is_RInt_const_eq 0); ring].
      intros t Ht. rewrite Rmin_left, Rmax_right in Ht by lra. simpl.
      destruct (Rle_dec x t); [|lra]. destruct (Rle_dec t y); lra.
Qed.
Lemma ind_nonneg u v x : 0 <= ind u v x.
Proof. unfold ind. destruct (Rle_dec (Rmin u v) x); [destruct (Rle_dec x (Rmax u v))|]; lra. Qed.
Lemma ind_in u v x : u <= x <= v \/ v <= x <= u -> ind u v x = 1.
Proof.
  intros H. unfold ind, Rmin, Rmax. destruct (Rle_dec u v), (Rle_dec u x), (Rle_dec v x), (Rle_dec x u), (Rle_dec x v); try lra.
Qed.

Fixpoint inds (u v : list R) (x : R) : R :=
  match u, v with a :: u, b :: v => ind a b x + inds u v x | _, _ => 0 end.

Lemma distance_nonneg u : forall v, 0 <= distance u v.
Proof. induction u as [|a u IH]; intros [|b v]; simpl; try lra. pose proof (Rabs_pos (a - b)). specialize (IH v). lra. Qed.
Lemma distance_sym u : forall v, distance u v = distance v u.
Proof. induction u as [|a u IH]; intros [|b v]; simpl; try lra. rewrite IH, Rabs_minus_sym. reflexivity. Qed.
Lemma inds_nonneg u : forall v x, 0 <= inds u v x.
Proof. induction u as [|a u IH]; intros [|b v] x; simpl; try lra. pose proof (ind_nonneg a b x). specialize (IH v x). lra. Qed.
Lemma inds_int u : forall v, Forall (fun x => 0 <= x <= 1) u -> Forall (fun x => 0 <= x <= 1) v ->
  is_RInt (inds u v) 0 1 (distance u v).
Proof.
  induction u as [|a u IH]; intros [|b v] Hu Hv; simpl; try (apply is_RInt_const_eq; ring).
  inversion Hu; inversion Hv; subst.
  apply (is_RInt_plus (V := R_NormedModule) (ind a b) (inds u v)); [apply ind_int; auto|apply IH; auto].
Qed.

(** a vector below B that is not below B' has an element between the two *)
Lemma between_B os : forall B B', length B = length B' -> Forall2 Rle os B ->
  Forall2 Rle os B' \/ Exists (fun x => 1 <= inds B B' x) os.
Proof.
  intros B B' Hl HF. revert B' Hl. induction HF as [|x y os B Hxy HF IH]; intros [|y' B'] Hl; try discriminate.
  - left. constructor.
  - simpl in Hl. injection Hl as Hl. destruct (IH B' Hl) as [H|H].
    + destruct (Rle_dec x y') as [H1|H1]; [left; constructor; auto|right].
      apply Exists_cons_hd. simpl. rewrite ind_in by lra. pose proof (inds_nonneg B B' x). lra.
    + right. apply Exists_cons_tl. rewrite Exists_exists in *. destruct H as (t & Ht & H1). exists t. split; auto.
      simpl. pose proof (ind_nonneg y y' t). lra.
Qed.
Lemma between_b os : forall b b', length b = length b' -> Forall2 Rle b os ->
  Forall2 Rle b' os \/ Exists (fun x => 1 <= inds b b' x) os.
Proof.
  intros b b' Hl HF. revert b' Hl. induction HF as [|y x b os Hxy HF IH]; intros [|y' b'] Hl; try discriminate.
  - left. constructor.
  - simpl in Hl. injection Hl as Hl. destruct (IH b' Hl) as [H|H].
    + destruct (Rle_dec y' x) as [H1|H1]; [left; constructor; auto|right].
      apply Exists_cons_hd. simpl. rewrite ind_in by lra. pose proof (inds_nonneg b b' x). lra.
    + right. apply Exists_cons_tl. rewrite Exists_exists in *. destruct H as (t & Ht & H1). exists t. split; auto.
      simpl. pose proof (ind_nonneg y y' t). lra.
Qed.

Lemma Exists_perm (P : R -> Prop) l l' : Permutation l l' -> Exists P l' -> Exists P l.
Proof. intros HP. rewrite !Exists_exists. intros (x & Hx & H). exists x. split; auto. eapply Permutation_in; [symmetry; exact HP|exact Hx]. Qed.

(** ** The three probabilities *)
Notation inside v := (Forall (fun x : R => 0 <= x <= 1) v).

Lemma one_way_B B B' p p' : length B = length B' -> inside B -> inside B' ->
  is_prob (length B) (noncrossing_B B) p -> is_prob (length B) (noncrossing_B B') p' -> p <= p' + INR (length B) * distance B B'.
Proof.
  intros Hl H1 H2 Hp Hp'. apply (prob_union (inds B B') (distance B B')) with (n := length B) (A := noncrossing_B B) (A' := noncrossing_B B'); auto.
  - apply inds_int; auto.
  - intros; apply inds_nonneg.
  - intros l Hll _ (os & HP & HS & HF). destruct (between_B os B B' Hl HF) as [H|H].
    + left. exists os. auto.
    + right. eapply Exists_perm; eauto.
Qed.
Lemma prob_B_close B B' p p' : length B = length B' -> inside B -> inside B' ->
  is_prob (length B) (noncrossing_B B) p -> is_prob (length B') (noncrossing_B B') p' ->
  Rabs (p - p') <= INR (length B) * distance B B'.
Proof.
  intros Hl H1 H2 Hp Hp'.
  pose proof (one_way_B B B' p p' Hl H1 H2 Hp ltac:(rewrite Hl; exact Hp')) as HA.
  pose proof (one_way_B B' B p' p (eq_sym Hl) H2 H1 Hp' ltac:(rewrite <- Hl; exact Hp)) as HC.
  rewrite (distance_sym B' B), <- Hl in HC. apply Rabs_le. lra.
Qed.

Lemma one_way_b b b' p p' : length b = length b' -> inside b -> inside b' ->
  is_prob (length b) (noncrossing_b b) p -> is_prob (length b) (noncrossing_b b') p' -> p <= p' + INR (length b) * distance b b'.
Proof.
  intros Hl H1 H2 Hp Hp'. apply (prob_union (inds b b') (distance b b')) with (n := length b) (A := noncrossing_b b) (A' := noncrossing_b b'); auto.
  - apply inds_int; auto.
  - intros; apply inds_nonneg.
  - intros l Hll _ (os & HP & HS & HF). destruct (between_b os b b' Hl HF) as [H|H].
    + left. exists os. auto.
    + right. eapply Exists_perm; eauto.
Qed.
Lemma prob_b_close b b' p p' : length b = length b' -> inside b -> inside b' ->
  is_prob (length b) (noncrossing_b b) p -> is_prob (length b') (noncrossing_b b') p' ->
  Rabs (p - p') <= INR (length b) * distance b b'.
Proof.
  intros Hl H1 H2 Hp Hp'.
  pose proof (one_way_b b b' p p' Hl H1 H2 Hp ltac:(rewrite Hl; exact Hp')) as HA.
  pose proof (one_way_b b' b p' p (eq_sym Hl) H2 H1 Hp' ltac:(rewrite <- Hl; exact Hp)) as HC.
  rewrite (distance_sym b' b), <- Hl in HC. apply Rabs_le. lra.
Qed.

Lemma one_way b B b' B' p p' : length b = length b' -> length B = length B' -> length b = length B ->
  inside b -> inside b' -> inside B -> inside B' ->
  is_prob (length b) (noncrossing b B) p -> is_prob (length b) (noncrossing b' B') p' ->
  p <= p' + INR (length b) * (distance b b' + distance B B').
Proof.
  intros Hl Hl2 Hl3 H1 H2 H3 H4 Hp Hp'.
  apply (prob_union (fun x => inds b b' x + inds B B' x) (distance b b' + distance B B')) with (n := length b) (A := noncrossing b B) (A' := noncrossing b' B'); auto.
  - apply (is_RInt_plus (V := R_NormedModule) (inds b b') (inds B B')); apply inds_int; auto.
  - intros x _. pose proof (inds_nonneg b b' x). pose proof (inds_nonneg B B' x). lra.
  - intros l Hll _ (os & HP & HS & HF & HG). destruct (between_b os b b' Hl HF) as [H|H]; [destruct (between_B os B B' Hl2 HG) as [H'|H']|].
    + left. exists os. auto.
    + right. eapply Exists_perm; [exact HP|]. rewrite Exists_exists in *. destruct H' as (t & Ht & H5). exists t. split; auto.
      pose proof (inds_nonneg b b' t). lra.
    + right. eapply Exists_perm; [exact HP|]. rewrite Exists_exists in *. destruct H as (t & Ht & H5). exists t. split; auto.
      pose proof (inds_nonneg B B' t). lra.
Qed.
Lemma prob_close b B b' B' p p' : length b = length b' -> length B = length B' ->
  inside b -> inside b' -> inside B -> inside B' ->
  is_noncrossing_probability b B p -> is_noncrossing_probability b' B' p' ->
  Rabs (p - p') <= INR (length b) * (distance b b' + distance B B').
Proof.
  intros Hl Hl2 H1 H2 H3 H4 [Hl3 Hp] [Hl4 Hp'].
  pose proof (one_way b B b' B' p p' Hl Hl2 Hl3 H1 H2 H3 H4 Hp ltac:(rewrite Hl; exact Hp')) as HA.
  pose proof (one_way b' B' b B p' p (eq_sym Hl) (eq_sym Hl2) Hl4 H2 H1 H4 H3 Hp' ltac:(rewrite <- Hl; exact Hp)) as HC.
  rewrite (distance_sym b' b), (distance_sym B' B), <- Hl in HC. apply Rabs_le. lra.
Qed.
