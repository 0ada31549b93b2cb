(** * Events: the non-crossing event through counts, and [prob_is_D]. *)
From Coquelicot Require Import Coquelicot.
From Flocq Require Import Core.Raux.
From Coq Require Import Reals List Permutation Sorted Lia Lra Arith Factorial Bool.
From Verif Require Import Spec SpecFacts RSum Num Cells.
Import ListNotations.
Local Open Scope R_scope.

Lemma Rlt_bool_iff x y : Rlt_bool x y = true <-> x < y.
Proof. split; [|apply Rlt_bool_true]. destruct (Rlt_bool_spec x y); auto; discriminate. Qed.
Lemma Rle_bool_iff x y : Rle_bool x y = true <-> x <= y.
Proof. split; [|apply Rle_bool_true]. destruct (Rle_bool_spec x y); auto; discriminate. Qed.
Lemma Rlt_bool_niff x y : Rlt_bool x y = false <-> y <= x.
Proof. split; [|apply Rlt_bool_false]. destruct (Rlt_bool_spec x y); auto; discriminate. Qed.
Lemma Rle_bool_niff x y : Rle_bool x y = false <-> y < x.
Proof. split; [|apply Rle_bool_false]. destruct (Rle_bool_spec x y); auto; discriminate. Qed.

(** every list has a sorted permutation *)
Fixpoint rinsert (x : R) (l : list R) : list R :=
  match l with
  | [] => [x]
  | y :: r => if Rle_bool x y then x :: l else y :: rinsert x r
  end.
Definition rsort (l : list R) : list R := fold_right rinsert [] l.

Lemma rinsert_perm x l : Permutation (x :: l) (rinsert x l).
Proof.
  induction l as [|y l IH]; simpl; auto.
  destruct (Rle_bool x y); auto. rewrite perm_swap. auto.
Qed.
Lemma rsort_perm l : Permutation l (rsort l).
Proof. induction l as [|x l IH]; simpl; auto. rewrite <- rinsert_perm. auto. Qed.
Lemma rinsert_sorted x l : StronglySorted Rle l -> StronglySorted Rle (rinsert x l).
Proof.
  induction 1 as [|y l H IH HF]; simpl.
  - constructor; constructor.
  - destruct (Rle_bool x y) eqn:E.
    + apply Rle_bool_iff in E. constructor; [constructor; auto|].
      constructor; auto. eapply Forall_impl; [|exact HF]. simpl. intros; lra.
    + apply Rle_bool_niff in E. constructor; auto.
      eapply Permutation_Forall; [apply rinsert_perm|]. constructor; [lra|auto].
Qed.
Lemma rsort_sorted l : StronglySorted Rle (rsort l).
Proof. induction l as [|x l IH]; simpl; [constructor|]. apply rinsert_sorted; auto. Qed.

Lemma Sorted_strong (l : list R) : Sorted Rle l -> StronglySorted Rle l.
Proof. apply Sorted_StronglySorted. intros x y z; apply Rle_trans. Qed.

(** ** The i-th element of a sorted list, by counting *)
Lemma count_le_length P l : (count P l <= length l)%nat.
Proof. unfold count. induction l as [|x l IH]; simpl; auto. destruct (P x); simpl; lia. Qed.

Lemma count_none P l : Forall (fun x => P x = false) l -> count P l = 0%nat.
Proof. unfold count. induction 1 as [|x l Hx H IH]; simpl; auto. rewrite Hx; auto. Qed.

Lemma nth_lt_count l : StronglySorted Rle l -> forall i c, (i < length l)%nat ->
  (nth i l 0 < c <-> (i < count (fun x => Rlt_bool x c) l)%nat).
Proof.
  unfold count. induction 1 as [|y l H IH HF]; intros i c Hi; simpl in *; [lia|].
  destruct (Rlt_bool_spec y c) as [Hy|Hy].
  - destruct i as [|i]; simpl; [split; intros; [lia|auto]|].
    rewrite (IH i c) by lia. lia.
  - assert (E : count (fun x => Rlt_bool x c) l = 0%nat).
    { apply count_none. eapply Forall_impl; [|exact HF]. simpl. intros a Ha.
      apply Rlt_bool_false. lra. }
    unfold count in E. rewrite E. split; [|lia]. intros Hc. exfalso.
    destruct i as [|i]; [lra|]. rewrite Forall_forall in HF.
    assert (y <= nth i l 0) by (apply HF, nth_In; lia). lra.
Qed.

Lemma nth_le_count l : StronglySorted Rle l -> forall i c, (i < length l)%nat ->
  (nth i l 0 <= c <-> (i < count (fun x => Rle_bool x c) l)%nat).
Proof.
  unfold count. induction 1 as [|y l H IH HF]; intros i c Hi; simpl in *; [lia|].
  destruct (Rle_bool_spec y c) as [Hy|Hy].
  - destruct i as [|i]; simpl; [split; intros; [lia|auto]|].
    rewrite (IH i c) by lia. lia.
  - assert (E : count (fun x => Rle_bool x c) l = 0%nat).
    { apply count_none. eapply Forall_impl; [|exact HF]. simpl. intros a Ha.
      apply Rle_bool_false. lra. }
    unfold count in E. rewrite E. split; [|lia]. intros Hc. exfalso.
    destruct i as [|i]; [lra|]. rewrite Forall_forall in HF.
    assert (y <= nth i l 0) by (apply HF, nth_In; lia). lra.
Qed.

Lemma Forall2_nth (P : R -> R -> Prop) l l' :
  Forall2 P l l' <-> length l = length l' /\ forall i, (i < length l)%nat -> P (nth i l 0) (nth i l' 0).
Proof.
  split.
  - induction 1 as [|x y l l' Hxy H [IH1 IH2]]; simpl; [split; auto; intros; lia|].
    split; [lia|]. intros [|i] Hi; auto. apply IH2; lia.
  - revert l'. induction l as [|x l IH]; intros [|y l'] [Hl H]; simpl in *; try lia; constructor.
    + apply (H 0%nat). lia.
    + apply IH. split; [lia|]. intros i Hi. apply (H (S i)). lia.
Qed.

(** The event by counting: #(x < b_i) <= i and #(x <= B_i) > i (i from 0). *)
Definition ev_count_b (b l : list R) : Prop :=
  forall i, (i < length b)%nat -> (count (fun x => Rlt_bool x (nth i b 0%R)) l <= i)%nat.
Definition ev_count_B (B l : list R) : Prop :=
  forall i, (i < length B)%nat -> (i < count (fun x => Rle_bool x (nth i B 0%R)) l)%nat.

Lemma noncrossing_b_count b l : length b = length l -> (noncrossing_b b l <-> ev_count_b b l).
Proof.
  intros Hl. split.
  - intros (o & HP & HS & HF). apply Sorted_strong in HS. apply Forall2_nth in HF.
    destruct HF as [Hlen HF]. intros i Hi. rewrite (count_perm _ _ _ HP).
    specialize (HF i Hi). pose proof (nth_lt_count o HS i (nth i b 0%R) ltac:(lia)).
    destruct (Nat.lt_ge_cases i (count (fun x => Rlt_bool x (nth i b 0%R)) o)) as [Hc|Hc]; auto.
    apply H in Hc. lra.
  - intros H. exists (rsort l). pose proof (rsort_perm l) as HP. split; auto.
    split; [apply StronglySorted_Sorted, rsort_sorted|].
    apply Forall2_nth. pose proof (Permutation_length HP). split; [lia|]. intros i Hi.
    specialize (H i Hi). rewrite (count_perm _ _ _ HP) in H.
    pose proof (nth_lt_count _ (rsort_sorted l) i (nth i b 0%R) ltac:(lia)) as HN.
    destruct (Rle_or_lt (nth i b 0%R) (nth i (rsort l) 0)) as [?|Hlt]; auto.
    apply HN in Hlt. lia.
Qed.

Lemma noncrossing_B_count B l : length B = length l -> (noncrossing_B B l <-> ev_count_B B l).
Proof.
  intros Hl. split.
  - intros (o & HP & HS & HF). apply Sorted_strong in HS. apply Forall2_nth in HF.
    destruct HF as [Hlen HF]. intros i Hi. rewrite (count_perm _ _ _ HP).
    apply nth_le_count; auto; [lia|]. apply HF. lia.
  - intros H. exists (rsort l). pose proof (rsort_perm l) as HP. split; auto.
    split; [apply StronglySorted_Sorted, rsort_sorted|].
    apply Forall2_nth. pose proof (Permutation_length HP). split; [lia|]. intros i Hi.
    apply nth_le_count; [apply rsort_sorted|lia|]. rewrite <- (count_perm _ _ _ HP).
    apply H. lia.
Qed.

Lemma sorted_perm_unique l l' : StronglySorted Rle l -> StronglySorted Rle l' -> Permutation l l' -> l = l'.
Proof.
  intros H H' HP. apply nth_ext with (d := 0) (d' := 0); [apply Permutation_length; auto|].
  intros i Hi. pose proof (Permutation_length HP) as HL.
  apply Rle_antisym.
  - apply nth_le_count; auto. rewrite (count_perm _ _ _ HP). apply nth_le_count; auto; [lia|]. lra.
  - apply nth_le_count; auto; [lia|]. rewrite <- (count_perm _ _ _ HP). apply nth_le_count; auto. lra.
Qed.

Lemma noncrossing_both b B l : noncrossing b B l <-> noncrossing_b b l /\ noncrossing_B B l.
Proof.
  split.
  - intros (o & HP & HS & H1 & H2). split; exists o; auto.
  - intros [(o & HP & HS & H1) (o' & HP' & HS' & H2)].
    assert (o = o') as <-.
    { apply sorted_perm_unique; try (apply Sorted_strong; auto).
      rewrite <- HP. exact HP'. }
    exists o; auto.
Qed.

(** ** Breakpoints as a sorted list of tagged locations *)
Definition is_b (s : R * bound_tag) : bool := match snd s with bSTEP => true | _ => false end.
Definition is_B (s : R * bound_tag) : bool := match snd s with BSTEP => true | _ => false end.
Definition kappa (steps : list (R * bound_tag)) (x : R) : nat * nat :=
  (length (filter (fun s => is_b s && Rle_bool (fst s) x) steps),
   length (filter (fun s => is_B s && Rlt_bool (fst s) x) steps)).

Definition loc_sorted (steps : list (R * bound_tag)) : Prop := StronglySorted (fun s t => fst s <= fst t) steps.

Fixpoint end_of (prev : R) (steps : list (R * bound_tag)) : R :=
  match steps with [] => prev | (loc, _) :: r => end_of loc r end.

Lemma is_RInt_kappa (g : nat * nat -> R) steps rest : forall done prev,
  steps = done ++ rest ->
  Forall (fun s => fst s <= prev) done -> Forall (fun s => prev <= fst s) rest ->
  loc_sorted rest ->
  is_RInt (fun x => g (kappa steps x)) prev (end_of prev rest)
    (wsum (cells prev (count_b done) (count_B done) rest) g).
Proof.
  induction rest as [|[loc t] r IH]; intros done prev Hst Hd Hr Hs.
  - simpl. apply (is_RInt_point (V := R_NormedModule)).
  - cbn [cells end_of wsum].
    inversion Hs as [|? ? Hs' HF]; subst.
    inversion Hr as [|? ? Hp Hr']; subst. simpl in Hp.
    apply (is_RInt_Chasles_R _ prev loc (end_of loc r) ((loc - prev) * g (count_b done, count_B done))
            (wsum (cells loc (next_b t (count_b done)) (next_B t (count_B done)) r) g)); [| |reflexivity].
    + eapply is_RInt_ext; [|apply is_RInt_const_R].
      intros x Hx. rewrite Rmin_left, Rmax_right in Hx by lra. simpl. f_equal.
      unfold kappa. rewrite !filter_app, !app_length.
      assert (H1 : forall P, (forall s, fst s <= prev -> P s = true) ->
        forall Q, filter (fun s => Q s && P s) done = filter Q done).
      { intros P HP Q. apply filter_ext_in. intros s Hs0. rewrite Forall_forall in Hd.
        rewrite HP by (apply Hd; auto). apply andb_true_r. }
      rewrite (H1 (fun s => Rle_bool (fst s) x)) by (intros; apply Rle_bool_true; lra).
      rewrite (H1 (fun s => Rlt_bool (fst s) x)) by (intros; apply Rlt_bool_true; lra).
      assert (H2 : forall P, (forall s, loc <= fst s -> P s = false) ->
        forall Q, filter (fun s => Q s && P s) ((loc, t) :: r) = []).
      { intros P HP Q.
        assert (HF' : Forall (fun s => loc <= fst s) ((loc, t) :: r)) by (constructor; [simpl; lra|exact HF]).
        clear - HF' HP. induction HF' as [|s l Hs0 H IH]; simpl; auto.
        rewrite (HP s Hs0), andb_false_r. auto. }
      rewrite (H2 (fun s => Rle_bool (fst s) x)) by (intros; apply Rle_bool_false; lra).
      rewrite (H2 (fun s => Rlt_bool (fst s) x)) by (intros; apply Rlt_bool_false; lra).
      simpl. unfold count_b, count_B. f_equal; rewrite Nat.add_0_r; reflexivity.
    + replace (next_b t (count_b done)) with (count_b (done ++ [(loc, t)])).
      2:{ unfold count_b. rewrite filter_app, app_length. destruct t; simpl; lia. }
      replace (next_B t (count_B done)) with (count_B (done ++ [(loc, t)])).
      2:{ unfold count_B. rewrite filter_app, app_length. destruct t; simpl; lia. }
      apply IH.
      * rewrite <- app_assoc. reflexivity.
      * apply Forall_app; split.
        -- eapply Forall_impl; [|exact Hd]. simpl. intros; lra.
        -- constructor; [simpl; lra|constructor].
      * exact HF.
      * exact Hs'.
Qed.

(** Legal arrangements of the breakpoints of b and B, followed by the end point 1. *)
Definition arranged (b B : list R) (bs : list (R * bound_tag)) : Prop :=
  Permutation (map (fun x => (x, bSTEP)) b ++ map (fun x => (x, BSTEP)) B) bs /\ loc_sorted bs.

Lemma filter_perm {A} (P : A -> bool) l l' : Permutation l l' -> length (filter P l) = length (filter P l').
Proof.
  induction 1 as [|x l l' H IH|x y l|l l' l'' H1 IH1 H2 IH2]; simpl; auto.
  - destruct (P x); simpl; auto.
  - destruct (P x), (P y); simpl; auto.
  - congruence.
Qed.

Lemma filter_map_length {A C} (h : A -> C) (P : C -> bool) l :
  length (filter P (map h l)) = length (filter (fun a => P (h a)) l).
Proof. induction l as [|x l IH]; simpl; auto. destruct (P (h x)); simpl; auto. Qed.

Lemma filter_false {A} (P : A -> bool) l : (forall a, P a = false) -> length (filter P l) = 0%nat.
Proof. intros H. induction l as [|x l IH]; simpl; auto. rewrite H. auto. Qed.
Lemma filter_true {A} (P : A -> bool) l : (forall a, P a = true) -> length (filter P l) = length l.
Proof. intros H. induction l as [|x l IH]; simpl; auto. rewrite H. simpl; auto. Qed.

Lemma arranged_filter b B bs (P : R * bound_tag -> bool) : arranged b B bs -> P (1, END) = false ->
  length (filter P (bs ++ [(1, END)])) =
  (length (filter (fun x => P (x, bSTEP)) b) + length (filter (fun x => P (x, BSTEP)) B))%nat.
Proof.
  intros [HP _] HE. rewrite filter_app, app_length. simpl. rewrite HE. simpl.
  rewrite Nat.add_0_r, <- (filter_perm _ _ _ HP), filter_app, app_length, !filter_map_length. reflexivity.
Qed.

Lemma kappa_arranged b B bs x : arranged b B bs ->
  kappa (bs ++ [(1, END)]) x =
  (count (fun c => Rle_bool c x) b, count (fun c => Rlt_bool c x) B).
Proof.
  intros HA. unfold kappa, count. f_equal; rewrite (arranged_filter b B) by auto.
  - rewrite (filter_false _ B) by reflexivity. rewrite Nat.add_0_r. reflexivity.
  - rewrite (filter_false _ b) by reflexivity. reflexivity.
Qed.

Lemma count_b_arranged b B bs : arranged b B bs -> count_b (bs ++ [(1, END)]) = length b.
Proof.
  intros HA. unfold count_b. rewrite (arranged_filter b B) by auto.
  rewrite (filter_false _ B), (filter_true _ b) by reflexivity. lia.
Qed.
Lemma count_B_arranged b B bs : arranged b B bs -> count_B (bs ++ [(1, END)]) = length B.
Proof.
  intros HA. unfold count_B. rewrite (arranged_filter b B) by auto.
  rewrite (filter_false _ b), (filter_true _ B) by reflexivity. lia.
Qed.

Lemma end_of_app prev l x t : end_of prev (l ++ [(x, t)]) = x.
Proof. revert prev. induction l as [|[y u] l IH]; intros; simpl; auto. Qed.

Lemma arranged_range b B bs : arranged b B bs -> valid_boundary b -> valid_boundary B ->
  Forall (fun s => 0 <= fst s <= 1) bs.
Proof.
  intros [HP _] [_ Hb] [_ HB]. eapply Permutation_Forall; [exact HP|].
  apply Forall_app; split; apply Forall_map; simpl; auto.
Qed.

Lemma arranged_sorted_end b B bs : arranged b B bs -> valid_boundary b -> valid_boundary B ->
  loc_sorted (bs ++ [(1, END)]).
Proof.
  intros HA Hb HB. pose proof (arranged_range _ _ _ HA Hb HB) as HR. destruct HA as [_ HS].
  unfold loc_sorted in *. induction HS as [|s l H IH HF]; simpl.
  - constructor; constructor.
  - inversion HR; subst. constructor; auto. apply Forall_app; split; auto.
    constructor; [simpl; lra|constructor].
Qed.

(** The event in terms of the labels of the sample points. *)
Lemma noncrossing_ev b B bs l : valid_boundary b -> valid_boundary B ->
  length b = length B -> length l = length b -> arranged b B bs ->
  (noncrossing b B l <-> ev (length b) (map (kappa (bs ++ [(1, END)])) l)).
Proof.
  intros [Hb _] [HB _] Hlen Hl HA.
  apply Sorted_strong in Hb. apply Sorted_strong in HB.
  rewrite noncrossing_both, noncrossing_b_count, noncrossing_B_count by lia.
  assert (E1 : forall i, (i < length b)%nat ->
     nlabel (fun s => (fst s <=? i)%nat) (map (kappa (bs ++ [(1, END)])) l) =
     count (fun x => Rlt_bool x (nth i b 0%R)) l).
  { intros i Hi. unfold nlabel, count. rewrite filter_map_length. f_equal. apply filter_ext.
    intros x. rewrite (kappa_arranged b B) by auto. simpl.
    pose proof (nth_le_count b Hb i x Hi) as HN.
    destruct (Rlt_bool_spec x (nth i b 0%R)) as [Hx|Hx].
    - apply Nat.leb_le. destruct (Nat.le_gt_cases (count (fun c => Rle_bool c x) b) i) as [?|Hc]; auto.
      apply HN in Hc. lra.
    - apply Nat.leb_gt. apply HN. auto. }
  assert (E2 : forall i, (i < length b)%nat ->
     nlabel (fun s => (snd s <=? i)%nat) (map (kappa (bs ++ [(1, END)])) l) =
     count (fun x => Rle_bool x (nth i B 0%R)) l).
  { intros i Hi. unfold nlabel, count. rewrite filter_map_length. f_equal. apply filter_ext.
    intros x. rewrite (kappa_arranged b B) by auto. simpl.
    pose proof (nth_lt_count B HB i x ltac:(lia)) as HN.
    destruct (Rle_bool_spec x (nth i B 0%R)) as [Hx|Hx].
    - apply Nat.leb_le. destruct (Nat.le_gt_cases (count (fun c => Rlt_bool c x) B) i) as [?|Hc]; auto.
      apply HN in Hc. lra.
    - apply Nat.leb_gt. apply HN. auto. }
  unfold ev, ev_count_b, ev_count_B. rewrite <- Hlen. split.
  - intros [H1 H2] i Hi. rewrite E1, E2 by auto. auto.
  - intros H. split; intros i Hi; destruct (H i Hi) as [H1 H2];
      rewrite E1 in H1 by auto; rewrite E2 in H2 by auto; auto.
Qed.

(** The probability of the documentation is n! D. *)
Theorem prob_is_D b B bs : valid_boundary b -> valid_boundary B -> length b = length B ->
  arranged b B bs ->
  is_noncrossing_probability b B
    (INR (fact (length b)) * D 0 0 0 0 (bs ++ [(1, END)]) (length b)).
Proof.
  intros Hb HB Hlen HA. split; auto.
  pose proof (arranged_range _ _ _ HA Hb HB) as HR.
  change (D 0 0 0 0) with (D (length (@nil (nat * nat))) 0 0 0).
  rewrite <- (msum_is_D (length b) (bs ++ [(1, END)]) 0 0 0 [] (length b)); simpl app.
  - apply (is_prob_classifier (kappa (bs ++ [(1, END)]))).
    + intros g.
      pose proof (is_RInt_kappa g (bs ++ [(1, END)]) (bs ++ [(1, END)]) [] 0) as HI.
      rewrite end_of_app in HI. apply HI; auto.
      * apply Forall_app; split; [eapply Forall_impl; [|exact HR]; simpl; intros; lra|].
        constructor; [simpl; lra|constructor].
      * eapply arranged_sorted_end; eauto.
    + intros l Hl HF. pose proof (noncrossing_ev b B bs l Hb HB Hlen Hl HA) as HE.
      destruct (evb (length b) (map (kappa (bs ++ [(1, END)])) l)) eqn:E.
      * left. unfold fev. rewrite E. split; auto. apply HE, evb_ev, E.
      * right. unfold fev. rewrite E. split; auto. intros Hn. apply HE, evb_ev in Hn. congruence.
  - reflexivity.
  - apply (count_b_arranged b B); auto.
  - rewrite Hlen. apply (count_B_arranged b B); auto.
  - constructor.
  - intros; lia.
  - intros; lia.
Qed.
