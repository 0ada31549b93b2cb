(** * OrderVol: volumes of ordered points between boundaries. *)
From Coquelicot Require Import Coquelicot.
From Flocq Require Import Core.Raux.
From Coq Require Import ZArith Reals List Bool Lia Lra Permutation Sorted Factorial.
From Verif Require Import Base Num RSum Spec SpecFacts Cells Events.
Import List. Import ListNotations.
Local Open Scope R_scope.

(** The Riemann integral, as a real number (not an element of a normed module). *)
Definition rint (f : R -> R) (a b : R) : R := RInt f a b.

(** Volume of the x_1 <= ... <= x_m with s <= x_1, x_m <= t and l_i <= x_i <= h_i. *)
Fixpoint vol (t : R) (cs : list (R * R)) (s : R) : R :=
  match cs with
  | [] => 1
  | (l, h) :: r => rint (vol t r) (Rmin (Rmax s l) (Rmin t h)) (Rmin t h)
  end.

Lemma continuous_clip l c s : continuous (fun x : R => Rmin (Rmax x l) c) s.
Proof.
  apply (continuous_ext (fun x : R => ((x + l + Rabs (x - l)) / 2 + c - Rabs ((x + l + Rabs (x - l)) / 2 - c)) / 2)).
  { intros x. assert (E : (x + l + Rabs (x - l)) / 2 = Rmax x l).
    { unfold Rmax, Rabs. destruct (Rle_dec x l), (Rcase_abs (x - l)); lra. }
    rewrite E. unfold Rmin, Rabs. destruct (Rle_dec (Rmax x l) c), (Rcase_abs (Rmax x l - c)); lra. }
  assert (H1 : continuous (fun x : R => Rabs (x - l)) s).
  { apply (continuous_Rabs_comp (fun x : R => x - l)).
    apply (continuous_minus (V := R_NormedModule)); [apply continuous_id|apply continuous_const]. }
  assert (H2 : continuous (fun x : R => (x + l + Rabs (x - l)) / 2) s).
  { apply (continuous_scal_l (V := R_NormedModule) (fun x : R => x + l + Rabs (x - l)) (/ 2) s).
    apply (continuous_plus (V := R_NormedModule) (fun x : R => x + l)); [|exact H1].
    apply (continuous_plus (V := R_NormedModule) (fun x : R => x)); [apply continuous_id|apply continuous_const]. }
  apply (continuous_scal_l (V := R_NormedModule)
    (fun x : R => (x + l + Rabs (x - l)) / 2 + c - Rabs ((x + l + Rabs (x - l)) / 2 - c)) (/ 2) s).
  apply (continuous_minus (V := R_NormedModule) (fun x : R => (x + l + Rabs (x - l)) / 2 + c)).
  - apply (continuous_plus (V := R_NormedModule)); [exact H2|apply continuous_const].
  - apply (continuous_Rabs_comp (fun x : R => (x + l + Rabs (x - l)) / 2 - c)).
    apply (continuous_minus (V := R_NormedModule)); [exact H2|apply continuous_const].
Qed.

Lemma RInt_clip_continuous (f : R -> R) (g : R -> R) c s : (forall x, continuous f x) ->
  continuous g s -> continuous (fun x => RInt f (g x) c) s.
Proof.
  intros Hf Hg. apply (continuous_comp g (fun y => RInt f y c)); [exact Hg|].
  apply (continuous_RInt_2 f (g s) c).
  exists (mkposreal 1 Rlt_0_1). intros z _. apply (RInt_correct (V := R_CompleteNormedModule)).
  apply (ex_RInt_continuous (V := R_CompleteNormedModule)). auto.
Qed.

Lemma vol_continuous t cs : forall s, continuous (vol t cs) s.
Proof.
  induction cs as [|[l h] r IH]; intros s; cbn [vol].
  - apply continuous_const.
  - apply (RInt_clip_continuous (vol t r) (fun x => Rmin (Rmax x l) (Rmin t h))); [exact IH|].
    apply continuous_clip.
Qed.

Lemma vol_ex t cs a b : ex_RInt (vol t cs) a b.
Proof. apply (ex_RInt_continuous (V := R_CompleteNormedModule)). intros. apply vol_continuous. Qed.
Lemma vol_is t cs a b : is_RInt (vol t cs) a b (RInt (vol t cs) a b).
Proof. apply (RInt_correct (V := R_CompleteNormedModule)), vol_ex. Qed.

Lemma is_RInt_rsum n (f : nat -> R -> R) (v : nat -> R) a b :
  (forall i, (i < n)%nat -> is_RInt (f i) a b (v i)) ->
  is_RInt (fun x => rsum n (fun i => f i x)) a b (rsum n v).
Proof.
  induction n as [|n IH]; intros H; cbn [rsum].
  - apply is_RInt_const_eq. ring.
  - apply (is_RInt_plus (V := R_NormedModule)); [apply IH; auto|apply H; lia].
Qed.

Lemma is_RInt_mono_rev (c x : R) k : is_RInt (fun y => mono (c - y) k) x c (mono (c - x) (S k)).
Proof.
  replace (mono (c - x) (S k)) with (minus (- mono (c - c) (S k)) (- mono (c - x) (S k))).
  2:{ unfold minus, plus, opp; simpl. rewrite Rminus_diag_eq by reflexivity.
      rewrite mono_zero. simpl. ring. }
  apply (is_RInt_derive (V := R_CompleteNormedModule) (fun y => - mono (c - y) (S k)) (fun y => mono (c - y) k)).
  - intros y _.
    assert (E : mono (c - y) k = / INR (fact (S k)) * (INR (S k) * (c - y) ^ k)).
    { unfold mono. rewrite fact_simpl, mult_INR. field. split; [apply fact_neq|]. apply not_0_INR; lia. }
    rewrite E. unfold mono. generalize (INR (fact (S k))). intros w.
    unfold Rdiv. auto_derive; [exact I|].
    change (match k with O => 1 | S _ => INR k + 1 end) with (INR (S k)). unfold Rminus. ring.
  - intros y _. apply (ex_derive_continuous (V := R_NormedModule)). unfold mono. generalize (INR (fact k)). intros w. unfold Rdiv. auto_derive. exact I.
Qed.

(** Moving the starting point across an interval that contains no breakpoint. *)
Lemma vol_advance t loc cs : forall q prev x, prev <= x <= loc -> loc <= t -> (q <= length cs)%nat ->
  (forall i, (i < q)%nat -> fst (nth i cs (0, 0)) <= prev) ->
  (forall i, (i < length cs)%nat -> loc <= snd (nth i cs (0, 0))) ->
  (forall i, (q <= i < length cs)%nat -> loc <= fst (nth i cs (0, 0))) ->
  vol t cs x = rsum (S (length cs)) (fun j => mono (loc - x) j * (if (j <=? q)%nat then vol t (skipn j cs) loc else 0)).
Proof.
  induction cs as [|[l h] r IH]; intros q prev x Hx Ht Hq Hl Hh Hb.
  - simpl. rewrite mono_0. destruct q; simpl; ring.
  - rewrite rsum_first. rewrite mono_0. cbn [length]. destruct q as [|q].
    + rewrite (rsum_0 (S (length r))) by (intros; simpl; ring). cbn [skipn Nat.leb].
      assert (L : loc <= l) by (apply (Hb 0%nat); simpl; lia).
      cbn [vol]. rewrite !Rmax_right by lra. ring.
    + cbn [Nat.leb skipn].
      assert (L : l <= prev) by (apply (Hl 0%nat); lia).
      assert (Hc : loc <= Rmin t h) by (apply Rmin_glb; [lra|apply (Hh 0%nat); simpl; lia]).
      assert (E1 : vol t ((l, h) :: r) x = rint (vol t r) x (Rmin t h)).
      { cbn [vol]. rewrite Rmax_left by lra. rewrite Rmin_left by lra. reflexivity. }
      assert (E2 : vol t ((l, h) :: r) loc = rint (vol t r) loc (Rmin t h)).
      { cbn [vol]. rewrite Rmax_left by lra. rewrite Rmin_left by lra. reflexivity. }
      rewrite E1, E2. unfold rint. rewrite <- (RInt_Chasles (V := R_CompleteNormedModule) _ x loc) by apply vol_ex.
      match goal with |- plus ?u ?v = _ => change (plus u v) with (u + v) end.
      rewrite Rmult_1_l, Rplus_comm. f_equal.
      apply is_RInt_unique.
      eapply is_RInt_ext with (f := fun y => rsum (S (length r)) (fun j => mono (loc - y) j * (if (j <=? q)%nat then vol t (skipn j r) loc else 0))).
      { intros y Hy. rewrite Rmin_left, Rmax_right in Hy by lra. symmetry.
        apply (IH q prev); try lra; simpl in Hq; try lia.
        - intros i Hi. apply (Hl (S i)); lia.
        - intros i Hi. apply (Hh (S i)); simpl; lia.
        - intros i Hi. apply (Hb (S i)); simpl; lia. }
      apply is_RInt_rsum. intros j Hj.
      rewrite Rmult_comm.
      eapply is_RInt_ext with (f := fun y => scal (if (j <=? q)%nat then vol t (skipn j r) loc else 0) (mono (loc - y) j)).
      { intros y _. unfold scal; simpl. unfold mult; simpl. ring. }
      apply (is_RInt_scal (V := R_NormedModule)). apply is_RInt_mono_rev.
Qed.

Lemma vol_dead t l loc r : loc <= t -> vol t ((l, loc) :: r) loc = 0.
Proof.
  intros. cbn [vol]. rewrite (Rmin_right t loc) by lra.
  rewrite Rmin_right by (apply Rmax_l). apply (RInt_point (V := R_CompleteNormedModule)).
Qed.

Lemma skipn_twice {A} i j (l : list A) : skipn i (skipn j l) = skipn (j + i) l.
Proof. revert l. induction j as [|j IH]; intros [|x l]; simpl; auto. apply skipn_nil. Qed.

Lemma skipn_In_nth (d : R) l k i : (k <= i < length l)%nat -> In (nth i l d) (skipn k l).
Proof.
  intros H. replace (nth i l d) with (nth (i - k) (skipn k l) d).
  - apply nth_In. rewrite skipn_length. lia.
  - rewrite <- (firstn_skipn k l) at 2. rewrite app_nth2; rewrite firstn_length_le by lia; [reflexivity|lia].
Qed.

Lemma skipn_cons_nth (d : R) l k x r : skipn k l = x :: r -> nth k l d = x /\ skipn (S k) l = r /\ (k < length l)%nat.
Proof.
  revert l. induction k as [|k IH]; intros [|y l] H; simpl in *; try discriminate.
  - injection H as -> ->. repeat split; auto. lia.
  - destruct (IH l H) as (A & B & C). repeat split; auto. lia.
Qed.

Section DVol.
Variables (b B : list R) (n : nat).
Hypotheses (Hb : length b = n) (HB : length B = n).

Lemma combine_skipn o i : (o + i < n)%nat ->
  nth i (skipn o (combine b B)) (0, 0) = (nth (o + i) b 0, nth (o + i) B 0).
Proof.
  intros. rewrite <- combine_nth by lia.
  rewrite <- (firstn_skipn o (combine b B)) at 2.
  rewrite app_nth2; rewrite firstn_length_le by (rewrite combine_length; lia); [f_equal|]; lia.
Qed.

Lemma combine_skipn_length o : length (skipn o (combine b B)) = (n - o)%nat.
Proof. rewrite skipn_length, combine_length. lia. Qed.

Theorem D_vol steps : forall beta gamma o prev N,
  (gamma <= o <= beta)%nat -> (o + N = n)%nat -> (beta <= n)%nat ->
  map fst (filter is_b steps) = skipn beta b -> map fst (filter is_B steps) = skipn gamma B ->
  loc_sorted steps -> Forall (fun s => prev <= fst s <= 1) steps ->
  (forall i, (i < beta)%nat -> nth i b 0 <= prev) ->
  D o beta gamma prev steps N = vol 1 (skipn o (combine b B)) prev.
Proof using Hb HB.
  induction steps as [|[loc tg] r IH]; intros beta gamma o prev N Ho HN Hbn Eb EB Hs HF Hp.
  - cbn [D]. simpl in EB. symmetry in EB. apply (f_equal (@length R)) in EB. rewrite skipn_length in EB. simpl in EB.
    replace N with 0%nat by lia. simpl.
    rewrite skipn_all2 by (rewrite combine_length; lia). reflexivity.
  - cbn [D]. apply StronglySorted_inv in Hs. destruct Hs as [Hs' HFs].
    pose proof (Forall_inv HF) as Hpl. pose proof (Forall_inv_tail HF) as HF'. simpl in Hpl, HFs.
    assert (HFr : Forall (fun s : R * bound_tag => loc <= fst s <= 1) r).
    { rewrite Forall_forall in *. intros s Hin. split; [apply HFs; auto|apply HF'; auto]. }
    assert (Ball : forall i, (gamma <= i < n)%nat -> loc <= nth i B 0).
    { intros i Hi. pose proof (skipn_In_nth 0 B gamma i ltac:(lia)) as Hin. rewrite <- EB in Hin.
      apply in_map_iff in Hin. destruct Hin as (s & <- & Hin). apply filter_In in Hin. destruct Hin as [[<-|Hin] _]; simpl; [lra|].
      rewrite Forall_forall in HFs. apply HFs; auto. }
    assert (ball : forall i, (beta <= i < n)%nat -> loc <= nth i b 0).
    { intros i Hi. pose proof (skipn_In_nth 0 b beta i ltac:(lia)) as Hin. rewrite <- Eb in Hin.
      apply in_map_iff in Hin. destruct Hin as (s & <- & Hin). apply filter_In in Hin. destruct Hin as [[<-|Hin] _]; simpl; [lra|].
      rewrite Forall_forall in HFs. apply HFs; auto. }
    rewrite (vol_advance 1 loc _ (beta - o) prev prev); try lra.
    2:{ rewrite combine_skipn_length. lia. }
    2:{ intros i Hi. rewrite combine_skipn by lia. simpl. apply Hp. lia. }
    2:{ intros i Hi. rewrite combine_skipn_length in Hi. rewrite combine_skipn by lia. simpl. apply Ball. lia. }
    2:{ intros i Hi. rewrite combine_skipn_length in Hi. rewrite combine_skipn by lia. simpl. apply ball. lia. }
    rewrite combine_skipn_length. replace (n - o)%nat with N by lia.
    apply rsum_ext. intros j Hj. f_equal.
    rewrite skipn_twice.
    destruct (Nat.leb_spec j (beta - o)) as [Hjb|Hjb].
    2:{ destruct (Nat.leb_spec (o + j) beta); [lia|]. rewrite andb_false_r. reflexivity. }
    destruct (Nat.leb_spec (o + j) beta) as [_|?]; [|lia]. rewrite andb_true_r.
    destruct (Nat.leb_spec (next_B tg gamma) (o + j)) as [HG|HG].
    + apply IH; auto; try lia.
      * destruct tg; simpl in *; lia.
      * destruct tg; simpl in *; try lia. simpl in Eb. symmetry in Eb.
        apply (skipn_cons_nth 0) in Eb. lia.
      * destruct tg; simpl in *; auto. symmetry in Eb. apply (skipn_cons_nth 0) in Eb. symmetry; apply Eb.
      * destruct tg; simpl in *; auto. symmetry in EB. apply (skipn_cons_nth 0) in EB. symmetry; apply EB.
      * intros i Hi. destruct (Nat.lt_ge_cases i beta) as [Hlt|Hge]; [apply Rle_trans with prev; [auto|lra]|].
        destruct tg; simpl in *; try lia.
        symmetry in Eb. apply (skipn_cons_nth 0) in Eb. replace i with beta by lia. destruct Eb as (-> & _). lra.
    + destruct tg; simpl in HG; try lia. assert (o = gamma /\ j = 0)%nat as [-> ->] by lia.
      rewrite Nat.add_0_r. simpl in EB. symmetry in EB.
      apply (skipn_cons_nth 0) in EB. destruct EB as (E1 & _ & E3).
      assert (H0 : nth 0 (skipn gamma (combine b B)) (0, 0) = (nth gamma b 0, loc)).
      { rewrite combine_skipn by lia. rewrite Nat.add_0_r, E1. reflexivity. }
      destruct (skipn gamma (combine b B)) as [|[l h] q] eqn:ES.
      * apply (f_equal (@length _)) in ES. rewrite combine_skipn_length in ES. simpl in ES. lia.
      * simpl in H0. injection H0 as -> ->. symmetry. apply vol_dead. lra.
Qed.
End DVol.

Lemma filter_map_tag (P : R * bound_tag -> bool) t (l : list R) :
  (forall x, P (x, t) = true) -> map fst (filter P (map (fun x => (x, t)) l)) = l.
Proof. intros H. induction l as [|x l IH]; simpl; auto. rewrite H. simpl. rewrite IH. reflexivity. Qed.
Lemma filter_map_tag0 (P : R * bound_tag -> bool) t (l : list R) :
  (forall x, P (x, t) = false) -> map fst (filter P (map (fun x => (x, t)) l)) = [].
Proof. intros H. induction l as [|x l IH]; simpl; auto. rewrite H. auto. Qed.

Lemma filter_Permutation {A} (P : A -> bool) l l' : Permutation l l' -> Permutation (filter P l) (filter P l').
Proof.
  induction 1 as [|x l l' H IH|x y l|l l' l'' H1 IH1 H2 IH2]; simpl; auto.
  - destruct (P x); auto.
  - destruct (P x), (P y); auto. apply perm_swap.
  - eapply perm_trans; eauto.
Qed.

Lemma loc_sorted_filter (P : R * bound_tag -> bool) l : loc_sorted l -> StronglySorted Rle (map fst (filter P l)).
Proof.
  intros H. induction H as [|s l H IH HF]; simpl; [constructor|].
  destruct (P s); simpl; auto. constructor; auto.
  apply Forall_map. rewrite Forall_forall in *. intros x Hx. apply filter_In in Hx. apply HF. tauto.
Qed.

Lemma arranged_b b B bs : valid_boundary b -> arranged b B bs -> map fst (filter is_b bs) = b.
Proof.
  intros [Hs _] [HP HL]. apply sorted_perm_unique.
  - apply loc_sorted_filter; auto.
  - apply Sorted_strong; auto.
  - apply Permutation_sym. apply (filter_Permutation is_b) in HP. apply (Permutation_map fst) in HP.
    rewrite filter_app, map_app, filter_map_tag, filter_map_tag0, app_nil_r in HP by reflexivity. exact HP.
Qed.
Lemma arranged_B b B bs : valid_boundary B -> arranged b B bs -> map fst (filter is_B bs) = B.
Proof.
  intros [Hs _] [HP HL]. apply sorted_perm_unique.
  - apply loc_sorted_filter; auto.
  - apply Sorted_strong; auto.
  - apply Permutation_sym. apply (filter_Permutation is_B) in HP. apply (Permutation_map fst) in HP.
    rewrite filter_app, map_app, filter_map_tag0, filter_map_tag in HP by reflexivity. exact HP.
Qed.

(** Every pair of boundaries has a legal arrangement. *)
Fixpoint sinsert (s : R * bound_tag) (l : list (R * bound_tag)) : list (R * bound_tag) :=
  match l with
  | [] => [s]
  | x :: r => if Rle_bool (fst s) (fst x) then s :: l else x :: sinsert s r
  end.
Lemma sinsert_perm s l : Permutation (s :: l) (sinsert s l).
Proof.
  induction l as [|x r IH]; simpl; auto. destruct (Rle_bool (fst s) (fst x)); auto.
  eapply perm_trans; [apply perm_swap|]. auto.
Qed.
Lemma sinsert_sorted s l : loc_sorted l -> loc_sorted (sinsert s l).
Proof.
  intros H. induction H as [|x r H IH HF]; simpl; [constructor; constructor|].
  case Rle_bool_spec; intros Hc.
  - constructor; [constructor; auto|]. constructor; auto. eapply Forall_impl; [|exact HF]. simpl; intros; lra.
  - constructor; auto. eapply Permutation_Forall; [apply sinsert_perm|]. constructor; auto. lra.
Qed.
Lemma exists_arranged b B : exists bs, arranged b B bs.
Proof.
  set (l := map (fun x => (x, bSTEP)) b ++ map (fun x => (x, BSTEP)) B).
  exists (fold_right sinsert [] l). split; fold l; clearbody l.
  - induction l as [|s l IH]; simpl; auto. eapply perm_trans; [|apply sinsert_perm]. auto.
  - induction l as [|s l IH]; simpl; [constructor|]. apply sinsert_sorted; auto.
Qed.

(** The documented probability is n! times the volume of the ordered points between the boundaries. *)
Theorem prob_is_vol b B : valid_boundary b -> valid_boundary B -> length b = length B ->
  is_noncrossing_probability b B (INR (fact (length b)) * vol 1 (combine b B) 0).
Proof.
  intros Hb HB Hlen. destruct (exists_arranged b B) as (bs & HA).
  change (combine b B) with (skipn 0 (combine b B)).
  rewrite <- (D_vol b B (length b) eq_refl (eq_sym Hlen) (bs ++ [(1, END)]) 0 0 0 0 (length b)).
  - apply prob_is_D; auto.
  - lia.
  - lia.
  - lia.
  - rewrite filter_app, map_app. simpl. rewrite app_nil_r. eapply arranged_b; eauto.
  - rewrite filter_app, map_app. simpl. rewrite app_nil_r. eapply arranged_B; eauto.
  - eapply arranged_sorted_end; eauto.
  - apply Forall_app; split; [eapply arranged_range; eauto|]. constructor; [simpl; lra|constructor].
  - intros; lia.
Qed.
