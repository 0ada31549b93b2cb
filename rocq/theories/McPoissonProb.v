(** * McPoissonProb: the probability that a simulated Poisson process stays inside. *)
From Coquelicot Require Import Coquelicot.
From Coq Require Import ZArith Reals List Bool Lia Lra Permutation Sorted Factorial.
From Verif Require Import Base Num TinyMT MonteCarlo RSum Spec SpecFacts OrderVol UniformWalk ProbSums XReal McSpec McProbSpec McFacts McLoop.
Import List. Import ListNotations.
Local Open Scope R_scope.
Notation total := McSpec.total.

Lemma total_map_scal c (l : list R) : total (map (fun x => c * x) l) = c * total l.
Proof. unfold total. induction l as [|x l IH]; simpl; [ring|]. rewrite IH. ring. Qed.

Lemma inside_iff fin t cs : forall s us,
  inside fin t cs s us <->
  length us = S (length cs) /\
  (forall i, (i < length cs)%nat ->
     fst (nth i cs (0, 0)) <= s + total (firstn (S i) (map (fun u => - ln u) us)) <= snd (nth i cs (0, 0)) /\
     s + total (firstn (S i) (map (fun u => - ln u) us)) <= t) /\
  fin (s + total (map (fun u => - ln u) us)).
Proof.
  induction cs as [|[l h] r IH]; intros s us; cbn [inside].
  - destruct us as [|u [|v us]]; simpl.
    + split; [tauto|]. intros (H & _). discriminate.
    + unfold total; simpl. replace (s + (- ln u + 0)) with (s - ln u) by ring.
      split; [intros H; repeat split; auto; intros; lia|tauto].
    + split; [tauto|]. intros (H & _). discriminate.
  - destruct us as [|u us].
    + split; [tauto|]. intros (H & _). discriminate.
    + rewrite IH.
      assert (E : forall k, s - ln u + total (firstn k (map (fun u => - ln u) us)) =
                  s + total (firstn (S k) (map (fun u => - ln u) (u :: us)))).
      { intros k. unfold total. simpl. ring. }
      assert (E0 : s - ln u + total (map (fun u => - ln u) us) = s + total (map (fun u => - ln u) (u :: us))).
      { unfold total. simpl. ring. }
      rewrite E0. split.
      * intros (H0 & Hl & Hi & Hf). split; [simpl; lia|]. split; auto. intros [|i] Hi'.
        -- unfold total. simpl. replace (s + (- ln u + 0)) with (s - ln u) by ring. exact H0.
        -- rewrite <- E. apply Hi. simpl in Hi'. lia.
      * intros (Hl & Hi & Hf). split; [|split; [simpl in Hl; lia|split; auto]].
        -- specialize (Hi 0%nat). unfold total in Hi. simpl in Hi.
           replace (s + (- ln u + 0)) with (s - ln u) in Hi by ring. apply Hi. lia.
        -- intros i Hi'. rewrite E. apply (Hi (S i)). simpl. lia.
Qed.

Lemma jump_times_length es : length (jump_times es) = length es.
Proof. unfold jump_times. rewrite map_length, seq_length. reflexivity. Qed.
Lemma jump_times_nth es i : (i < length es)%nat -> nth i (jump_times es) 0 = total (firstn (S i) es).
Proof.
  intros H. unfold jump_times.
  rewrite (nth_indep _ 0 ((fun k => total (firstn k es)) 0%nat)) by (rewrite map_length, seq_length; lia).
  rewrite (map_nth (fun k => total (firstn k es))). rewrite seq_nth by lia. reflexivity.
Qed.

Lemma nth_firstn {A} (d : A) k i l : (i < k)%nat -> nth i (firstn k l) d = nth i l d.
Proof.
  revert i l. induction k as [|k IH]; intros i l H; [lia|]. destruct l as [|x l]; [destruct i; reflexivity|].
  destruct i as [|i]; simpl; auto. apply IH. lia.
Qed.
Lemma firstn_firstn_le {A} i k (l : list A) : (i <= k)%nat -> firstn i (firstn k l) = firstn i l.
Proof. intros H. rewrite firstn_firstn. f_equal. lia. Qed.
Lemma nth_scale t cs i : (i < length cs)%nat ->
  nth i (scale t cs) (0, 0) = (t * fst (nth i cs (0, 0)), t * snd (nth i cs (0, 0))).
Proof.
  intros H. unfold scale.
  rewrite (nth_indep _ (0, 0) ((fun c : R * R => (t * fst c, t * snd c)) (0, 0))) by (rewrite map_length; auto).
  apply (map_nth (fun c : R * R => (t * fst c, t * snd c))).
Qed.
Lemma scale_length t cs : length (scale t cs) = length cs.
Proof. apply map_length. Qed.

Lemma Forall_firstn_nth (P : R -> Prop) k l : (k <= length l)%nat ->
  (Forall P (firstn k l) <-> forall i, (i < k)%nat -> P (nth i l 0)).
Proof.
  intros Hk. split.
  - intros H i Hi. rewrite <- (nth_firstn 0 k) by auto. rewrite Forall_forall in H. apply H. apply nth_In.
    rewrite firstn_length_le by auto. exact Hi.
  - intros H. apply Forall_forall. intros x Hx. apply (In_nth _ _ 0) in Hx. destruct Hx as (i & Hi & <-).
    rewrite firstn_length_le in Hi by auto. rewrite nth_firstn by auto. auto.
Qed.

Section P.
Variables (b B : list R) (lambda : R).
Hypothesis Hl : 0 < lambda.

(** the bounds of the first k jumps *)
Definition boundsk (k : nat) : list (R * R) := combine (firstn k b) (B ++ repeat 1 (k - length B)).

Lemma boundsk_length k : (length B <= k <= length b)%nat -> length (boundsk k) = k.
Proof. intros H. unfold boundsk. rewrite combine_length, firstn_length, app_length, repeat_length. lia. Qed.
Lemma boundsk_nth k i : (length B <= k <= length b)%nat -> (i < k)%nat ->
  nth i (boundsk k) (0, 0) = (nth i b 0, if (i <? length B)%nat then nth i B 0 else 1).
Proof.
  intros H Hi. unfold boundsk.
  rewrite combine_nth by (rewrite firstn_length, app_length, repeat_length; lia).
  rewrite nth_firstn by lia. f_equal.
  destruct (Nat.ltb_spec i (length B)) as [L|L].
  - apply app_nth1. auto.
  - rewrite app_nth2 by lia. rewrite (nth_indep _ 0 1) by (rewrite repeat_length; lia). apply nth_repeat.
Qed.

Let jumps us := jump_times (map (fun u => / lambda * - ln u) us).

Lemma jumps_nth us i : (i < length us)%nat -> lambda * nth i (jumps us) 0 = total (firstn (S i) (map (fun u => - ln u) us)).
Proof.
  intros H. unfold jumps. rewrite jump_times_nth by (rewrite map_length; auto).
  rewrite <- (map_map (fun u => - ln u) (fun x => / lambda * x)), firstn_map, total_map_scal. field. lra.
Qed.

Definition exactly (k : nat) (us : list R) : Prop :=
  Forall (fun t => t <= 1) (firstn k (jumps us)) /\ 1 < nth k (jumps us) 0 /\ stays_inside b B (firstn k (jumps us)).

Lemma exactly_iff k us : (S k <= length us)%nat -> (length B <= k <= length b)%nat ->
  (exactly k us <-> inside (fun x => lambda < x) lambda (scale lambda (boundsk k)) 0 (firstn (S k) us)).
Proof using Hl.
  intros Hus Hk. rewrite inside_iff, scale_length, boundsk_length by auto. unfold exactly.
  assert (HJ : length (jumps us) = length us) by (unfold jumps; rewrite jump_times_length, map_length; auto).
  rewrite <- (firstn_map (fun u => - ln u)).
  rewrite Forall_firstn_nth by lia.
  assert (T : forall i, (i <= k)%nat -> 0 + total (firstn (S i) (firstn (S k) (map (fun u => - ln u) us))) = lambda * nth i (jumps us) 0).
  { intros i Hi. rewrite firstn_firstn_le by lia. rewrite jumps_nth by lia. ring. }
  assert (TT : 0 + total (firstn (S k) (map (fun u => - ln u) us)) = lambda * nth k (jumps us) 0).
  { rewrite jumps_nth by lia. ring. }
  rewrite TT.
  assert (LF : length (firstn k (jumps us)) = k) by (apply firstn_length_le; lia).
  unfold stays_inside. rewrite LF. split.
  - intros (H1 & H2 & _ & HB & Hb). split; [rewrite firstn_length_le; lia|]. split.
    + intros i Hi. rewrite T by lia. rewrite nth_scale by (rewrite boundsk_length; auto).
      rewrite boundsk_nth by auto. cbn [fst snd].
      assert (L1 : nth i (jumps us) 0 <= 1) by auto.
      assert (L2 : nth i b 0 <= nth i (jumps us) 0).
      { destruct Hb as [->|(_ & Hb)]; [simpl in Hk; lia|]. rewrite <- (nth_firstn 0 k i (jumps us)) by auto. auto. }
      repeat split.
      * apply Rmult_le_compat_l; lra.
      * apply Rmult_le_compat_l; [lra|]. destruct (Nat.ltb_spec i (length B)) as [L|L]; [|lra].
        rewrite <- (nth_firstn 0 k i (jumps us)) by auto. auto.
      * rewrite <- (Rmult_1_r lambda) at 2. apply Rmult_le_compat_l; lra.
    + rewrite <- (Rmult_1_r lambda) at 1. apply Rmult_lt_compat_l; lra.
  - intros (_ & Hi & Hf).
    assert (H0 : forall i, (i < k)%nat -> nth i b 0 <= nth i (jumps us) 0 <= (if (i <? length B)%nat then nth i B 0 else 1) /\ nth i (jumps us) 0 <= 1).
    { intros i Hik. specialize (Hi i Hik). rewrite T in Hi by lia.
      rewrite nth_scale in Hi by (rewrite boundsk_length; auto). rewrite boundsk_nth in Hi by auto. cbn [fst snd] in Hi.
      destruct Hi as ((A1 & A2) & A3). repeat split; apply Rmult_le_reg_l with lambda; lra. }
    repeat split.
    + intros i Hik. apply H0; auto.
    + apply Rmult_lt_reg_l with lambda; lra.
    + lia.
    + intros i HiB. rewrite nth_firstn by lia. specialize (H0 i ltac:(lia)).
      rewrite (proj2 (Nat.ltb_lt i (length B)) HiB) in H0. apply H0.
    + right. split; [lia|]. intros i Hik. rewrite nth_firstn by lia. apply H0; auto.
Qed.

Lemma exactly_prob k : (length B <= k <= length b)%nat ->
  is_prob (S (length b)) (exactly k) (exp (- lambda) * lambda ^ k * vol 1 (boundsk k) 0).
Proof using Hl.
  intros Hk.
  eapply is_prob_ext with (A := fun us => inside (fun x => lambda < x) lambda (scale lambda (boundsk k)) 0 (firstn (S k) us)).
  { intros us L _. symmetry. apply exactly_iff; lia. }
  replace (S (length b)) with (S k + (length b - k))%nat by lia.
  apply is_prob_firstn.
  pose proof (beyond_prob lambda (scale lambda (boundsk k)) 0 ltac:(lra)) as H.
  rewrite scale_length, boundsk_length in H by auto.
  replace 0 with (lambda * 0) in H at 3 by ring. rewrite vol_scale, boundsk_length, exp_0, Rmult_1_r in H by (auto; lra).
  rewrite Rmult_assoc. exact H.
Qed.

Lemma exactly_disjoint i j us : (i < j)%nat -> (j < length us)%nat -> ~ (exactly i us /\ exactly j us).
Proof.
  intros Hij Hj ((_ & H1 & _) & (H2 & _)).
  rewrite Forall_firstn_nth in H2 by (unfold jumps; rewrite jump_times_length, map_length; lia).
  specialize (H2 i Hij). lra.
Qed.
End P.

Lemma valid_firstn k l : valid_boundary l -> valid_boundary (firstn k l).
Proof.
  intros [S F]. split.
  - apply (Sorted_StronglySorted Rle_trans) in S. apply StronglySorted_Sorted. revert k. induction S as [|x l S IH HF]; intros [|k]; simpl; try constructor.
    + apply IH. inversion F; auto.
    + apply Forall_forall. intros y Hy. rewrite Forall_forall in HF. apply HF. rewrite <- (firstn_skipn k l). apply in_or_app; auto.
  - apply Forall_forall. intros y Hy. rewrite Forall_forall in F. apply F. rewrite <- (firstn_skipn k l). apply in_or_app; auto.
Qed.
Lemma valid_pad l k : valid_boundary l -> valid_boundary (l ++ repeat 1 k).
Proof.
  intros [S F]. split.
  - apply (Sorted_StronglySorted Rle_trans) in S. apply StronglySorted_Sorted. induction S as [|x l S IH HF]; simpl.
    + induction k as [|k IH]; simpl; constructor; auto. apply Forall_forall. intros y Hy. apply repeat_spec in Hy. lra.
    + inversion F; subst. constructor; auto. apply Forall_app; split; auto.
      apply Forall_forall. intros y Hy. apply repeat_spec in Hy. lra.
  - apply Forall_app; split; auto. apply Forall_forall. intros y Hy. apply repeat_spec in Hy. lra.
Qed.

Theorem poisson_inside_prob (b B : list R) lambda (p : nat -> R) :
  valid_boundary b -> valid_boundary B -> (length B <= length b)%nat -> 0 < lambda ->
  (forall k, (length B <= k <= length b)%nat ->
     is_noncrossing_probability (firstn k b) (B ++ repeat 1 (k - length B)) (p k)) ->
  is_prob (S (length b)) (poisson_inside (/ lambda) b B)
    (sum_f_R0 (fun i => exp (- lambda) * lambda ^ (length B + i) / INR (fact (length B + i)) * p (length B + i)%nat)
       (length b - length B)).
Proof.
  intros Vb VB Hlen Hl Hp. rewrite <- rsum_sum_f_R0.
  eapply is_prob_ext; [|apply (is_prob_exists (S (length b)) (S (length b - length B)) (fun i => exactly b B lambda (length B + i)))].
  - intros us Lus _. split.
    + intros (i & Hi & H1 & H2 & H3). exists (length B + i)%nat. split; [lia|]. split; [exact H1|]. split; [exact H2|exact H3].
    + intros (k & Hk & H1 & H2 & H3).
      assert (length B <= k)%nat.
      { destruct H3 as (H3 & _). rewrite firstn_length in H3. lia. }
      exists (k - length B)%nat. split; [lia|]. replace (length B + (k - length B))%nat with k by lia.
      split; [exact H1|]. split; [exact H2|exact H3].
  - intros i Hi. set (k := (length B + i)%nat).
    pose proof (exactly_prob b B lambda Hl k ltac:(unfold k; lia)) as H.
    replace (exp (- lambda) * lambda ^ k / INR (fact k) * p k) with (exp (- lambda) * lambda ^ k * vol 1 (boundsk b B k) 0); [exact H|].
    specialize (Hp k ltac:(unfold k; lia)). destruct Hp as (_ & Hp).
    assert (Lk : length (firstn k b) = k) by (apply firstn_length_le; unfold k; lia).
    pose proof (prob_is_vol (firstn k b) (B ++ repeat 1 (k - length B)) (valid_firstn k b Vb) (valid_pad B _ VB)) as V.
    rewrite Lk in *. specialize (V ltac:(rewrite app_length, repeat_length; unfold k; lia)). destruct V as (_ & V).
    rewrite Lk in V. rewrite (is_prob_unique _ _ _ _ Hp V). unfold boundsk. field. apply fact_neq.
  - intros i j us Hij Lus _. apply exactly_disjoint; lia.
Qed.

(** ** The simulation decides this event. *)
Section Code.
Context {frexp : xr -> Z}.
Notation XN := (Xnum frexp).

Lemma first_beyond (l : list R) : Forall (fun t => t <= 1) l \/
  exists k, (k < length l)%nat /\ Forall (fun t => t <= 1) (firstn k l) /\ 1 < nth k l 0.
Proof.
  induction l as [|x l IH]; [left; constructor|]. destruct (Rle_lt_dec x 1) as [H|H].
  - destruct IH as [IH|(k & Hk & H1 & H2)]; [left; constructor; auto|right].
    exists (S k). simpl. split; [lia|]. split; auto.
  - right. exists 0%nat. simpl. split; [lia|]. split; auto.
Qed.

Theorem poisson_decides (b B us : list R) beta r r' : 0 < beta -> b <> [] ->
  length us = S (length b) -> Forall (fun v => 0 < v < 1) us -> draws (N := XN) r (map Fin us) r' ->
  exists c r1, does_random_poisson_process_cross (N := XN) (map Fin b) (map Fin B) (Fin beta) r = Ok (c, r1) /\
    (c = false <-> poisson_inside beta b B us).
Proof.
  intros Hbeta NE L F D. unfold poisson_inside. cbv zeta. set (es := map (fun u => beta * - ln u) us).
  assert (Le : length es = length us) by apply map_length.
  destruct (first_beyond (jump_times es)) as [H|(k & Hk & H1 & H2)].
  - exists true, r'. split.
    + unfold does_random_poisson_process_cross. rewrite map_length.
      change (@nil (car XN)) with (map Fin []). change (@n0 XN) with (Fin 0).
      apply (walk_overflow b B beta us Hbeta F); auto. rewrite <- jump_times_sums. exact H.
    + split; [discriminate|]. intros (k & Hk & _ & H2 & _). exfalso.
      rewrite Forall_forall in H. specialize (H (nth k (jump_times es) 0)).
      assert (nth k (jump_times es) 0 <= 1); [|lra]. apply H. apply nth_In. rewrite jump_times_length. lia.
  - rewrite jump_times_length, Le in Hk.
    assert (Eus : us = (firstn k us ++ [nth k us 0]) ++ skipn (S k) us).
    { clear - Hk. revert k Hk. induction us as [|x us IH]; intros [|k] Hk; simpl in *; try lia; auto.
      f_equal. apply IH. lia. }
    pose proof D as D0. pose proof F as F0. rewrite Eus in D, F. rewrite map_app in D.
    destruct (draws_split (N := XN) _ r _ r' D) as (r2 & D1 & _).
    apply Forall_app in F. destruct F as (F1 & _).
    assert (Ej : jump_times (map (fun v => beta * - ln v) (firstn k us)) = firstn k (jump_times es)).
    { apply (nth_ext _ _ 0 0).
      - rewrite jump_times_length, map_length, !firstn_length, jump_times_length. lia.
      - intros i Hi. rewrite jump_times_length, map_length, firstn_length_le in Hi by lia.
        rewrite nth_firstn by lia. rewrite !jump_times_nth by (rewrite ?map_length, ?firstn_length; lia).
        rewrite <- firstn_map. fold es. rewrite firstn_firstn_le by lia. reflexivity. }
    destruct (poisson_cross_spec (frexp := frexp) b B beta (firstn k us) (nth k us 0) r r2 Hbeta NE F1 D1) as (c & r1 & HC & HS).
    + rewrite Ej. exact H1.
    + rewrite jump_times_nth in H2 by lia.
      assert (ET : firstn (S k) es = map (fun v => beta * - ln v) (firstn k us) ++ [beta * - ln (nth k us 0)]).
      { transitivity (map (fun u => beta * - ln u) (firstn k us ++ [nth k us 0])); [|rewrite map_app; reflexivity].
        unfold es. rewrite firstn_map. f_equal. rewrite Eus at 1.
        rewrite firstn_app. replace (length (firstn k us ++ [nth k us 0])) with (S k).
        2:{ rewrite app_length, firstn_length_le by lia. simpl. lia. }
        rewrite Nat.sub_diag. simpl (firstn 0 _). rewrite app_nil_r. apply firstn_all2.
        rewrite app_length, firstn_length_le by lia. simpl. lia. }
      rewrite ET, total_app in H2. unfold total at 2 in H2. simpl in H2. lra.
    + exists c, r1. split; [exact HC|]. rewrite HS, Ej. split.
      * intros H3. exists k. auto.
      * intros (j & Hj & H3 & H4 & H5).
        assert (j = k); [|subst; exact H5].
        rewrite Forall_firstn_nth in H1, H3 by (rewrite jump_times_length; lia).
        destruct (Nat.lt_trichotomy j k) as [Hjk|[Hjk|Hjk]]; auto; exfalso.
        -- specialize (H1 j Hjk). lra.
        -- specialize (H3 k Hjk). lra.
Qed.
End Code.
