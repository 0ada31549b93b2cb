(** * McPoissonEstimate: the law of the estimate of the poisson command. *)
From Coquelicot Require Import Coquelicot.
From Coq Require Import ZArith Reals List Bool Lia Lra Permutation Sorted Factorial.
From Flocq Require Import Core.Raux.
From Verif Require Import Base Num XReal TinyMT MonteCarlo RSum Spec SpecFacts OrderVol UniformWalk ProbSums McSpec McProbSpec McFacts McLoop McMore McPoissonProb McEcdfProb McEstimate.
Import List. Import ListNotations.
Local Open Scope R_scope.

Lemma jump_times_firstn k es : jump_times (firstn k es) = firstn k (jump_times es).
Proof.
  apply (nth_ext _ _ 0 0).
  - rewrite firstn_length, !jump_times_length, firstn_length. reflexivity.
  - intros i Hi. rewrite jump_times_length, firstn_length in Hi.
    rewrite nth_firstn by lia. rewrite !jump_times_nth by (rewrite ?firstn_length; lia).
    rewrite firstn_firstn_le by lia. reflexivity.
Qed.
Lemma jump_times_nonneg es : Forall (fun e => 0 <= e) es -> forall i, 0 <= nth i (jump_times es) 0.
Proof.
  intros F i. destruct (Nat.lt_ge_cases i (length es)) as [H|H].
  - rewrite jump_times_nth by auto. pose proof (Forall_firstn_R _ (S i) es F) as G. clear - G.
    unfold total. induction G as [|e l He G IH]; simpl; lra.
  - rewrite nth_overflow; [lra|]. rewrite jump_times_length. exact H.
Qed.
Lemma ln_le_0 u : 0 <= u <= 1 -> ln u <= 0.
Proof.
  intros (H0 & H1). destruct (Rle_lt_or_eq_dec 0 u H0) as [H|<-].
  - destruct (Rle_lt_or_eq_dec u 1 H1) as [G| ->]; [|rewrite ln_1; lra]. left. rewrite <- ln_1. apply ln_increasing; auto.
  - unfold ln. destruct (Rlt_dec 0 0) as [H|H]; [exfalso; lra|apply Rle_refl].
Qed.

Section P.
Variables (b B : list R) (lambda : R).
Hypothesis Hl : 0 < lambda.
Notation n := (length b).
Notation beta := (/ lambda).
Let jumps us := jump_times (map (fun u => beta * - ln u) us).

Lemma jumps_firstn k us : jumps (firstn k us) = firstn k (jumps us).
Proof. unfold jumps. rewrite <- jump_times_firstn, firstn_map. reflexivity. Qed.
Lemma jumps_length us : length (jumps us) = length us.
Proof. unfold jumps. rewrite jump_times_length, map_length. reflexivity. Qed.
Lemma jumps_nonneg us i : Forall (fun x : R => 0 <= x <= 1) us -> 0 <= nth i (jumps us) 0.
Proof using Hl.
  intros F. apply jump_times_nonneg. apply Forall_forall. intros e He. apply in_map_iff in He as (u & <- & Hu).
  rewrite Forall_forall in F. pose proof (ln_le_0 u (F u Hu)). apply Rmult_le_pos; [left; apply Rinv_0_lt_compat; auto|lra].
Qed.

(** looking at the first k+1 uniforms is enough *)
Lemma exactly_firstn k us : (S k <= length us)%nat -> (exactly b B lambda k us <-> exactly b B lambda k (firstn (S k) us)).
Proof.
  intros H. unfold exactly. fold (jumps us). fold (jumps (firstn (S k) us)). rewrite jumps_firstn.
  rewrite firstn_firstn_le by lia. rewrite nth_firstn by lia. tauto.
Qed.
Lemma used_firstn k us : (S k <= length us)%nat ->
  (uniforms_used beta n us (S k) <-> uniforms_used beta n (firstn (S k) us) (S k)).
Proof.
  intros H. unfold uniforms_used. cbv zeta. fold (jumps us). fold (jumps (firstn (S k) us)). rewrite jumps_firstn.
  replace (S k - 1)%nat with k by lia. rewrite firstn_firstn_le by lia. rewrite nth_firstn by lia. tauto.
Qed.

Definition pin (k : nat) : R := if (k <? length B)%nat then 0 else exp (- lambda) * lambda ^ k * vol 1 (boundsk b B k) 0.
Lemma exactly_piece k : (k <= n)%nat -> is_prob (S k) (exactly b B lambda k) (pin k).
Proof using Hl.
  intros Hk. unfold pin. destruct (Nat.ltb_spec k (length B)) as [H|H].
  - apply is_prob_empty. intros l Ll _ (_ & _ & S & _). revert S. fold (jumps l). rewrite firstn_length, jumps_length. lia.
  - eapply is_prob_ext with (A := fun us => inside (fun x => lambda < x) lambda (scale lambda (boundsk b B k)) 0 us).
    { intros us L _. rewrite exactly_iff by (auto; lia). rewrite firstn_all2 by lia. tauto. }
    pose proof (beyond_prob lambda (scale lambda (boundsk b B k)) 0 ltac:(lra)) as Hb.
    rewrite scale_length, boundsk_length in Hb by auto.
    replace 0 with (lambda * 0) in Hb at 3 by ring. rewrite vol_scale, boundsk_length, exp_0, Rmult_1_r in Hb by (auto; lra).
    rewrite Rmult_assoc. exact Hb.
Qed.
End P.

Section Pieces.
Variables (b B : list R) (lambda : R).
Hypothesis Hl : 0 < lambda.
Notation n := (length b).
Notation beta := (/ lambda).
Let jumps us := jump_times (map (fun u => beta * - ln u) us).

(** exactly k < n jumps by time 1 *)
Definition pstop (k : nat) : R := pin (repeat 0 n) [] lambda k.
Lemma used_piece k : (k < n)%nat -> is_prob (S k) (fun us => uniforms_used beta n us (S k)) (pstop k).
Proof using Hl.
  intros Hk. eapply is_prob_ext; [|apply (exactly_piece (repeat 0 n) [] lambda Hl k); rewrite repeat_length; lia].
  intros us L F. unfold exactly, uniforms_used. cbv zeta. replace (S k - 1)%nat with k by lia.
  assert (LF : length (firstn k (jumps us)) = k).
  { rewrite firstn_length. unfold jumps. rewrite jump_times_length, map_length. lia. }
  fold (jumps us). split.
  - intros (H1 & H2 & _). repeat split; auto; lia.
  - intros (_ & H1 & [H2|H2]); [lia|]. split; [exact H1|]. split; [exact H2|]. split; [simpl; lia|].
    split; [intros i Hi; simpl in Hi; lia|]. right. rewrite repeat_length, LF. split; [lia|]. intros i Hi.
    rewrite nth_repeat. rewrite nth_firstn by lia. apply (jumps_nonneg lambda Hl us i F).
Qed.
Lemma used_disjoint i j us : (i < j <= n)%nat -> (j < length us)%nat ->
  ~ (uniforms_used beta n us (S i) /\ uniforms_used beta n us (S j)).
Proof.
  intros Hij L ((_ & _ & H1) & (_ & H2 & _)). replace (S i - 1)%nat with i in H1 by lia. replace (S j - 1)%nat with j in H2 by lia.
  rewrite Forall_firstn_nth in H2 by (rewrite jump_times_length, map_length; lia). specialize (H2 i ltac:(lia)).
  destruct H1 as [H1|H1]; [lia|]. lra.
Qed.
Lemma used_exists us : (S n <= length us)%nat -> exists i, (i < S n)%nat /\ uniforms_used beta n us (S i).
Proof.
  intros L. destruct (first_beyond (firstn n (jumps us))) as [H|(k & Hk & H1 & H2)].
  - exists n. split; [lia|]. split; [lia|]. replace (S n - 1)%nat with n by lia. split; [exact H|]. left; reflexivity.
  - rewrite firstn_length in Hk. exists k. split; [lia|]. split; [lia|]. replace (S k - 1)%nat with k by lia.
    rewrite firstn_firstn_le in H1 by lia. rewrite nth_firstn in H2 by lia. split; [exact H1|]. right; exact H2.
Qed.
Definition pused (k : nat) : R := if (k <? n)%nat then pstop k else 1 - rsum n pstop.
Lemma pused_piece k : (k <= n)%nat -> is_prob (S k) (fun us => uniforms_used beta n us (S k)) (pused k).
Proof using Hl.
  intros Hk. unfold pused. destruct (Nat.ltb_spec k n) as [H|H]; [apply used_piece; exact H|].
  assert (k = n) as -> by lia.
  eapply is_prob_ext; [|apply is_prob_not, (is_prob_exists (S n) n (fun i us => uniforms_used beta n us (S i)))].
  - intros us L F. cbn beta. split.
    + intros NE. destruct (used_exists us ltac:(lia)) as (i & Hi & U). destruct (Nat.eq_dec i n) as [->|]; [exact U|].
      exfalso. apply NE. exists i. split; [lia|exact U].
    + intros U (i & Hi & U'). apply (used_disjoint i n us); [lia|lia|auto].
  - intros i Hi. replace (S n) with (S i + (n - i))%nat by lia.
    eapply is_prob_ext; [|apply is_prob_firstn, (used_piece i Hi)].
    intros us L F. cbn beta. symmetry. apply used_firstn. lia.
  - intros i j us Hij L F. apply used_disjoint; lia.
Qed.
Lemma pused_total : rsum (S n) pused = 1.
Proof.
  cbn [rsum]. rewrite (rsum_ext n pused pstop).
  - unfold pused. rewrite Nat.ltb_irrefl. ring.
  - intros i Hi. unfold pused. rewrite (proj2 (Nat.ltb_lt i n) Hi). reflexivity.
Qed.

Lemma exactly_used k us : (k <= n)%nat -> exactly b B lambda k us -> uniforms_used beta n us (S k).
Proof. intros Hk (H1 & H2 & _). split; [lia|]. replace (S k - 1)%nat with k by lia. auto. Qed.

Lemma inside_exactly us : b <> [] -> (S n <= length us)%nat ->
  (poisson_inside beta b B us <-> exists i, (i < S n)%nat /\ exactly b B lambda i us).
Proof.
  intros NE L. unfold poisson_inside. cbv zeta. split.
  - intros (k & Hk & H1 & H2 & H3). pose proof H3 as (_ & _ & [?|(H4 & _)]); [contradiction|].
    rewrite firstn_length, jump_times_length, map_length in H4. exists k. split; [lia|]. split; [exact H1|]. split; [exact H2|exact H3].
  - intros (k & Hk & H1 & H2 & H3). exists k. split; [lia|]. auto.
Qed.

Lemma inside_total p : b <> [] -> is_prob (S n) (poisson_inside beta b B) p -> rsum (S n) (pin b B lambda) = p.
Proof using Hl.
  intros NE H. eapply is_prob_unique; [|exact H].
  eapply is_prob_ext; [|apply (is_prob_exists (S n) (S n) (exactly b B lambda))].
  - intros us L F. cbn beta. symmetry. apply inside_exactly; [exact NE|lia].
  - intros i Hi. replace (S n) with (S i + (n - i))%nat by lia.
    eapply is_prob_ext; [|apply is_prob_firstn, (exactly_piece b B lambda Hl i ltac:(lia))].
    intros us L F. cbn beta. symmetry. apply exactly_firstn. lia.
  - intros i j us Hij L F (H1 & H2). apply (used_disjoint i j us); [lia|lia|]. split; apply exactly_used; auto; lia.
Qed.

(** After the first simulation, whatever number of uniforms it used, the rest is as before. *)
Theorem stopped_case p m (X Y : list R -> Prop) x y : b <> [] -> is_prob (S n) (poisson_inside beta b B) p ->
  (forall k, (k <= n)%nat -> is_prob (n - k + m) X x) -> (forall k, (k <= n)%nat -> is_prob (n - k + m) Y y) ->
  is_prob (S n + m) (fun us => exists k, uniforms_used beta n us k /\
     ((poisson_inside beta b B us /\ X (skipn k us)) \/ (~ poisson_inside beta b B us /\ Y (skipn k us)))) (p * x + (1 - p) * y).
Proof using Hl.
  intros NE HP HX HY.
  assert (U : forall us i, length us = (S n + m)%nat -> (i <= n)%nat -> uniforms_used beta n us (S i) ->
    (poisson_inside beta b B us <-> exactly b B lambda i us)).
  { intros us i L Hi U. rewrite (inside_exactly us NE ltac:(lia)). split.
    - intros (j & Hj & H). assert (j = i) as ->; [|exact H].
      pose proof (exactly_used j us ltac:(lia) H) as Uj.
      destruct (Nat.lt_trichotomy i j) as [C|[C|C]]; auto; exfalso.
      + apply (used_disjoint i j us); [lia|lia|auto].
      + apply (used_disjoint j i us); [lia|lia|auto].
    - intros H. exists i. split; [lia|exact H]. }
  assert (E : p * x + (1 - p) * y = rsum (S n) (fun k => pin b B lambda k * x) + rsum (S n) (fun k => (pused k - pin b B lambda k) * y)).
  { rewrite !rsum_scal_r. rewrite rsum_minus. rewrite pused_total, (inside_total p NE HP). reflexivity. }
  rewrite E.
  eapply is_prob_ext; [|apply is_prob_or; [|
    apply (is_prob_exists (S n + m) (S n) (fun k us => exactly b B lambda k us /\ X (skipn (S k) us)))|
    apply (is_prob_exists (S n + m) (S n) (fun k us => (uniforms_used beta n us (S k) /\ ~ exactly b B lambda k us) /\ Y (skipn (S k) us)))]].
  - intros us L F. cbn beta. split.
    + intros [(k & Hk & H1 & H2)|(k & Hk & (H1 & H2) & H3)]; exists (S k).
      * assert (Uk := exactly_used k us ltac:(lia) H1). split; [exact Uk|]. left. split; [|exact H2]. apply (U us k L ltac:(lia) Uk); exact H1.
      * split; [exact H1|]. right. split; [|exact H3]. rewrite (U us k L ltac:(lia) H1). exact H2.
    + intros (k & Hk & H). assert (Rk := proj1 Hk). destruct k as [|k]; [lia|].
      destruct H as [(H1 & H2)|(H1 & H2)]; [left|right]; exists k; (split; [lia|]).
      * split; [|exact H2]. apply (U us k L ltac:(lia) Hk). exact H1.
      * split; [|exact H2]. split; [exact Hk|]. rewrite <- (U us k L ltac:(lia) Hk). exact H1.
  - intros us L F ((k & Hk & H1 & _) & (j & Hj & (H2 & H3) & _)).
    assert (Uk := exactly_used k us ltac:(lia) H1). assert (k = j) as ->; [|contradiction].
    destruct (Nat.lt_trichotomy k j) as [C|[C|C]]; auto; exfalso.
    + apply (used_disjoint k j us); [lia|lia|auto].
    + apply (used_disjoint j k us); [lia|lia|auto].
  - intros k Hk. replace (S n + m)%nat with (S k + (n - k + m))%nat by lia.
    eapply is_prob_ext; [|apply is_prob_product; [apply (exactly_piece b B lambda Hl k ltac:(lia))|apply (HX k ltac:(lia))]].
    intros us L F. cbn beta. rewrite <- exactly_firstn by lia. tauto.
  - intros i j us Hij L F ((H1 & _) & (H2 & _)).
    apply (used_disjoint i j us); [lia|lia|]. split; apply exactly_used; auto; lia.
  - intros k Hk. replace (S n + m)%nat with (S k + (n - k + m))%nat by lia.
    eapply is_prob_ext; [|apply is_prob_product; [apply (is_prob_diff (S k) (exactly b B lambda k) (fun us => uniforms_used beta n us (S k)) (pin b B lambda k) (pused k))|apply (HY k ltac:(lia))]].
    + intros us L F. cbn beta. rewrite <- exactly_firstn, <- used_firstn by lia. tauto.
    + intros us L F. apply exactly_used. lia.
    + apply exactly_piece; auto; lia.
    + apply pused_piece. lia.
  - intros i j us Hij L F (((H1 & _) & _) & ((H2 & _) & _)). apply (used_disjoint i j us); [lia|lia|auto].
Qed.

Theorem stopped_count_law p : b <> [] -> is_prob (S n) (poisson_inside beta b B) p -> forall num extra (Q : nat -> bool),
  is_prob (num * S n + extra) (fun us => exists cs, length cs = num /\ poisson_outcomes beta b B cs us /\ Q (ncross cs) = true)
    (binom p num (fun j => if Q j then 1 else 0)).
Proof using Hl.
  intros NE HP. induction num as [|num IH]; intros extra Q.
  - cbn [Nat.mul binom Nat.add]. destruct (Q 0%nat) eqn:E.
    + apply is_prob_full. intros us _ _. exists []. simpl. auto.
    + apply is_prob_empty. intros us _ _ (cs & L & _ & H). destruct cs; [|discriminate]. change (Q 0%nat = true) in H. congruence.
  - replace (S num * S n + extra)%nat with (S n + (num * S n + extra))%nat by lia. cbn [binom].
    assert (IH' : forall Q k, (k <= n)%nat -> is_prob (n - k + (num * S n + extra))
      (fun us => exists cs, length cs = num /\ poisson_outcomes beta b B cs us /\ Q (ncross cs) = true)
      (binom p num (fun j => if Q j then 1 else 0))).
    { intros Q' k Hk. replace (n - k + (num * S n + extra))%nat with (num * S n + (n - k + extra))%nat by lia. apply IH. }
    eapply is_prob_ext; [|apply (stopped_case p (num * S n + extra) _ _ _ _ NE HP (IH' Q) (IH' (fun j => Q (S j))))].
    intros us L F. cbn beta. split.
    + intros (m & Um & [(Ha & cs & Lc & O & H)|(Ha & cs & Lc & O & H)]).
      * exists (false :: cs). split; [simpl; lia|]. split; [|exact H]. cbn [poisson_outcomes]. split; [tauto|]. exists m. auto.
      * exists (true :: cs). split; [simpl; lia|]. split; [|exact H]. cbn [poisson_outcomes].
        split; [split; [discriminate|contradiction]|]. exists m. auto.
    + intros (cs & Lc & O & H). destruct cs as [|c cs]; [discriminate|]. cbn [poisson_outcomes] in O.
      destruct O as (O1 & m & Um & O2). exists m. split; [exact Um|]. simpl in Lc. destruct c.
      * right. split; [intros Ha; apply O1 in Ha; discriminate|]. exists cs. split; [lia|]. auto.
      * left. split; [apply O1; reflexivity|]. exists cs. split; [lia|]. auto.
Qed.
End Pieces.

(** ** The law of the estimate *)
Theorem poisson_crossings_binomial (b B : list R) lambda p num j : b <> [] -> 0 < lambda ->
  is_prob (S (length b)) (poisson_inside (/ lambda) b B) p -> (j <= num)%nat ->
  is_prob (num * S (length b))
    (fun us => exists cs, length cs = num /\ poisson_outcomes (/ lambda) b B cs us /\ crossings cs = Z.of_nat j)
    (Binomial.C num j * (1 - p) ^ j * p ^ (num - j)).
Proof.
  intros NE Hl HP Hj. rewrite <- binom_point by auto. rewrite <- (Nat.add_0_r (num * S (length b))).
  eapply is_prob_ext; [|apply (stopped_count_law b B lambda Hl p NE HP num 0 (fun i => (i =? j)%nat))].
  intros us _ _. unfold crossings, ncross. split; intros (cs & L & O & H); exists cs; split; auto; split; auto.
  - apply Nat.eqb_eq in H. congruence.
  - apply Nat.eqb_eq. lia.
Qed.

Theorem poisson_estimate_close (b B : list R) lambda p num eps : b <> [] -> 0 < lambda ->
  is_prob (S (length b)) (poisson_inside (/ lambda) b B) p -> (1 <= num)%nat -> 0 < eps ->
  exists q, q <= p * (1 - p) / (INR num * eps ^ 2) /\
  is_prob (num * S (length b))
    (fun us => exists cs, length cs = num /\ poisson_outcomes (/ lambda) b B cs us /\
       eps < Rabs (IZR (crossings cs) / INR num - (1 - p))) q.
Proof.
  intros NE Hl HP Hn He. pose proof (is_prob_range _ _ _ HP) as Rp.
  eexists. split; [apply (chebyshev p num eps Rp He Hn)|]. rewrite <- (Nat.add_0_r (num * S (length b))).
  eapply is_prob_ext; [|pose proof (stopped_count_law b B lambda Hl p NE HP num 0
    (fun j => if Rlt_dec eps (Rabs (INR j / INR num - (1 - p))) then true else false)) as H].
  2:{ rewrite (binom_ext p num _ (fun j => if Rlt_dec eps (Rabs (INR j / INR num - (1 - p))) then 1 else 0)) in H; [exact H|].
      intros j _. destruct Rlt_dec; reflexivity. }
  intros us _ _. split; intros (cs & L & O & H); exists cs; split; auto; split; auto.
  - destruct Rlt_dec as [G|G]; [|discriminate]. unfold crossings. rewrite <- INR_IZR_INZ. exact G.
  - unfold crossings in H. rewrite <- INR_IZR_INZ in H. destruct Rlt_dec; auto.
Qed.

(** ** The program *)
Section Code.
Context {frexp : xr -> Z}.
Notation XN := (Xnum frexp).

Lemma split_nth {A} (d : A) k : forall us, (k < length us)%nat -> firstn (S k) us = firstn k us ++ [nth k us d].
Proof. induction k as [|k IH]; intros [|x us] H; simpl in *; try lia; auto. f_equal. apply IH. lia. Qed.

(** What one simulation decides, and how many uniforms it uses. *)
Theorem poisson_simulation (b B us : list R) beta r r' : 0 < beta -> b <> [] ->
  (S (length b) <= length us)%nat -> Forall (fun v => 0 < v < 1) us -> draws (N := XN) r (map Fin us) r' ->
  exists c m r1, does_random_poisson_process_cross (N := XN) (map Fin b) (map Fin B) (Fin beta) r = Ok (c, r1) /\
    (c = false <-> poisson_inside beta b B us) /\ uniforms_used beta (length b) us m /\
    draws (N := XN) r (map Fin (firstn m us)) r1 /\ draws (N := XN) r1 (map Fin (skipn m us)) r'.
Proof.
  intros Hbeta NE L F D. set (es := map (fun u => beta * - ln u) us).
  assert (Le : length es = length us) by apply map_length.
  assert (Ej : forall k, jump_times (map (fun v => beta * - ln v) (firstn k us)) = firstn k (jump_times es))
    by (intros k; rewrite <- jump_times_firstn; unfold es; rewrite firstn_map; reflexivity).
  assert (Cut : forall m, exists r1, draws (N := XN) r (map Fin (firstn m us)) r1 /\ draws (N := XN) r1 (map Fin (skipn m us)) r').
  { intros m. rewrite <- (firstn_skipn m us), map_app in D. exact (draws_split _ _ _ _ D). }
  unfold poisson_inside, uniforms_used. cbv zeta. fold es.
  destruct (first_beyond (firstn (S (length b)) (jump_times es))) as [H|(k & Hk & H1 & H2)].
  - destruct (Cut (S (length b))) as (r1 & D1 & D2). exists true, (S (length b)), r1. split; [|split; [|split; [|auto]]].
    + unfold does_random_poisson_process_cross. rewrite map_length.
      change (@nil (car XN)) with (map Fin []). change (@n0 XN) with (Fin 0).
      apply (walk_overflow b B beta (firstn (S (length b)) us) Hbeta (Forall_firstn_R _ _ _ F)); auto.
      * apply firstn_length_le; exact L.
      * rewrite <- jump_times_sums, Ej. exact H.
    + split; [discriminate|]. intros (k & Hk & _ & H2 & H3). exfalso. destruct H3 as (_ & _ & [?|(H3 & _)]); [contradiction|].
      rewrite firstn_length, jump_times_length, Le in H3.
      rewrite Forall_firstn_nth in H by (rewrite jump_times_length; lia). specialize (H k ltac:(lia)). lra.
    + split; [lia|]. split; [|left; reflexivity]. replace (S (length b) - 1)%nat with (length b) by lia.
      rewrite <- (firstn_firstn_le (length b) (S (length b))) by lia. apply Forall_firstn_R; exact H.
  - rewrite firstn_length, jump_times_length, Le in Hk. rewrite firstn_firstn_le in H1 by lia. rewrite nth_firstn in H2 by lia.
    destruct (Cut (S k)) as (r1 & D1 & D2).
    assert (W : exists c, does_random_poisson_process_cross (N := XN) (map Fin b) (map Fin B) (Fin beta) r = Ok (c, r1) /\
      (c = false <-> stays_inside b B (firstn k (jump_times es)))).
    { rewrite (split_nth 0 k us) in D1 by lia.
      destruct (walk_inside (frexp := frexp) b B beta (firstn k us) (nth k us 0) Hbeta) with (k := length b) (steps := @nil R) (a := 0) (r := r) (r' := r1) as (c & W & S).
      - rewrite <- split_nth by lia. apply Forall_firstn_R; exact F.
      - exact D1.
      - rewrite firstn_length. lia.
      - rewrite <- jump_times_sums, Ej. exact H1.
      - rewrite jump_times_nth in H2 by lia. rewrite (split_nth 0 k es) in H2 by lia. rewrite total_app in H2.
        unfold total at 2 in H2. simpl in H2. unfold es in H2. rewrite firstn_map in H2.
        rewrite (nth_indep _ 0 ((fun u => beta * - ln u) 0)) in H2 by (rewrite map_length; lia).
        rewrite (map_nth (fun u => beta * - ln u)) in H2. lra.
      - exists c. unfold does_random_poisson_process_cross. rewrite map_length. split; [exact W|].
        rewrite S. cbn [rev app]. rewrite <- jump_times_sums, Ej. tauto. }
    destruct W as (c & W & S). exists c, (Datatypes.S k), r1. split; [exact W|]. split; [|split; [|auto]].
    + rewrite S. split.
      * intros H3. exists k. repeat split; auto; try lia; apply H3.
      * intros (j & Hj & H3 & H4 & H5). assert (j = k); [|subst; exact H5].
        rewrite Forall_firstn_nth in H1, H3 by (rewrite jump_times_length; lia).
        destruct (Nat.lt_trichotomy j k) as [Hjk|[Hjk|Hjk]]; auto; exfalso.
        -- specialize (H1 j Hjk). lra.
        -- specialize (H3 k Hjk). lra.
    + split; [lia|]. replace (Datatypes.S k - 1)%nat with k by lia. auto.
Qed.

Lemma used_le beta n us m : uniforms_used beta n us m -> (m <= S n)%nat.
Proof. intros (H & _). lia. Qed.

Lemma stream_simulations (b B : list R) beta : 0 < beta -> b <> [] -> forall num us r r1, Forall (fun u => 0 < u < 1) us ->
  (num * S (length b) <= length us)%nat -> draws (N := XN) r (map Fin us) r1 ->
  exists cs, length cs = num /\ poisson_outcomes beta b B cs us /\
    simulations (does_random_poisson_process_cross (N := XN) (map Fin b) (map Fin B) (Fin beta)) r cs.
Proof.
  intros Hbeta NE. induction num as [|num IH]; intros us r r1 F L D.
  - exists []. repeat split; auto. constructor.
  - cbn [Nat.mul] in L.
    destruct (poisson_simulation b B us beta r r1 Hbeta NE ltac:(lia) F D) as (c & m & r2 & W & HC & U & D1 & D2).
    destruct (IH (skipn m us) r2 r1) as (cs & Lc & O & S); auto.
    { apply Forall_skipn_R; auto. }
    { rewrite skipn_length. pose proof (used_le _ _ _ _ U). lia. }
    exists (c :: cs). simpl length. split; [lia|]. split; [|econstructor; eauto]. cbn [poisson_outcomes]. split; [exact HC|]. exists m. auto.
Qed.

Theorem poisson_estimate_program (b B us : list R) (n : Z) (num : nat) uninit now r1 : b <> [] -> (length B <= length b)%nat ->
  (1 <= n <= 2147)%Z -> (1 <= num)%nat -> (Z.of_nat num <= INT_MAX)%Z ->
  Forall (fun u => 0 < u < 1) us -> length us = (num * S (length b))%nat ->
  draws (N := XN) (rng_make uninit (now + n * 1000000)) (map Fin us) r1 ->
  exists cs, length cs = num /\ poisson_outcomes (/ IZR n) b B cs us /\
    forall fuel, (num <= fuel)%nat ->
      poisson_process_crossing_probability_montecarlo (N := XN) fuel uninit now (n_of_Z n) (map Fin b) (map Fin B) (Z.of_nat num) =
        Ok (Fin (IZR (crossings cs) / INR num)).
Proof.
  intros NE HB Hn H1 H2 F L D. assert (N0 : 0 < IZR n) by (apply IZR_lt; lia).
  destruct (stream_simulations b B (/ IZR n) (Rinv_0_lt_compat _ N0) NE num us _ r1 F ltac:(lia) D) as (cs & Lc & O & S).
  destruct (poisson_estimate (N := XN) uninit now (n_of_Z n) (map Fin b) (map Fin B) (Z.of_nat num) (n * 1000000)) as (cs' & Lc' & S' & R).
  - right. rewrite !size_Fin. lia.
  - apply seed_exact. lia.
  - lia.
  - assert (EB : @n_div XN n1 (n_of_Z n) = Fin (/ IZR n)).
    { cbn [n_div n1 n_of_Z Xnum xdiv]. rewrite Req_bool_false by lra. f_equal. field. lra. }
    rewrite EB in S'.
    assert (E : cs' = cs) by (eapply simulations_det; eauto; lia). subst cs'.
    exists cs. split; auto. split; auto. intros fuel Hf. rewrite (R fuel ltac:(lia)). f_equal.
    destruct (frequency_exact (frexp := frexp) (crossings cs) (Z.of_nat num)) as (E & _); [|lia|].
    + unfold crossings. pose proof (filter_le cs). lia.
    + rewrite E, INR_IZR_INZ. reflexivity.
Qed.
End Code.
