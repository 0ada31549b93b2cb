(** * McB64PProb: simulated Poisson paths are rarely close to the boundaries. *)
From Coquelicot Require Import Coquelicot.
From Coq Require Import ZArith Reals List Bool Lia Lra.
From Verif Require Import Base Spec SpecFacts ProbSums ProbFacts UniformWalk McSpec McProbSpec McPoissonProb McPoissonEstimate McEstimate McChernoff McB64Spec.
Import List. Import ListNotations.
Local Open Scope R_scope.

(** an interval of fixed length for coordinate k, placed according to the earlier coordinates *)
Lemma window_prob w : 0 <= w <= 1 -> forall k m (h : list R -> R), (forall l, 0 <= h l <= 1 - w) ->
  is_prob (S (k + m)) (fun us => h (firstn k us) <= nth k us 0 <= h (firstn k us) + w) w.
Proof.
  intros Hw. induction k as [|k IH]; intros m h Hh.
  - exists (fun x => if Rle_dec (h []) x then if Rle_dec x (h [] + w) then 1 else 0 else 0). split.
    + intros x Hx. cbn [firstn nth]. destruct (Rle_dec (h []) x) as [H1|H1]; [destruct (Rle_dec x (h [] + w)) as [H2|H2]|].
      * apply is_prob_full. intros; lra.
      * apply is_prob_empty. intros l _ _ H. lra.
      * apply is_prob_empty. intros l _ _ H. lra.
    + specialize (Hh []). set (a := h []) in *. apply (is_RInt_Chasles_R _ 0 a 1 0 w); [| |ring].
      * apply is_RInt_zero; [lra|]. intros x Hx. destruct (Rle_dec a x); lra.
      * apply (is_RInt_Chasles_R _ a (a + w) 1 w 0); [| |ring].
        -- match goal with |- is_RInt ?F _ _ _ => assert (G : is_RInt F a (a + w) ((a + w) - a)) end.
           2:{ replace (a + w - a) with w in G by ring. exact G. }
           apply is_RInt_one; [lra|]. intros x Hx.
           destruct (Rle_dec a x); [destruct (Rle_dec x (a + w))|]; lra.
        -- apply is_RInt_zero; [lra|]. intros x Hx. destruct (Rle_dec a x); auto. destruct (Rle_dec x (a + w)); lra.
  - exists (fun _ => w). split.
    + intros x Hx. cbn [firstn nth]. apply (IH m (fun l => h (x :: l))). auto.
    + apply is_RInt_const_eq. ring.
Qed.

Lemma covered_mono n (A A' : list R -> Prop) q q' : (forall us, length us = n -> Forall (fun x : R => 0 <= x <= 1) us -> A us -> A' us) -> q' <= q ->
  covered n A' q' -> covered n A q.
Proof. intros HA Hq (ev & H1 & H2 & H3). exists ev. split; auto. split; [lra|]. auto. Qed.
Lemma total_app l1 l2 : total (l1 ++ l2) = total l1 + total l2.
Proof. unfold total. induction l1 as [|x l1 IH]; simpl; [ring|]. rewrite IH. ring. Qed.
Lemma covered_or n (A1 A2 : list R -> Prop) q1 q2 : covered n A1 q1 -> covered n A2 q2 -> covered n (fun us => A1 us \/ A2 us) (q1 + q2).
Proof.
  intros (e1 & H1 & H2 & H3) (e2 & G1 & G2 & G3). exists (e1 ++ e2). split; [apply Forall_app; auto|]. split.
  - rewrite map_app, total_app. lra.
  - intros us L F [H|H]; apply Exists_app; auto.
Qed.
Lemma covered_one n A p : is_prob n A p -> covered n A p.
Proof. intros H. exists [(A, p)]. split; [repeat constructor; exact H|]. split; [unfold total; simpl; lra|]. intros us _ _ HA. constructor. exact HA. Qed.
Lemma covered_none n q : 0 <= q -> covered n (fun _ => False) q.
Proof. intros H. exists []. split; [constructor|]. split; [unfold total; simpl; exact H|]. tauto. Qed.
Lemma covered_exists n (A : nat -> list R -> Prop) q : forall m, (forall i, (i < m)%nat -> covered n (A i) q) ->
  covered n (fun us => exists i, (i < m)%nat /\ A i us) (INR m * q).
Proof.
  induction m as [|m IH]; intros H.
  - apply (covered_mono n _ (fun _ => False) _ 0); [|simpl; lra|apply covered_none; lra]. intros us _ _ (i & Hi & _). lia.
  - eapply covered_mono; [| |apply (covered_or n _ _ _ _ (IH ltac:(auto)) (H m ltac:(lia)))].
    + intros us _ _ (i & Hi & HA). destruct (Nat.eq_dec i m) as [->|]; [right; auto|]. left. exists i. split; auto. lia.
    + rewrite S_INR. lra.
Qed.

Section Near.
Context (beta d : R) (Hbeta : 0 < beta) (Hd : 0 <= d).
Let jumps us := jump_times (map (fun u => beta * - ln u) us).
Let w := Rmin 1 (2 * d / beta).
Lemma w_range : 0 <= w <= 1 /\ w <= 2 * d / beta.
Proof using Hbeta Hd.
  assert (0 <= 2 * d / beta) by (apply Rmult_le_pos; [lra|apply Rlt_le, Rinv_0_lt_compat; exact Hbeta]).
  unfold w. pose proof (Rmin_l 1 (2 * d / beta)). pose proof (Rmin_r 1 (2 * d / beta)). split; [|auto]. split; [|auto]. apply Rmin_glb; lra.
Qed.

(** where the uniform that puts the jump within d of t must be, after a sum s *)
Definition window (s t : R) : R := Rmin (1 - w) (exp (- ((t + d - s) / beta))).
Lemma window_range s t : 0 <= window s t <= 1 - w.
Proof using Hbeta Hd. pose proof w_range. unfold window. split; [apply Rmin_glb; [lra|apply Rlt_le, exp_pos]|apply Rmin_l]. Qed.
Lemma window_catches s t u : 0 < u < 1 -> Rabs (s + beta * - ln u - t) <= d -> window s t <= u <= window s t + w.
Proof using Hbeta Hd.
  intros Hu H. pose proof w_range as (W & W'). apply Rabs_le_between in H.
  set (a := exp (- ((t + d - s) / beta))).
  assert (Ha : a <= u).
  { unfold a. rewrite <- (exp_ln u) at 1 by lra. apply Raux.exp_le. apply Rmult_le_reg_l with beta; [exact Hbeta|]. field_simplify; lra. }
  assert (Hau : u <= a + w \/ w = 1).
  { unfold w. destruct (Rle_dec 1 (2 * d / beta)) as [G|G]; [right; apply Rmin_left; exact G|]. left. rewrite Rmin_right by lra.
    assert (E : u * exp (- (2 * d / beta)) <= a).
    { unfold a. rewrite <- (exp_ln u) at 1 by lra. rewrite <- exp_plus. apply Raux.exp_le. apply Rmult_le_reg_l with beta; [exact Hbeta|]. field_simplify; lra. }
    pose proof (exp_ineq1_le (- (2 * d / beta))) as E2. set (y := 2 * d / beta) in *.
    assert (u * (1 - y) <= u * exp (- y)) by (apply Rmult_le_compat_l; lra).
    assert (0 <= y). { pose proof w_range as (? & ?). unfold y. apply Rmult_le_pos; [lra|apply Rlt_le, Rinv_0_lt_compat; exact Hbeta]. }
    assert (u * y <= 1 * y) by (apply Rmult_le_compat_r; lra). lra. }
  unfold window. fold a. assert (Pa : 0 < a) by apply exp_pos. destruct (Rle_dec (1 - w) a) as [G|G].
  - rewrite Rmin_left by exact G. lra.
  - rewrite Rmin_right by lra. destruct Hau; lra.
Qed.

Lemma skipn_firstn_add o i (us : list R) : skipn o (firstn (o + i) us) = firstn i (skipn o us).
Proof. rewrite skipn_firstn_comm. f_equal. lia. Qed.

Lemma jump_split o i us : (o + i < length us)%nat ->
  nth i (jumps (skipn o us)) 0 = total (map (fun u => beta * - ln u) (skipn o (firstn (o + i) us))) + beta * - ln (nth (o + i) us 0).
Proof.
  intros H. unfold jumps. rewrite jump_times_nth by (rewrite map_length, skipn_length; lia).
  rewrite skipn_firstn_add, firstn_map. rewrite (McPoissonEstimate.split_nth 0 i) by (rewrite skipn_length; lia).
  rewrite map_app, total_app. f_equal. cbn [map]. unfold total. cbn [fold_right]. rewrite Rplus_0_r. do 3 f_equal.
  rewrite <- (firstn_skipn o us) at 2. rewrite app_nth2 by (rewrite firstn_length; lia). f_equal. rewrite firstn_length. lia.
Qed.

Lemma near_covered n o i t : (o + i < n)%nat ->
  covered n (fun us => Forall (fun u => 0 < u < 1) us /\ Rabs (nth i (jumps (skipn o us)) 0 - t) <= d) (2 * d / beta).
Proof using Hbeta Hd.
  intros Hn. pose proof w_range as (W & W').
  set (h := fun l : list R => window (total (map (fun u => beta * - ln u) (skipn o l))) t).
  eapply covered_mono; [| |apply covered_one; replace n with (S ((o + i) + (n - o - i - 1)))%nat by lia;
    apply (window_prob w W (o + i) (n - o - i - 1) h); intros; apply window_range]; [|exact W'].
  intros us L _ (F & H). apply window_catches.
  - rewrite Forall_forall in F. apply F, nth_In. lia.
  - rewrite <- jump_split by lia. exact H.
Qed.

(** All the paths that start at some place of the stream are clear. *)
Definition all_clear (b B : list R) (k : nat) (us : list R) : Prop :=
  forall o, (o + S (length b) <= k)%nat -> clear_jumps d b B (firstn (S (length b)) (jumps (skipn o us))).
Lemma skip_skip (o m : nat) : forall us : list R, skipn o (skipn m us) = skipn (o + m) us.
Proof. induction m as [|m IH]; intros us; [rewrite Nat.add_0_r; reflexivity|]. destruct us as [|u us]; [rewrite !skipn_nil; reflexivity|]. rewrite Nat.add_succ_r. simpl. apply IH. Qed.
Lemma all_clear_skip b B k m us : (m <= k)%nat -> all_clear b B k us -> all_clear b B (k - m) (skipn m us).
Proof. intros Hm H o Ho. rewrite skip_skip. apply H. lia. Qed.
Lemma all_clear_simulations b B : forall num us, (num * S (length b) <= length us)%nat -> all_clear b B (length us) us ->
  clear_simulations beta d b B num us.
Proof.
  induction num as [|num IH]; intros us L H; [exact I|]. cbn [Nat.mul] in L. split.
  - apply (H 0%nat). lia.
  - intros m Hm. pose proof (used_le _ _ _ _ Hm). apply IH; rewrite skipn_length; [lia|]. apply all_clear_skip; auto. lia.
Qed.

Lemma unclear_covered b B n :
  covered n (fun us => Forall (fun u => 0 < u < 1) us /\ ~ all_clear b B n us) (INR n * (INR (S (length b)) * (6 * d / beta))).
Proof using Hbeta Hd.
  set (k := S (length b)).
  assert (Q0 : 0 <= 2 * d / beta) by (pose proof w_range; lra).
  assert (C1 : forall o, (o < n)%nat -> covered n (fun us => Forall (fun u => 0 < u < 1) us /\ (o + k <= n)%nat /\
     ~ clear_jumps d b B (firstn k (jumps (skipn o us)))) (INR k * (6 * d / beta))).
  { intros o Ho. destruct (le_dec (o + k) n) as [Hk|Hk].
    - eapply covered_mono; [| |apply (covered_exists n (fun i us => (Forall (fun u => 0 < u < 1) us /\ Rabs (nth i (jumps (skipn o us)) 0 - 1) <= d) \/
        (Forall (fun u => 0 < u < 1) us /\ Rabs (nth i (jumps (skipn o us)) 0 - nth i b 0) <= d) \/
        (Forall (fun u => 0 < u < 1) us /\ Rabs (nth i (jumps (skipn o us)) 0 - nth i B 0) <= d)) (2 * d / beta + (2 * d / beta + 2 * d / beta)) k)].
      + intros us L _ (F & _ & H).
        assert (LJ : length (firstn k (jumps (skipn o us))) = k).
        { unfold jumps. rewrite firstn_length_le; auto. rewrite jump_times_length, map_length, skipn_length. lia. }
        match goal with |- ?X => assert (D : X \/ ~ X) by apply Classical_Prop.classic; destruct D as [D|D]; [exact D|] end.
        exfalso. apply H. intros i Hi. rewrite LJ in Hi. rewrite nth_firstn by exact Hi.
        assert (G : forall t, (forall P : Prop, P -> P) -> t = 1 \/ t = nth i b 0 \/ t = nth i B 0 -> d < Rabs (nth i (jumps (skipn o us)) 0 - t)).
        { intros t _ Ht. apply Rnot_le_lt. intros Hc. apply D. exists i. split; [exact Hi|]. destruct Ht as [->|[->| ->]]; auto. }
        split; [apply G; auto|]. split; intros _ _; apply G; auto.
      + right. field. lra.
      + intros i Hi. apply covered_or; [|apply covered_or]; apply near_covered; lia.
    - eapply covered_mono; [| |apply (covered_none n 0); lra].
      + intros us _ _ (_ & H & _). lia.
      + apply Rmult_le_pos; [apply pos_INR|]. replace (6 * d / beta) with (3 * (2 * d / beta)) by (field; lra). lra. }
  eapply covered_mono; [| |apply (covered_exists n _ _ n C1)]; [|lra].
  intros us L _ (F & H). match goal with |- ?X => assert (D : X \/ ~ X) by apply Classical_Prop.classic; destruct D as [D|D]; [exact D|] end.
  exfalso. apply H. intros o Ho. fold k in Ho |- *. destruct (Classical_Prop.classic (clear_jumps d b B (firstn k (jumps (skipn o us))))) as [E|E]; auto.
  exfalso. apply D. exists o. split; [unfold k in Ho; lia|]. auto.
Qed.
End Near.

Lemma not_interior n : covered n (fun us => ~ Forall (fun u : R => 0 < u < 1) us) 0.
Proof.
  replace 0 with (0 + 0) by ring. eapply covered_mono; [| |apply covered_or; apply covered_one; [apply (prob_point 0 n)|apply (prob_point 1 n)]]; [|lra].
  intros us L F H. cbv beta. destruct (in_dec Req_EM_T 0 us) as [H0|H0]; auto. destruct (in_dec Req_EM_T 1 us) as [H1|H1]; auto.
  exfalso. apply H. rewrite Forall_forall in *. intros x Hx. specialize (F x Hx).
  assert (x <> 0) by (intros ->; auto). assert (x <> 1) by (intros ->; auto). lra.
Qed.

(** Except for few streams, all the simulations are clear and their frequency of crossings is close to the probability. *)
Theorem poisson_rarely_bad (b B : list R) lambda p num e d : b <> [] -> 0 < lambda -> 0 <= d ->
  is_prob (S (length b)) (poisson_inside (/ lambda) b B) p -> (1 <= num)%nat -> 0 < e <= 1 / 2 ->
  covered (num * S (length b))
    (fun us => ~ (Forall (fun u => 0 < u < 1) us /\ clear_simulations (/ lambda) d b B num us /\
       forall cs, length cs = num -> poisson_outcomes (/ lambda) b B cs us -> Rabs (IZR (crossings cs) / INR num - (1 - p)) <= e))
    (2 * exp (- (INR num * e ^ 2) / 2) + 6 * INR num * INR (S (length b)) ^ 2 * lambda * d).
Proof.
  intros NE Hl Hd HP Hn He.
  destruct (poisson_exponential b B lambda p num e NE Hl HP Hn He) as (q & Hq & PQ).
  assert (Pb : 0 < / lambda) by (apply Rinv_0_lt_compat; exact Hl).
  eapply covered_mono; [| |apply covered_or; [apply (not_interior (num * S (length b)))|apply covered_or; [apply covered_one; exact PQ|
    apply (unclear_covered (/ lambda) d Pb Hd b B (num * S (length b)))]]].
  - intros us L _ H. destruct (Classical_Prop.classic (Forall (fun u => 0 < u < 1) us)) as [F|F]; [|left; exact F]. right.
    destruct (Classical_Prop.classic (clear_simulations (/ lambda) d b B num us)) as [C1|C1].
    + left. apply Classical_Prop.NNPP. intros G. apply H. split; auto. split; auto. intros cs Lc O. apply Rnot_lt_le. intros Hc. apply G. exists cs. auto.
    + right. split; auto. intros G. apply C1. apply all_clear_simulations; [lia|]. rewrite L. exact G.
  - rewrite mult_INR. set (k := INR (S (length b))). replace (INR num * k * (k * (6 * d / / lambda))) with (6 * INR num * k ^ 2 * lambda * d) by (field; lra). lra.
Qed.
