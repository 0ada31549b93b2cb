(** * McProbCases: concrete instances for PropsMcProb. *)
From Coquelicot Require Import Coquelicot.
From Coq Require Import ZArith Reals List Bool Lia Lra Sorted Factorial.
From Verif Require Import Base Num XReal TinyMT MonteCarlo Ecdf2 XFft Common.
From Verif Require Import RSum Spec SpecFacts McSpec McProbSpec McFacts McLoop McMore TinyMTFacts Cases ExactFacts ExactMore ExactEnv McPoissonProb McEcdfProb McEstimate McPoissonEstimate.
Import List. Import ListNotations.
Local Open Scope R_scope.

(** Two jumps of a process of intensity 2, the second not before 1/2. *)
Lemma case_poisson : is_prob 3 (poisson_inside (/ 2) case_b ones2) (exp (- (2)) * 2 ^ 2 / 2 * (3 / 4)).
Proof.
  pose proof (poisson_inside_prob case_b ones2 2 (fun _ => 3 / 4) case_b_valid ones2_valid (Nat.le_refl 2) ltac:(lra)) as H.
  replace (exp (- (2)) * 2 ^ 2 / 2 * (3 / 4)) with
    (sum_f_R0 (fun i => exp (- (2)) * 2 ^ (length ones2 + i) / INR (fact (length ones2 + i)) * (3 / 4)) (length case_b - length ones2)).
  - apply H. intros k Hk. simpl in Hk. replace k with 2%nat by lia. exact case_two_sided_b.
  - simpl. field.
Qed.

Lemma ln_inv2 : - ln (/ 2) = ln 2.
Proof. rewrite ln_Rinv by lra. ring. Qed.
Lemma ln2_pos : 0 < ln 2.
Proof. rewrite <- ln_1. apply ln_increasing; lra. Qed.

Lemma case_sample_in : ordered_sample [/ 2; / 2; / 2] = [1 / 3; 2 / 3] /\ ecdf_inside case_b ones2 [/ 2; / 2; / 2].
Proof.
  pose proof ln2_pos. assert (E : ordered_sample [/ 2; / 2; / 2] = [1 / 3; 2 / 3]).
  { unfold ordered_sample, jump_times, total. simpl. rewrite ln_inv2. f_equal; [|f_equal]; field; lra. }
  split; auto. unfold ecdf_inside. rewrite E. unfold stays_inside, case_b, ones2. simpl. split; [lia|]. split.
  - intros [|[|i]] Hi; simpl; lra || lia.
  - right. split; [lia|]. intros [|[|i]] Hi; simpl; lra || lia.
Qed.
Lemma case_sample_out : ordered_sample [/ 2; / 2; / 16] = [1 / 6; 1 / 3] /\ ~ ecdf_inside case_b ones2 [/ 2; / 2; / 16].
Proof.
  pose proof ln2_pos. assert (E : ordered_sample [/ 2; / 2; / 16] = [1 / 6; 1 / 3]).
  { unfold ordered_sample, jump_times, total. simpl. rewrite ln_inv2.
    assert (E16 : - ln (/ 16) = 4 * ln 2).
    { rewrite ln_Rinv by lra. replace 16 with (2 ^ 4) by ring. rewrite ln_pow by lra. simpl. ring. }
    rewrite E16. f_equal; [|f_equal]; field; lra. }
  split; auto. unfold ecdf_inside. rewrite E. unfold stays_inside, case_b. intros (_ & _ & [H0|(_ & H0)]); [discriminate|].
  specialize (H0 1%nat). simpl in H0. specialize (H0 ltac:(lia)). lra.
Qed.

Lemma case_has_prob : has_prob 3 (ecdf_inside case_b ones2) (3 / 4).
Proof. exact (ecdf_inside_prob case_b ones2 (3 / 4) case_b_valid ones2_valid case_two_sided_b). Qed.
Lemma case_has_prob_padded : has_prob 3 (ecdf_inside case_b []) (3 / 4) /\ has_prob 3 (ecdf_inside [] case_B) (3 / 4).
Proof.
  split.
  - apply (ecdf_inside_prob_padded case_b [] 2 (3 / 4)); auto; [exact case_b_valid|split; constructor|exact case_two_sided_b].
  - apply (ecdf_inside_prob_padded [] case_B 2 (3 / 4)); auto; [split; constructor|exact case_B_valid|exact case_two_sided_B].
Qed.

(** One crossing in two simulations. *)
Lemma case_binomial : has_prob 6
  (fun us => exists cs, length cs = 2%nat /\ outcomes 3 (ecdf_inside case_b ones2) cs us /\ crossings cs = 1%Z) (3 / 8).
Proof.
  pose proof (crossings_binomial case_b ones2 (3 / 4) 2 1 case_b_valid ones2_valid case_two_sided_b ltac:(lia)) as H.
  simpl in H. replace (3 / 8) with (C 2 1 * ((1 - 3 / 4) * 1) * (3 / 4 * 1)); [exact H|]. unfold C. simpl. field.
Qed.

(** The exact algorithm and the simulation speak about the same number. *)
Theorem ecdf2_is_simulated frexp (E : env (Xnum frexp)) (b B : list R) use_fft :
  valid_boundary b -> valid_boundary B -> length b = length B -> sort_ok E -> (use_fft = true -> fft_ok E) ->
  (asserts E = true -> forall i, (S i < length b)%nat -> nth i b 0 <= nth (S i) B 0) ->
  exists p, ecdf2 E (map Fin b) (map Fin B) use_fft = Ok (Fin p) /\ has_prob (S (length b)) (ecdf_inside b B) p.
Proof.
  intros Vb VB L So Fo G. destruct use_fft.
  - destruct (ecdf2_fft_exact E b B Vb VB L So (Fo eq_refl) G) as (p & Hp & R). exists p. split; auto. apply ecdf_inside_prob; auto.
  - destruct (ecdf2_direct_exact E b B Vb VB L So G) as (p & Hp & R). exists p. split; auto. apply ecdf_inside_prob; auto.
Qed.

(** Draws of a freshly seeded generator. *)
Definition case_uninit : tinymt := mkTinymt 0 0 0xfa051f40 0xffd0fff4 0x58d02ffeffbfffbc.
Definition seeded_state : tinymt := mkTinymt 16921178609025585924 17245444669879175977 0xfa051f40 0xffd0fff4 0x58d02ffeffbfffbc.
Lemma seeded : rng_make case_uninit (0 + Z.of_nat 2 * 2 ^ 20) = seeded_state.
Proof. vm_compute. reflexivity. Qed.
Lemma seeded_ok : state_ok seeded_state.
Proof. repeat split; vm_compute; congruence. Qed.

Lemma draws_from {frexp} k : forall r, state_ok r ->
  forallb (fun i => (0 <? first_draw (Nat.iter i tinymt64_next_state r))%Z) (seq 0 k) = true ->
  exists us r1, length us = k /\ Forall (fun u => 0 < u < 1) us /\ draws (N := Xnum frexp) r (map Fin us) r1.
Proof.
  induction k as [|k IH]; intros r Hr H.
  - exists [], r. repeat split; constructor.
  - cbn [seq forallb] in H. apply andb_prop in H as (H0 & H1).
    destruct (IH (tinymt64_next_state r) (next_ok _ Hr)) as (us & r1 & L & F & D).
    { rewrite <- H1. rewrite <- seq_shift. clear. generalize (seq 0 k). induction l as [|i l IH]; auto.
      cbn [map forallb]. rewrite IH. f_equal. rewrite <- (Nat.add_1_r i), iter_add. reflexivity. }
    exists (IZR (first_draw r) / IZR (2 ^ 52) :: us), r1. split; [simpl; lia|]. split.
    + constructor; auto. split.
      * apply Rdiv_lt_0_compat; apply IZR_lt; [apply Z.ltb_lt in H0; exact H0|reflexivity].
      * apply (unit_fraction (first_draw r)). apply word_shiftr; try lia. apply temper_word, next_ok; exact Hr.
    + cbn [map]. econstructor; [apply draw_value; exact Hr|exact D].
Qed.

Lemma case_program : exists us r1, length us = (2 * 3)%nat /\ Forall (fun u => 0 < u < 1) us /\
  draws (N := Xnum some_frexp) (rng_make case_uninit (0 + Z.of_nat 2 * 2 ^ 20)) (map Fin us) r1.
Proof. rewrite seeded. apply draws_from; [exact seeded_ok|vm_compute; reflexivity]. Qed.

Lemma case_poisson_binomial : let p := exp (- (2)) * 2 ^ 2 / 2 * (3 / 4) in is_prob 6
  (fun us => exists cs, length cs = 2%nat /\ poisson_outcomes (/ 2) case_b ones2 cs us /\ crossings cs = 1%Z) (2 * (1 - p) * p).
Proof.
  intros p.
  pose proof (poisson_crossings_binomial case_b ones2 2 p 2 1 ltac:(discriminate) ltac:(lra) case_poisson ltac:(lia)) as H.
  replace (2 * (1 - p) * p) with (C 2 1 * (1 - p) ^ 1 * p ^ (2 - 1)); [exact H|]. unfold C. simpl. field.
Qed.
Definition poisson_seeded_state : tinymt := mkTinymt 11201618911507568109 17860499641928161313 0xfa051f40 0xffd0fff4 0x58d02ffeffbfffbc.
Lemma poisson_seeded : rng_make case_uninit (0 + 2 * 1000000) = poisson_seeded_state.
Proof. vm_compute. reflexivity. Qed.
Lemma case_poisson_program : exists us r1, length us = (2 * 3)%nat /\ Forall (fun u => 0 < u < 1) us /\
  draws (N := Xnum some_frexp) (rng_make case_uninit (0 + 2 * 1000000)) (map Fin us) r1.
Proof. rewrite poisson_seeded. apply draws_from; [repeat split; vm_compute; congruence|vm_compute; reflexivity]. Qed.
