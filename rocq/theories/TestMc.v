(** * TestMc: crossprob_mc on the files of the test suite. *)
From Coquelicot Require Import Coquelicot.
From Coq Require Import ZArith Reals List Bool Lia Lra String Sorted.
From Verif Require Import Base Num XReal TinyMT StringUtils MonteCarlo Cli Spec SpecFacts StringSpec StringFacts LineFacts CliSpec McSpec McProbSpec McLoop McMore McEcdfProb McEstimate McChernoff.
From Verif Require Import ShowSpec ShowFacts ShowMore ShowCli TestSpec TestProb TestCli.
Import List. Import ListNotations.
Local Open Scope R_scope.
Local Open Scope string_scope.

(** ** How rare a failure is *)
Lemma exp_small : 2 * exp (- (1000000 * (989/100000) ^ 2) / 2) <= 1 / 10 ^ 20.
Proof.
  assert (A : exp (- (1000000 * (989/100000) ^ 2) / 2) <= exp (- (INR 782 * (1/16)))).
  { destruct (Req_dec (- (1000000 * (989/100000) ^ 2) / 2) (- (INR 782 * (1/16)))) as [->|N]; [lra|].
    left. apply exp_increasing. rewrite INR_IZR_INZ in *. simpl Z.of_nat in *. lra. }
  assert (B : exp (- (INR 782 * (1/16))) = / exp (1/16) ^ 782) by (rewrite exp_Ropp, exp_INR; reflexivity).
  assert (C : (17/16) ^ 782 <= exp (1/16) ^ 782) by (apply pow_incr; pose proof (exp_ineq1_le (1/16)); lra).
  assert (D : 2 * 10 ^ 20 <= (17/16) ^ 782).
  { unfold Rdiv. rewrite Rpow_mult_distr, <- Rinv_pow by lra. apply Rmult_le_reg_r with (16 ^ 782); [apply pow_lt; lra|]. rewrite (Rmult_assoc (17 ^ 782)), Rinv_l, Rmult_1_r by (apply pow_nonzero; lra).
    rewrite !pow_IZR, <- !mult_IZR. apply IZR_le. apply Z.leb_le. vm_compute. reflexivity. }
  assert (P : 0 < 10 ^ 20) by (apply pow_lt; lra).
  apply Rle_trans with (2 * / exp (1/16) ^ 782); [lra|]. apply Rle_trans with (2 * / (2 * 10 ^ 20)).
  - apply Rmult_le_compat_l; [lra|]. apply Rinv_le_contravar; lra.
  - right. field.
Qed.

Lemma far_rare (t : test_file) (v : R) num : (1 <= num)%nat -> INR num = 1000000 -> fine t -> near t (v - 1/100000) (v + 1/100000) ->
  lower t = [] \/ List.length (lower t) = sample_size t -> upper t = [] \/ List.length (upper t) = sample_size t -> lower t <> [] \/ upper t <> [] ->
  exists q, q <= 1 / 10 ^ 20 /\ has_prob (num * S (sample_size t)) (far_off num t v) q.
Proof.
  intros Hn HN (V1 & V2 & _) (p & HP & HB) L1 L2 NE.
  assert (HI : has_prob (S (sample_size t)) (ecdf_inside (lower t) (upper t)) p).
  { apply ecdf_inside_prob_padded; auto; [unfold sample_size; lia|].
    assert (E1 : (if lower t then repeat 0 (sample_size t) else lower t) = lower_of t).
    { unfold lower_of. destruct (lower t) eqn:E; [|reflexivity]. f_equal. destruct L2 as [L2|L2]; [|symmetry; exact L2].
      destruct NE; congruence. }
    assert (E2 : (upper t ++ repeat 1 (sample_size t - List.length (upper t)))%list = upper_of t).
    { unfold upper_of. destruct (upper t) eqn:E.
      - cbn [app List.length]. rewrite Nat.sub_0_r. f_equal. destruct L1 as [L1|L1]; [|symmetry; exact L1]. destruct NE; congruence.
      - destruct L2 as [L2|L2]; [congruence|]. rewrite L2, Nat.sub_diag. cbn [repeat]. apply app_nil_r. }
    rewrite E1, E2. exact HP. }
  pose proof (count_law _ _ _ HI num (fun j => if Rlt_dec (99/10000) (Rabs (1 - INR j / INR num - v)) then true else false)) as H.
  eexists. split; [|eapply has_prob_ext; [|exact H]].
  - eapply Rle_trans; [|exact exp_small]. rewrite <- HN.
    eapply Rle_trans; [|apply (chernoff p num (989/100000) (has_prob_range _ _ _ HI)); [lra|exact Hn]].
    apply binom_mono; [apply (has_prob_range _ _ _ HI)|]. intros j _.
    destruct (Rlt_dec (99/10000)) as [G|G]; destruct (Rlt_dec (989/100000)) as [G'|G']; try lra.
    exfalso. apply G'. replace (INR j / INR num - (1 - p)) with (- ((1 - INR j / INR num - v) + (v - p))) by ring. rewrite Rabs_Ropp.
    pose proof (Rabs_triang_inv (1 - INR j / INR num - v) (- (v - p))) as T.
    replace (1 - INR j / INR num - v - - (v - p)) with (1 - INR j / INR num - v + (v - p)) in T by ring.
    assert (Rabs (- (v - p)) <= 1/100000) by (apply Rabs_le; lra). lra.
  - intros us _ _. unfold far_off. split; intros (cs & L & O & Q); exists cs; split; auto; split; auto.
    + destruct (Rlt_dec (99/10000)) as [G|G]; [|discriminate]. unfold crossings. rewrite <- INR_IZR_INZ. exact G.
    + unfold crossings in Q. rewrite <- INR_IZR_INZ in Q. destruct (Rlt_dec (99/10000)); auto.
Qed.

Definition million : nat := Z.to_nat 1000000.
Lemma million_INR : INR million = 1000000.
Proof. unfold million. rewrite INR_IZR_INZ, Z2Nat.id by lia. reflexivity. Qed.
Lemma mc_files t v : In (t, v) mc_suite -> In t test_files /\ near t (v - 1/100000) (v + 1/100000) /\
  (lower t = [] \/ List.length (lower t) = sample_size t) /\ (upper t = [] \/ List.length (upper t) = sample_size t) /\ (lower t <> [] \/ upper t <> []).
Proof.
  intros H. repeat destruct H as [[= <- <-]|H].
  - split; [member|]. split; [eapply near_weaken; [exact near_bounds2|lra|lra]|]. split; [right; reflexivity|]. split; [right; reflexivity|]. left; discriminate.
  - split; [member|]. split; [eapply near_weaken; [exact near_bounds8|lra|lra]|]. split; [right; reflexivity|]. split; [right; reflexivity|]. left; discriminate.
  - split; [member|]. split; [eapply near_weaken; [exact near_cksplus|lra|lra]|]. split; [right; reflexivity|]. split; [left; reflexivity|]. left; discriminate.
  - split; [member|]. split; [eapply near_weaken; [exact near_cksminus|lra|lra]|]. split; [left; reflexivity|]. split; [right; reflexivity|]. right; discriminate.
  - destruct H.
Qed.
Theorem mc_suite_rare : Forall (fun row => exists q, q <= 1 / 10 ^ 20 /\
  has_prob (million * S (sample_size (fst row))) (far_off million (fst row) (snd row)) q) mc_suite.
Proof.
  apply Forall_forall. intros (t, v) H. cbn [fst snd]. destruct (mc_files t v H) as (H1 & H2 & H3 & H4 & H5).
  apply far_rare; auto; [unfold million; lia|exact million_INR|apply fine_all; exact H1].
Qed.

Lemma mc_suite_rare_rows : Forall (fun row => match row with (t, v) => exists q, q <= 1 / 10 ^ 20 /\
  has_prob (million * S (sample_size t)) (far_off million t v) q end) mc_suite.
Proof. eapply Forall_impl; [|exact mc_suite_rare]. intros (t & v) H. exact H. Qed.

Lemma million_text : nul_free "1000000" /\ integer_text "1000000" 1000000%Z.
Proof.
  assert (N0 : nul_free "1000000") by (unfold nul_free, without; repeat constructor; discriminate).
  split; [exact N0|]. apply (string_to_long_exact "1000000" 1000000 N0). reflexivity.
Qed.

(** ** What the program prints *)
Section Program.
Context {frexp : xr -> Z} (E : env (Xnum frexp)) (fs : filesystem) (prog : string) (uninit : tinymt) (now : Z).
Notation XN := (Xnum frexp).
Hypothesis HS : show_ok real_of_xr E.
Hypothesis HF : forall t, In t test_files -> fs (name t) = Some (text t).

Lemma mc_test t nsim (num : nat) us r1 : nul_free nsim -> integer_text nsim (Z.of_nat num) -> (1 <= num)%nat -> (Z.of_nat num <= INT_MAX)%Z ->
  In t test_files -> lower t <> [] \/ upper t <> [] -> lower t = [] \/ (List.length (upper t) <= List.length (lower t))%nat ->
  Forall (fun u => 0 < u < 1) us -> List.length us = (num * S (sample_size t))%nat ->
  draws (N := XN) (rng_make uninit (now + Z.of_nat (sample_size t) * 2 ^ 20)) (map Fin us) r1 ->
  exists cs, List.length cs = num /\ outcomes (S (sample_size t)) (ecdf_inside (lower t) (upper t)) cs us /\
    forall fuel, (num <= fuel)%nat ->
      mc_main E fuel uninit now fs [prog; "ecdf"; name t; nsim] =
        Ok ([Text (show_double E (Fin (1 - IZR (crossings cs) / INR num) : car XN))], 0%Z).
Proof.
  intros HN HI H1 H2 Ht NE HL F LU D. pose proof (holds_all frexp t Ht) as HH. unfold holds in HH.
  assert (SZ : forall l : list R, @size (car XN) (@map R (car XN) Fin l) = Z.of_nat (List.length l)) by (intros l; unfold size; rewrite map_length; reflexivity).
  assert (NM : Z.max (@size (car XN) (@map R (car XN) Fin (lower t))) (@size (car XN) (@map R (car XN) Fin (upper t))) = Z.of_nat (sample_size t)) by (rewrite !SZ; unfold sample_size; lia).
  assert (S1 : (1 <= sample_size t)%nat).
  { unfold sample_size. destruct NE as [N|N]; [destruct (lower t); [congruence|cbn [List.length]; lia]|destruct (upper t); [congruence|cbn [List.length]; lia]]. }
  destruct (mc_ecdf_prints E uninit now fs prog (name t) nsim (Z.of_nat num) (text t) (map Fin (lower t)) (map Fin (upper t))) as (cs' & L' & S' & R'); auto.
  - lia.
  - destruct NE as [N|N]; [left; destruct (lower t); [congruence|discriminate]|right; destruct (upper t); [congruence|discriminate]].
  - destruct HL as [HL|HL]; [left; rewrite HL; reflexivity|right; rewrite !SZ; lia].
  - match type of S' with context [Z.max ?a ?b] => replace (Z.max a b) with (Z.of_nat (sample_size t)) in S' by (symmetry; exact NM) end.
    rewrite !Nat2Z.id in S'. rewrite Nat2Z.id in R'.
    destruct (block_simulations (frexp := frexp) (lower t) (upper t) (sample_size t) S1 num us _ r1 F LU D) as (cs & L & O & Sm).
    assert (cs' = cs) as -> by (eapply simulations_det; eauto; lia).
    exists cs. split; [exact L|]. split; [exact O|]. intros fuel Hf. rewrite (R' fuel Hf), INR_IZR_INZ. reflexivity.
Qed.

Theorem mc_suite_passes t v us r1 : In (t, v) mc_suite -> Forall (fun u => 0 < u < 1) us -> List.length us = (million * S (sample_size t))%nat ->
  draws (N := XN) (rng_make uninit (now + Z.of_nat (sample_size t) * 2 ^ 20)) (map Fin us) r1 -> ~ far_off million t v us ->
  forall fuel, (million <= fuel)%nat -> exists w, prints (mc_main E fuel uninit now fs [prog; "ecdf"; name t; "1000000"]) w /\ Rabs (w - v) < EPSILON.
Proof.
  intros H F LU D NF fuel Hf. destruct (mc_files t v H) as (H1 & H2 & H3 & H4 & H5).
  assert (ZM : Z.of_nat million = 1000000%Z) by (unfold million; rewrite Z2Nat.id by lia; reflexivity).
  destruct (mc_test t "1000000" million us r1) as (cs & L & O & R); auto.
  - apply million_text.
  - rewrite ZM. apply million_text.
  - unfold million; lia.
  - rewrite ZM. unfold INT_MAX. lia.
  - destruct H4 as [->|H4]; [|destruct H3 as [H3|H3]; [left; exact H3|right; lia]]. right. simpl. lia.
  - set (x := 1 - IZR (crossings cs) / INR million) in *.
    assert (CB : 0 <= IZR (crossings cs) / INR million <= 1).
    { pose proof (crossings_range cs) as C. rewrite L, ZM in C. rewrite million_INR. destruct C as [C1 C2]. apply IZR_le in C1. apply IZR_le in C2.
      split; [apply Rmult_le_pos; lra|]. lra. }
    pose proof (HS (Fin x : car XN) x eq_refl) as P. destruct (printed_reads x _ P) as (w & HW & _ & H7 & _).
    exists w. split; [rewrite (R fuel Hf); eexists; split; [reflexivity|exact HW]|].
    assert (X1 : Rabs (w - x) <= 5 / 10000000) by (apply H7; unfold x; apply Rabs_le; lra).
    assert (X2 : Rabs (x - v) <= 99/10000).
    { destruct (Rle_lt_dec (Rabs (x - v)) (99/10000)) as [G|G]; [exact G|]. exfalso. apply NF. exists cs. auto. }
    replace (w - v) with ((w - x) + (x - v)) by ring. pose proof (Rabs_triang (w - x) (x - v)). unfold EPSILON. lra.
Qed.

(** Boundaries 0 and 1 are never crossed. *)
Lemma inside_trivial t us : t = bounds_0 \/ t = bounds__1 -> Forall (fun u => 0 < u < 1) us -> List.length us = S (sample_size t) ->
  ecdf_inside (lower t) (upper t) us.
Proof.
  intros Ht F L. assert (SS : sample_size t = 3%nat) by (destruct Ht as [->| ->]; reflexivity).
  rewrite SS in L. pose proof (sample_length 3 us L) as Lx. unfold ecdf_inside, stays_inside.
  assert (B : forall i, (i < 3)%nat -> 0 <= nth i (ordered_sample us) 0 <= 1).
  { intros i Hi. apply (sample_range 3); auto. eapply Forall_impl; [|exact F]. intros u Hu. cbn beta in Hu. lra. }
  destruct Ht as [->| ->]; cbn [lower upper bounds_0 bounds__1]; rewrite Lx; (split; [simpl; lia|]); split.
  - intros i Hi. simpl in Hi. lia.
  - right. split; [simpl; lia|]. intros i Hi. specialize (B i Hi). do 3 (destruct i as [|i]; [simpl in *; lra|]). lia.
  - intros i Hi. simpl in Hi. specialize (B i Hi). do 3 (destruct i as [|i]; [simpl in *; lra|]). lia.
  - left. reflexivity.
Qed.
Lemma outcomes_trivial k (A : list R -> Prop) : (forall us, Forall (fun u => 0 < u < 1) us -> List.length us = k -> A us) ->
  forall cs us, Forall (fun u => 0 < u < 1) us -> List.length us = (List.length cs * k)%nat -> outcomes k A cs us -> crossings cs = 0%Z.
Proof.
  intros HA. induction cs as [|c cs IH]; intros us F L O; [reflexivity|]. cbn [List.length Nat.mul] in L. destruct O as [O1 O2].
  assert (c = false) as ->. { apply O1, HA; [apply Forall_firstn_R; exact F|apply firstn_length_le; lia]. }
  unfold crossings in *. cbn [filter]. apply (IH (skipn k us)); [apply Forall_skipn_R; exact F|rewrite skipn_length; lia|exact O2].
Qed.
Theorem mc_ones_pass t us r1 : In t mc_ones -> Forall (fun u => 0 < u < 1) us -> List.length us = (1000 * S (sample_size t))%nat ->
  draws (N := XN) (rng_make uninit (now + Z.of_nat (sample_size t) * 2 ^ 20)) (map Fin us) r1 ->
  forall fuel, (1000 <= fuel)%nat -> mc_main E fuel uninit now fs [prog; "ecdf"; name t; "1000"] = Ok ([Text "1"], 0%Z).
Proof.
  intros H F LU D fuel Hf. assert (Ht : t = bounds_0 \/ t = bounds__1) by (destruct H as [<-|[<-|[]]]; auto).
  destruct (mc_test t "1000" 1000 us r1) as (cs & L & O & R); auto.
  - apply case_integer.
  - change (Z.of_nat 1000) with 1000%Z. apply case_integer.
  - lia.
  - unfold INT_MAX. lia.
  - destruct Ht as [->| ->]; member.
  - destruct Ht as [->| ->]; [left|right]; discriminate.
  - destruct Ht as [->| ->]; [right; simpl; lia|left; reflexivity].
  - rewrite (R fuel Hf). rewrite (outcomes_trivial (S (sample_size t)) (ecdf_inside (lower t) (upper t)) (fun us => inside_trivial t us Ht) cs us F) by (rewrite ?L; assumption).
    set (x := 1 - 0 / INR 1000). assert (X : x = 1) by (unfold x; field; apply not_0_INR; lia). rewrite X.
    rewrite (printed_one 1 _ ltac:(lra) (HS (Fin 1 : car XN) 1 eq_refl)). reflexivity.
Qed.
End Program.
