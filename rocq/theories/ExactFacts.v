(** * ExactFacts: consequences of the exact-arithmetic correctness proofs. *)
From Coquelicot Require Import Coquelicot.
From Flocq Require Import Core.Raux.
From Coq Require Import ZArith Reals List Bool Lia Lra String Permutation Sorted Factorial.
From Verif Require Import Base Num Hoare XReal RSum PoissonPmf Common FFTConv Ecdf2 Ecdf1New Ecdf1Mns XPmf.
From Verif Require Import Spec SpecFacts Cells Events XCommon XEcdf2 XEcdf2Main XFft NewMath XEcdf1New Reflect XEcdf1NewMain XMns ProbFacts.
Import List.
Local Open Scope R_scope.

Section Facts.
Context {frexp : xr -> Z} (E : env (Xnum frexp)).
Notation XN := (Xnum frexp).

(** no B_{i+1} < b_i *)
Definition no_gap (b B : list R) : Prop :=
  forall i, (S i < length b)%nat -> nth i b 0 <= nth (S i) B 0.
Lemma no_gap_not_bad b B : no_gap b B <-> ~ bad_pair b B.
Proof.
  unfold no_gap, bad_pair. split.
  - intros H (i & Hi & Hlt). specialize (H i Hi). lra.
  - intros H i Hi. destruct (Rle_or_lt (nth i b 0) (nth (S i) B 0)); auto. exfalso. apply H. eauto.
Qed.

Lemma ecdf2_cases (b B : list R) use_fft :
  valid_boundary b -> valid_boundary B -> length b = length B -> sort_ok E -> (use_fft = true -> fft_ok E) ->
  (asserts E = true /\ ~ no_gap b B /\ exists s, ecdf2 E (map Fin b) (map Fin B) use_fft = Abort s) \/
  ((asserts E = true -> no_gap b B) /\
   exists p, is_noncrossing_probability b B p /\ ecdf2 E (map Fin b) (map Fin B) use_fft = Ok (Fin p)).
Proof.
  intros Hb HB Hl Hs Hf.
  destruct (ecdf2_wp E b B use_fft (fft_inv (Z.of_nat (length b) + 1)) Hb HB Hl Hs) as (p & Hp & Hw).
  { intros H. apply fft_spec_ok. auto. }
  destruct (ecdf2 E (map Fin b) (map Fin B) use_fft) eqn:Ee; simpl in Hw; try contradiction.
  - right. destruct Hw as [-> Hn]. split; [|eauto]. intros H. apply no_gap_not_bad. auto.
  - left. destruct Hw as [H1 H2]. split; auto. split; [|eauto]. rewrite no_gap_not_bad. tauto.
Qed.

Lemma ecdf2_exact (b B : list R) use_fft :
  valid_boundary b -> valid_boundary B -> length b = length B -> sort_ok E -> (use_fft = true -> fft_ok E) ->
  (asserts E = true -> no_gap b B) ->
  exists p, is_noncrossing_probability b B p /\ ecdf2 E (map Fin b) (map Fin B) use_fft = Ok (Fin p).
Proof.
  intros Hb HB Hl Hs Hf Hg. destruct (ecdf2_cases b B use_fft) as [(H1 & H2 & _)|[_ H]]; auto.
  exfalso. auto.
Qed.

Lemma ecdf2_direct_exact (b B : list R) :
  valid_boundary b -> valid_boundary B -> length b = length B -> sort_ok E ->
  (asserts E = true -> no_gap b B) ->
  exists p, is_noncrossing_probability b B p /\ ecdf2 E (map Fin b) (map Fin B) false = Ok (Fin p).
Proof. intros. apply ecdf2_exact; auto. discriminate. Qed.

Lemma ecdf2_fft_exact (b B : list R) :
  valid_boundary b -> valid_boundary B -> length b = length B -> sort_ok E -> fft_ok E ->
  (asserts E = true -> no_gap b B) ->
  exists p, is_noncrossing_probability b B p /\ ecdf2 E (map Fin b) (map Fin B) true = Ok (Fin p).
Proof. intros. apply ecdf2_exact; auto. Qed.

(** whatever ecdf2 returns is the probability *)
Lemma ecdf2_returns (b B : list R) use_fft r :
  valid_boundary b -> valid_boundary B -> length b = length B -> sort_ok E -> (use_fft = true -> fft_ok E) ->
  ecdf2 E (map Fin b) (map Fin B) use_fft = Ok r ->
  exists p, r = Fin p /\ is_noncrossing_probability b B p.
Proof.
  intros Hb HB Hl Hs Hf Hr.
  destruct (ecdf2_cases b B use_fft) as [(_ & _ & s & H)|(_ & p & Hp & H)]; auto; rewrite Hr in H; try discriminate.
  injection H as ->. eauto.
Qed.

Lemma ecdf2_aborts_iff (b B : list R) use_fft :
  valid_boundary b -> valid_boundary B -> length b = length B -> sort_ok E -> (use_fft = true -> fft_ok E) ->
  asserts E = true ->
  ((exists s, ecdf2 E (map Fin b) (map Fin B) use_fft = Abort s) <->
   exists i, (S i < length b)%nat /\ nth (S i) B 0 < nth i b 0).
Proof.
  intros Hb HB Hl Hs Hf Ha. 
  destruct (ecdf2_cases b B use_fft) as [(_ & H2 & H3)|(H2 & p & Hp & H)]; auto.
  - split; auto. intros _. rewrite no_gap_not_bad in H2.
    destruct (Classical_Prop.classic (bad_pair b B)) as [Hb'|Hb']; [exact Hb'|tauto].
  - split; [intros (s & H'); congruence|]. intros (i & Hi & Hlt). specialize (H2 Ha i Hi). lra.
Qed.

(** ** agreement *)
Lemma no_gap_ones b n : valid_boundary b -> length b = n -> no_gap b (repeat 1 n).
Proof.
  intros [_ HF] Hl i Hi. rewrite (nth_indep (repeat 1 n) 0 1) by (rewrite repeat_length; lia). rewrite nth_repeat.
  rewrite Forall_forall in HF. apply HF. apply nth_In. lia.
Qed.
Lemma no_gap_zeros B n : valid_boundary B -> length B = n -> no_gap (repeat 0 n) B.
Proof.
  intros [_ HF] Hl i Hi. rewrite nth_repeat. rewrite repeat_length in Hi.
  rewrite Forall_forall in HF. apply HF. apply nth_In. lia.
Qed.

Lemma prob_ones b p : is_prob (length b) (noncrossing_b b) p <->
  is_noncrossing_probability b (repeat 1 (length b)) p.
Proof.
  split.
  - intros H. split; [rewrite repeat_length; auto|]. eapply is_prob_ext; [|exact H].
    intros l Hl HF. symmetry. apply one_sided_b; auto.
  - intros [_ H]. eapply is_prob_ext; [|exact H].
    intros l Hl HF. apply one_sided_b; auto.
Qed.
Lemma prob_zeros B p : is_prob (length B) (noncrossing_B B) p <->
  is_noncrossing_probability (repeat 0 (length B)) B p.
Proof.
  split.
  - intros H. split; rewrite repeat_length; auto. eapply is_prob_ext; [|exact H].
    intros l Hl HF. symmetry. apply one_sided_B; auto.
  - intros [_ H]. rewrite repeat_length in H. eapply is_prob_ext; [|exact H].
    intros l Hl HF. apply one_sided_B; auto.
Qed.

Lemma agree_B (B : list R) use_fft : valid_boundary B -> sort_ok E -> fft_ok E -> long_double_ok E ->
  (2 <= length B)%nat -> (Z.of_nat (length B) <= INT_MAX)%Z ->
  exists p, ecdf1_new_B E (map Fin B) = Ok (Fin p) /\
    ecdf1_mns2016_B E (map Fin B) = Ok (Fin p) /\
    ecdf2 E (map Fin (repeat 0 (length B))) (map Fin B) use_fft = Ok (Fin p).
Proof.
  intros HV Hs Hf Hld H2 Hm.
  destruct (new_B_total E B) as (p & Hp & Ep); auto; [lia|].
  destruct (mns_B_total E B) as (q & Hq & Eq); auto.
  destruct (ecdf2_exact (repeat 0 (length B)) B use_fft) as (r & Hr & Er); auto.
  - apply valid_repeat; lra.
  - rewrite repeat_length; auto.
  - intros _. apply no_gap_zeros; auto.
  - apply prob_zeros in Hr. rewrite (is_prob_unique _ _ _ _ Hq Hp) in Eq. rewrite (is_prob_unique _ _ _ _ Hr Hp) in Er.
    eauto.
Qed.
Lemma agree_b (b : list R) use_fft : valid_boundary b -> sort_ok E -> fft_ok E -> long_double_ok E ->
  (2 <= length b)%nat -> (Z.of_nat (length b) <= INT_MAX)%Z ->
  exists p, ecdf1_new_b E (map Fin b) = Ok (Fin p) /\
    ecdf1_mns2016_b E (map Fin b) = Ok (Fin p) /\
    ecdf2 E (map Fin b) (map Fin (repeat 1 (length b))) use_fft = Ok (Fin p).
Proof.
  intros HV Hs Hf Hld H2 Hm.
  destruct (new_b_total E b) as (p & Hp & Ep); auto; [lia|].
  destruct (mns_b_total E b) as (q & Hq & Eq); auto.
  destruct (ecdf2_exact b (repeat 1 (length b)) use_fft) as (r & Hr & Er); auto.
  - apply valid_repeat; lra.
  - rewrite repeat_length; auto.
  - intros _. apply no_gap_ones; auto.
  - apply prob_ones in Hr. rewrite (is_prob_unique _ _ _ _ Hq Hp) in Eq. rewrite (is_prob_unique _ _ _ _ Hr Hp) in Er.
    eauto.
Qed.

(** ** range *)
Lemma ecdf2_range (b B : list R) use_fft r :
  valid_boundary b -> valid_boundary B -> length b = length B -> sort_ok E -> (use_fft = true -> fft_ok E) ->
  ecdf2 E (map Fin b) (map Fin B) use_fft = Ok r -> exists p, r = Fin p /\ 0 <= p <= 1.
Proof.
  intros Hb HB Hl Hs Hf Hr. destruct (ecdf2_returns b B use_fft r) as (p & -> & [_ Hp]); auto.
  exists p. split; auto. eapply is_prob_range; eauto.
Qed.
Lemma one_sided_range (v : list R) r : valid_boundary v -> fft_ok E -> long_double_ok E -> (1 <= length v)%nat -> (Z.of_nat (length v) <= INT_MAX)%Z ->
  (asserts E = true -> (2 <= length v)%nat) ->
  ecdf1_new_B E (map Fin v) = Ok r \/ ecdf1_new_b E (map Fin v) = Ok r \/
  ecdf1_mns2016_B E (map Fin v) = Ok r \/ ecdf1_mns2016_b E (map Fin v) = Ok r -> exists p, r = Fin p /\ 0 <= p <= 1.
Proof.
  intros HV Hf Hld H1 Hm Ha H.
  destruct (new_B_total E v) as (p1 & Hp1 & E1); auto.
  destruct (new_b_total E v) as (p2 & Hp2 & E2); auto.
  destruct (mns_B_total E v) as (p3 & Hp3 & E3); auto.
  destruct (mns_b_total E v) as (p4 & Hp4 & E4); auto.
  destruct H as [H|[H|[H|H]]]; rewrite H in *.
  - exists p1. injection E1 as ->. split; auto. eapply is_prob_range; eauto.
  - exists p2. injection E2 as ->. split; auto. eapply is_prob_range; eauto.
  - exists p3. injection E3 as ->. split; auto. eapply is_prob_range; eauto.
  - exists p4. injection E4 as ->. split; auto. eapply is_prob_range; eauto.
Qed.
End Facts.

(** ** two runs *)
Section Two.
Context {frexp frexp' : xr -> Z} (E : env (Xnum frexp)) (E' : env (Xnum frexp')).

Lemma ecdf2_widen (b B b' B' : list R) use_fft use_fft' p p' :
  valid_boundary b -> valid_boundary B -> length b = length B -> 
  valid_boundary b' -> valid_boundary B' -> length b' = length B' -> 
  sort_ok E -> (use_fft = true -> fft_ok E) ->
  sort_ok E' -> (use_fft' = true -> fft_ok E') ->
  Forall2 Rle b' b -> Forall2 Rle B B' ->
  ecdf2 E (map Fin b) (map Fin B) use_fft = Ok (Fin p) ->
  ecdf2 E' (map Fin b') (map Fin B') use_fft' = Ok (Fin p') -> p <= p'.
Proof.
  intros V1 V2 L V1' V2' L' Hs Hf Hs' Hf' W1 W2 R1 R2.
  apply ecdf2_returns in R1; auto. apply ecdf2_returns in R2; auto.
  destruct R1 as (q & H1 & H2), R2 as (q' & H1' & H2'). injection H1 as ->. injection H1' as ->.
  exact (prob_widen b B b' B' _ _ W1 W2 H2 H2').
Qed.

Lemma ecdf2_same (b B : list R) use_fft use_fft' r r' :
  valid_boundary b -> valid_boundary B -> length b = length B -> 
  sort_ok E -> (use_fft = true -> fft_ok E) ->
  sort_ok E' -> (use_fft' = true -> fft_ok E') ->
  ecdf2 E (map Fin b) (map Fin B) use_fft = Ok r ->
  ecdf2 E' (map Fin b) (map Fin B) use_fft' = Ok r' -> r = r'.
Proof.
  intros V1 V2 L Hs Hf Hs' Hf' R1 R2.
  apply ecdf2_returns in R1; auto. apply ecdf2_returns in R2; auto.
  destruct R1 as (q & -> & [_ H2]), R2 as (q' & -> & [_ H2']).
  f_equal. eapply is_prob_unique; eauto.
Qed.

Lemma ecdf2_reflect (b B : list R) use_fft use_fft' r r' :
  valid_boundary b -> valid_boundary B -> length b = length B -> 
  sort_ok E -> (use_fft = true -> fft_ok E) ->
  sort_ok E' -> (use_fft' = true -> fft_ok E') ->
  ecdf2 E (map Fin b) (map Fin B) use_fft = Ok r ->
  ecdf2 E' (map Fin (reflect B)) (map Fin (reflect b)) use_fft' = Ok r' -> r = r'.
Proof.
  intros V1 V2 L Hs Hf Hs' Hf' R1 R2.
  apply ecdf2_returns in R1; auto. apply ecdf2_returns in R2; auto; try apply valid_reflect; auto;
    [|rewrite !reflect_length; auto].
  destruct R1 as (q & -> & H2), R2 as (q' & -> & H2').
  apply prob_reflect in H2. f_equal. eapply is_prob_unique; [apply H2|apply H2'].
Qed.

(** a run with and a run without reflection abort on the same inputs *)
Lemma no_gap_reflect (b B : list R) : length b = length B -> no_gap b B -> no_gap (reflect B) (reflect b).
Proof.
  intros L H i Hi. rewrite reflect_length in Hi.
  unfold reflect. rewrite !(nth_indep (map _ _) 0 ((fun x => 1 - x) 0)) by (rewrite map_length, rev_length; lia).
  rewrite !(map_nth (fun x => 1 - x)). rewrite !rev_nth by lia.
  specialize (H (length B - S (S i))%nat ltac:(lia)).
  replace (S (length B - S (S i))) with (length B - S i)%nat in H by lia.
  rewrite L. lra.
Qed.
End Two.

Section Extremes.
Context {frexp : xr -> Z} (E : env (Xnum frexp)).

Lemma ecdf2_trivial n use_fft : sort_ok E -> (use_fft = true -> fft_ok E) ->
  ecdf2 E (map Fin (repeat 0 n)) (map Fin (repeat 1 n)) use_fft = Ok (Fin 1).
Proof.
  intros Hs Hf. assert (V : valid_boundary (repeat 0 n)) by (apply valid_repeat; lra).
  destruct (ecdf2_exact E (repeat 0 n) (repeat 1 n) use_fft) as (p & [_ Hp] & Hr); auto.
  - apply valid_repeat; lra.
  - rewrite !repeat_length; auto.
  - intros _. apply no_gap_ones; auto. apply repeat_length.
  - rewrite Hr. do 2 f_equal. eapply is_prob_unique; [exact Hp|apply prob_trivial].
Qed.

Lemma ecdf2_touching (b B : list R) use_fft r i :
  valid_boundary b -> valid_boundary B -> length b = length B -> sort_ok E -> (use_fft = true -> fft_ok E) ->
  (i < length b)%nat -> nth i B 0 <= nth i b 0 ->
  ecdf2 E (map Fin b) (map Fin B) use_fft = Ok r -> r = Fin 0.
Proof.
  intros V1 V2 L Hs Hf Hi Hle Hr. apply ecdf2_returns in Hr; auto. destruct Hr as (p & -> & Hp).
  f_equal. eapply prob_touching; eauto.
Qed.

Lemma ecdf2_positive (b B : list R) use_fft :
  valid_boundary b -> valid_boundary B -> sort_ok E -> (use_fft = true -> fft_ok E) ->
  Forall2 Rlt b B ->
  exists p, ecdf2 E (map Fin b) (map Fin B) use_fft = Ok (Fin p) /\ 0 < p.
Proof.
  intros V1 V2 Hs Hf HF. pose proof HF as HN. apply Forall2_nth in HN. destruct HN as [L HN].
  destruct (ecdf2_exact E b B use_fft) as (p & Hp & Hr); auto.
  - intros _ i Hi. specialize (HN i ltac:(lia)). destruct V2 as [S2 _]. apply Sorted_strong in S2.
    enough (nth i B 0 <= nth (S i) B 0) by lra.
    assert (HL : (S i < length B)%nat) by lia. clear - S2 HL. revert i HL. induction S2 as [|x l S2 IH F]; intros i HL; simpl in HL; [lia|].
    destruct i as [|i]; simpl; [|apply IH; lia].
    rewrite Forall_forall in F. apply F. apply nth_In. lia.
  - exists p. split; auto. exact (prob_positive b B p V1 V2 HF Hp).
Qed.
End Extremes.
