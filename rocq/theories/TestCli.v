(** * TestCli: crossprob on the files of the test suite. *)
From Coquelicot Require Import Coquelicot.
From Flocq Require Import Core.Core IEEE754.BinarySingleNaN.
From Coq Require Import ZArith Reals List Bool Lia Lra String.
From Verif Require Import Base Num XReal Ecdf2 StringUtils MonteCarlo Cli Spec SpecFacts StringSpec CliSpec CliFacts XFft ExactEnv ExactFacts.
From Verif Require Import StrtodSpec Binary64 AccPmf AccFft LongDouble AccMnsEval AccMns AccCli AccCliCase ShowSpec ShowCli UsageSpec UsageFacts RatProb TestSpec TestProb.
Import List. Import ListNotations.
Local Open Scope R_scope.
Local Open Scope string_scope.

(** ** The numbers in the files *)
Ltac xnums := repeat (apply f_equal2; [apply f_equal; unfold over; simpl; lra|]); reflexivity.
Section Files.
Variable frexp : xr -> Z.
Definition holds (t : test_file) : Prop := file_holds (N := Xnum frexp) (text t) (map Fin (lower t)) (map Fin (upper t)).
Lemma holds_text t (b B : list xr) : read_and_check_boundaries_file (N := Xnum frexp) (only (text t)) "bounds.txt" = Ok (b, B) ->
  b = map Fin (lower t) -> B = map Fin (upper t) -> holds t.
Proof. intros H -> ->. apply holds_only. exact H. Qed.
Lemma holds_bounds_0_1 : holds bounds_0_1.
Proof.
  apply (holds_text bounds_0_1
    [Fin (1 * IZR 0 * powerRZ 10 0); Fin (1 * IZR 0 * powerRZ 10 0); Fin (1 * IZR 0 * powerRZ 10 0)]
    [Fin (1 * IZR 1 * powerRZ 10 0); Fin (1 * IZR 1 * powerRZ 10 0); Fin (1 * IZR 1 * powerRZ 10 0)]);
    [read_tac|cbn [map lower bounds_0_1]; xnums|cbn [map upper bounds_0_1]; xnums].
Qed.
Lemma holds_bounds_0 : holds bounds_0.
Proof.
  apply (holds_text bounds_0
    [Fin (1 * IZR 0 * powerRZ 10 0); Fin (1 * IZR 0 * powerRZ 10 0); Fin (1 * IZR 0 * powerRZ 10 0)]
    []);
    [read_tac|cbn [map lower bounds_0]; xnums|cbn [map upper bounds_0]; xnums].
Qed.
Lemma holds_bounds__1 : holds bounds__1.
Proof.
  apply (holds_text bounds__1
    []
    [Fin (1 * IZR 1 * powerRZ 10 0); Fin (1 * IZR 1 * powerRZ 10 0); Fin (1 * IZR 1 * powerRZ 10 0)]);
    [read_tac|cbn [map lower bounds__1]; xnums|cbn [map upper bounds__1]; xnums].
Qed.
Lemma holds_bounds2 : holds bounds2.
Proof.
  apply (holds_text bounds2
    [Fin (1 * IZR 0 * powerRZ 10 (-1)); Fin (1 * IZR 0 * powerRZ 10 (-1))]
    [Fin (1 * IZR 5 * powerRZ 10 (-1)); Fin (1 * IZR 10 * powerRZ 10 (-1))]);
    [read_tac|cbn [map lower bounds2]; xnums|cbn [map upper bounds2]; xnums].
Qed.
Lemma holds_bounds8 : holds bounds8.
Proof.
  apply (holds_text bounds8
    [Fin (1 * IZR 0 * powerRZ 10 (-1)); Fin (1 * IZR 0 * powerRZ 10 (-1)); Fin (1 * IZR 1 * powerRZ 10 (-1)); Fin (1 * IZR 2 * powerRZ 10 (-1)); Fin (1 * IZR 3 * powerRZ 10 (-1)); Fin (1 * IZR 4 * powerRZ 10 (-1)); Fin (1 * IZR 5 * powerRZ 10 (-1)); Fin (1 * IZR 6 * powerRZ 10 (-1))]
    [Fin (1 * IZR 5 * powerRZ 10 (-1)); Fin (1 * IZR 6 * powerRZ 10 (-1)); Fin (1 * IZR 7 * powerRZ 10 (-1)); Fin (1 * IZR 8 * powerRZ 10 (-1)); Fin (1 * IZR 9 * powerRZ 10 (-1)); Fin (1 * IZR 10 * powerRZ 10 (-1)); Fin (1 * IZR 10 * powerRZ 10 (-1)); Fin (1 * IZR 10 * powerRZ 10 (-1))]);
    [read_tac|cbn [map lower bounds8]; xnums|cbn [map upper bounds8]; xnums].
Qed.
Lemma holds_bounds_cksplus_10 : holds bounds_cksplus_10.
Proof.
  apply (holds_text bounds_cksplus_10
    [Fin (1 * IZR 104807417938 * powerRZ 10 (-13)); Fin (1 * IZR 545286199977 * powerRZ 10 (-13)); Fin (1 * IZR 11582527803 * powerRZ 10 (-11)); Fin (1 * IZR 187562296647 * powerRZ 10 (-12)); Fin (1 * IZR 267318098687 * powerRZ 10 (-12)); Fin (1 * IZR 354215928873 * powerRZ 10 (-12)); Fin (1 * IZR 448269167616 * powerRZ 10 (-12)); Fin (1 * IZR 550396111326 * powerRZ 10 (-12)); Fin (1 * IZR 663152276693 * powerRZ 10 (-12)); Fin (1 * IZR 794328234724 * powerRZ 10 (-12))]
    []);
    [read_tac|cbn [map lower bounds_cksplus_10]; xnums|cbn [map upper bounds_cksplus_10]; xnums].
Qed.
Lemma holds_bounds_cksminus_10 : holds bounds_cksminus_10.
Proof.
  apply (holds_text bounds_cksminus_10
    []
    [Fin (1 * IZR 205671765276 * powerRZ 10 (-12)); Fin (1 * IZR 336847723307 * powerRZ 10 (-12)); Fin (1 * IZR 449603888674 * powerRZ 10 (-12)); Fin (1 * IZR 551730832384 * powerRZ 10 (-12)); Fin (1 * IZR 645784071127 * powerRZ 10 (-12)); Fin (1 * IZR 732681901313 * powerRZ 10 (-12)); Fin (1 * IZR 812437703353 * powerRZ 10 (-12)); Fin (1 * IZR 88417472197 * powerRZ 10 (-11)); Fin (1 * IZR 945471380002 * powerRZ 10 (-12)); Fin (1 * IZR 989519258206 * powerRZ 10 (-12))]);
    [read_tac|cbn [map lower bounds_cksminus_10]; xnums|cbn [map upper bounds_cksminus_10]; xnums].
Qed.
End Files.

(** ** The boundaries are valid *)
Lemma normal_two v : 1/100 <= v -> normal v.
Proof. intros H. right. apply Rle_trans with (bpow radix2 (-7)); [apply bpow_le; lia|]. simpl. lra. Qed.
Lemma zero_normal : normal 0.
Proof. left. reflexivity. Qed.
Ltac norm := apply Forall_cons; [first [exact zero_normal|apply normal_two; unfold over; lra]|].
Definition fine (t : test_file) : Prop :=
  valid_boundary (lower t) /\ valid_boundary (upper t) /\ Forall normal (lower t) /\ Forall normal (upper t).
Ltac fine_tac := unfold fine; cbn [lower upper]; split; [split; repeat constructor; lra|];
  split; [split; repeat constructor; lra|]; split; repeat norm; apply Forall_nil.
Lemma fine_bounds_0_1 : fine bounds_0_1.
Proof. unfold bounds_0_1. fine_tac. Qed.
Lemma fine_bounds_0 : fine bounds_0.
Proof. unfold bounds_0. fine_tac. Qed.
Lemma fine_bounds__1 : fine bounds__1.
Proof. unfold bounds__1. fine_tac. Qed.
Lemma fine_bounds2 : fine bounds2.
Proof. unfold bounds2. fine_tac. Qed.
Lemma fine_bounds8 : fine bounds8.
Proof.
  unfold fine, bounds8. cbn [lower upper]. split; [|split; [|split; repeat norm; apply Forall_nil]].
  - replace [0; 0; 1/10; 2/10; 3/10; 4/10; 5/10; 6/10] with (map (grid 10) [0; 0; 1; 2; 3; 4; 5; 6]%Z) by (cbn [map]; nums).
    apply increasing_valid; reflexivity.
  - replace [5/10; 6/10; 7/10; 8/10; 9/10; 1; 1; 1] with (map (grid 10) [5; 6; 7; 8; 9; 10; 10; 10]%Z) by (cbn [map]; nums).
    apply increasing_valid; reflexivity.
Qed.
Lemma fine_cksplus : fine bounds_cksplus_10.
Proof.
  unfold fine, bounds_cksplus_10. cbn [lower upper]. split; [apply (increasing_valid 10000000000000); [lia|vm_compute; reflexivity]|].
  split; [split; constructor|]. split; [|constructor]. cbn [map]. repeat norm. constructor.
Qed.
Lemma fine_cksminus : fine bounds_cksminus_10.
Proof.
  unfold fine, bounds_cksminus_10. cbn [lower upper]. split; [split; constructor|]. split; [apply (increasing_valid 1000000000000); [lia|vm_compute; reflexivity]|].
  split; [constructor|]. cbn [map]. repeat norm. constructor.
Qed.
Definition no_gap (t : test_file) : Prop := forall i, (S i < List.length (lower t))%nat -> nth i (lower t) 0 <= nth (S i) (upper t) 0.
Lemma gap_bounds_0_1 : no_gap bounds_0_1.
Proof. intros i. unfold bounds_0_1. cbn [lower upper]. intros Hi. simpl in Hi. do 2 (destruct i as [|i]; [simpl; lra|]). lia. Qed.
Lemma gap_bounds2 : no_gap bounds2.
Proof. intros i. unfold bounds2. cbn [lower upper]. intros Hi. simpl in Hi. do 1 (destruct i as [|i]; [simpl; lra|]). lia. Qed.
Lemma gap_bounds8 : no_gap bounds8.
Proof. intros i. unfold bounds8. cbn [lower upper]. intros Hi. simpl in Hi. do 7 (destruct i as [|i]; [simpl; lra|]). lia. Qed.

Lemma holds_all frexp t : In t test_files -> holds frexp t.
Proof.
  intros H. repeat destruct H as [<-|H].
  - apply holds_bounds_0_1. - apply holds_bounds_0. - apply holds_bounds__1. - apply holds_bounds2. - apply holds_bounds8.
  - apply holds_bounds_cksplus_10. - apply holds_bounds_cksminus_10. - destruct H.
Qed.
Lemma fine_all t : In t test_files -> fine t.
Proof.
  intros H. repeat destruct H as [<-|H].
  - apply fine_bounds_0_1. - apply fine_bounds_0. - apply fine_bounds__1. - apply fine_bounds2. - apply fine_bounds8.
  - apply fine_cksplus. - apply fine_cksminus. - destruct H.
Qed.

Ltac member := unfold test_files; solve [repeat (first [left; reflexivity|right])].

(** ** What the expected texts say *)
Lemma suite_text : Forall (fun row => prints_as (snd (fst row)) (snd row)) suite.
Proof.
  destruct text_ones as (O1 & O2 & O3). pose proof text_bounds2. pose proof text_bounds8. pose proof text_cksplus. pose proof text_cksminus.
  unfold suite. repeat (apply Forall_cons; [assumption|]). apply Forall_nil.
Qed.
Theorem suite_values : Forall (fun row => exists p, is_noncrossing_probability (lower_of (snd (fst row))) (upper_of (snd (fst row))) p /\
  forall s, printed p s -> s = snd row) suite.
Proof.
  eapply Forall_impl; [|exact suite_text]. intros ((c & t) & out) (p & HP & HT). exists p. split; [exact HP|].
  intros s. apply HT. rewrite Rminus_diag_eq, Rabs_R0 by reflexivity. lra.
Qed.

Lemma suite_values_rows : Forall (fun row => match row with (_, t, out) =>
  exists p, is_noncrossing_probability (lower_of t) (upper_of t) p /\ forall s, printed p s -> s = out end) suite.
Proof. eapply Forall_impl; [|exact suite_values]. intros ((c & t) & out) H. exact H. Qed.
Lemma near_point t v : near t v v -> is_noncrossing_probability (lower_of t) (upper_of t) v.
Proof. intros (p & HP & HB). replace v with p by lra. exact HP. Qed.
Lemma exact_values :
  is_noncrossing_probability (lower_of bounds_0_1) (upper_of bounds_0_1) 1 /\
  is_noncrossing_probability (lower_of bounds_0) (upper_of bounds_0) 1 /\
  is_noncrossing_probability (lower_of bounds__1) (upper_of bounds__1) 1 /\
  is_noncrossing_probability (lower_of bounds2) (upper_of bounds2) (75/100) /\
  is_noncrossing_probability (lower_of bounds8) (upper_of bounds8) (84052878/100000000) /\
  near bounds_cksplus_10 (6089242114/10000000000) (6089242115/10000000000) /\
  near bounds_cksminus_10 (6089242114/10000000000) (6089242115/10000000000).
Proof.
  replace (75/100) with (3/4) by lra.
  exact (conj (near_point _ _ near_bounds_0_1) (conj (near_point _ _ near_bounds_0) (conj (near_point _ _ near_bounds__1)
    (conj (near_point _ _ near_bounds2) (conj (near_point _ _ near_bounds8) (conj near_cksplus near_cksminus)))))).
Qed.

(** ** Exact arithmetic *)
Section Exact.
Context {frexp : xr -> Z} (E : env (Xnum frexp)) (fs : filesystem) (prog : string).
Hypothesis HS : show_ok real_of_xr E.
Hypothesis HF : forall t, In t test_files -> fs (name t) = Some (text t).
Hypothesis Hsort : sort_ok E.
Hypothesis Hfft : fft_ok E.
Hypothesis Hlong : long_double_ok E.

Lemma row_exact cmd t out : prints_as t out ->
  (exists p, is_noncrossing_probability (lower_of t) (upper_of t) p /\
     cli_main E fs [prog; cmd; name t] = Ok ([Text (show_double E (Fin p : car (Xnum frexp)))], 0%Z)) ->
  cli_main E fs [prog; cmd; name t] = Ok ([Text out], 0%Z).
Proof.
  intros (p & HP & HT) (p' & HP' & HO). rewrite HO. rewrite (is_prob_unique _ _ _ _ (proj2 HP') (proj2 HP)) in *.
  rewrite (HT p _ ltac:(rewrite Rminus_diag_eq, Rabs_R0 by reflexivity; lra) (HS (Fin p : car (Xnum frexp)) p eq_refl)). reflexivity.
Qed.
Lemma two_exact u t out : prints_as t out -> In t test_files -> no_gap t -> List.length (lower t) = List.length (upper t) -> lower t <> [] ->
  cli_main E fs [prog; ecdf2_command u; name t] = Ok ([Text out], 0%Z).
Proof.
  intros HT Ht HG HL HN. apply (row_exact _ t out HT). destruct (fine_all t Ht) as (V1 & V2 & _).
  destruct (cli_two_sided E fs prog (name t) (text t) (lower t) (upper t) u) as (p & HP & HO); auto; [apply holds_all; exact Ht|].
  exists p. split; [|exact HO]. unfold lower_of, upper_of. destruct (lower t); [congruence|]. destruct (upper t); [discriminate|]. exact HP.
Qed.
Lemma two_exact_B u t out : prints_as t out -> In t test_files -> lower t = [] -> upper t <> [] ->
  cli_main E fs [prog; ecdf2_command u; name t] = Ok ([Text out], 0%Z).
Proof.
  intros HT Ht H1 H2. apply (row_exact _ t out HT). destruct (fine_all t Ht) as (V1 & V2 & _). pose proof (holds_all frexp t Ht) as HH.
  unfold holds in HH. rewrite H1 in HH.
  destruct (cli_two_sided_B E fs prog (name t) (text t) (upper t) u) as (p & HP & HO); auto.
  exists p. split; [|exact HO]. apply prob_zeros in HP. unfold lower_of, upper_of. rewrite H1. destruct (upper t); [congruence|]. exact HP.
Qed.
Lemma two_exact_b u t out : prints_as t out -> In t test_files -> upper t = [] -> lower t <> [] ->
  cli_main E fs [prog; ecdf2_command u; name t] = Ok ([Text out], 0%Z).
Proof.
  intros HT Ht H1 H2. apply (row_exact _ t out HT). destruct (fine_all t Ht) as (V1 & V2 & _). pose proof (holds_all frexp t Ht) as HH.
  unfold holds in HH. rewrite H1 in HH.
  destruct (cli_two_sided_b E fs prog (name t) (text t) (lower t) u) as (p & HP & HO); auto.
  exists p. split; [|exact HO]. apply prob_ones in HP. unfold lower_of, upper_of. rewrite H1. destruct (lower t); [congruence|]. exact HP.
Qed.
Definition one_sided (t : test_file) : Prop :=
  lower t = [] /\ (2 <= List.length (upper t) <= 10)%nat \/ upper t = [] /\ (2 <= List.length (lower t) <= 10)%nat.
Lemma one_exact cmd t out : cmd = "ecdf1-new" \/ cmd = "ecdf1-mns2016" -> prints_as t out -> In t test_files -> one_sided t ->
  cli_main E fs [prog; cmd; name t] = Ok ([Text out], 0%Z).
Proof.
  intros Hc HT Ht HO. apply (row_exact _ t out HT). destruct (fine_all t Ht) as (V1 & V2 & _). pose proof (holds_all frexp t Ht) as HH.
  unfold holds in HH.
  assert (NE : forall (l : list R), (2 <= List.length l)%nat -> l <> []) by (intros [|] Hl; [simpl in Hl; lia|discriminate]).
  assert (IM : forall l : list R, (List.length l <= 10)%nat -> (Z.of_nat (List.length l) <= INT_MAX)%Z) by (intros l Hl; unfold INT_MAX; lia).
  destruct HO as [(H1 & HL)|(H1 & HL)]; rewrite H1 in HH.
  - assert (HP : exists p, is_prob (List.length (upper t)) (noncrossing_B (upper t)) p /\
      cli_main E fs [prog; cmd; name t] = Ok ([Text (show_double E (Fin p : car (Xnum frexp)))], 0%Z)).
    { destruct Hc as [->| ->].
      - refine (proj2 (cli_new E fs prog (name t) (text t) (upper t) (HF t Ht) V2 Hfft _ _ _) HH); [lia|apply IM; lia|intros _; lia].
      - refine (proj2 (cli_mns E fs prog (name t) (text t) (upper t) (HF t Ht) V2 _ Hlong) HH). apply NE; lia. }
    destruct HP as (p & HP & HO). exists p. split; [|exact HO]. apply prob_zeros in HP. unfold lower_of, upper_of. rewrite H1.
    destruct (upper t); [simpl in HL; lia|]. exact HP.
  - assert (HP : exists p, is_prob (List.length (lower t)) (noncrossing_b (lower t)) p /\
      cli_main E fs [prog; cmd; name t] = Ok ([Text (show_double E (Fin p : car (Xnum frexp)))], 0%Z)).
    { destruct Hc as [->| ->].
      - refine (proj1 (cli_new E fs prog (name t) (text t) (lower t) (HF t Ht) V1 Hfft _ _ _) HH); [lia|apply IM; lia|intros _; lia].
      - refine (proj1 (cli_mns E fs prog (name t) (text t) (lower t) (HF t Ht) V1 _ Hlong) HH). apply NE; lia. }
    destruct HP as (p & HP & HO). exists p. split; [|exact HO]. apply prob_ones in HP. unfold lower_of, upper_of. rewrite H1.
    destruct (lower t); [simpl in HL; lia|]. exact HP.
Qed.

Theorem suite_exact : Forall (fun row => match row with (cmd, t, out) => cli_main E fs [prog; cmd; name t] = Ok ([Text out], 0%Z) end) suite.
Proof.
  destruct text_ones as (O1 & O2 & O3). pose proof text_bounds2 as T2. pose proof text_bounds8 as T8. pose proof text_cksplus as TP. pose proof text_cksminus as TM.
  unfold suite.
  assert (OM : one_sided bounds_cksminus_10) by (left; split; [reflexivity|simpl; lia]).
  assert (OP : one_sided bounds_cksplus_10) by (right; split; [reflexivity|simpl; lia]).
  assert (OA : one_sided bounds_0) by (right; split; [reflexivity|simpl; lia]).
  assert (OB : one_sided bounds__1) by (left; split; [reflexivity|simpl; lia]).
  change "ecdf2-ks2001" with (ecdf2_command false). change "ecdf2-mn2017" with (ecdf2_command true).
  repeat (apply Forall_cons; [first
    [ apply one_exact; [left; reflexivity|assumption|member|assumption] | apply one_exact; [right; reflexivity|assumption|member|assumption]
    | apply two_exact; [assumption|member|first [exact gap_bounds_0_1|exact gap_bounds2|exact gap_bounds8]|reflexivity|discriminate]
    | apply two_exact_b; [assumption|member|reflexivity|discriminate]
    | apply two_exact_B; [assumption|member|reflexivity|discriminate] ]|]).
  apply Forall_nil.
Qed.
End Exact.

(** ** Binary64 *)
Section Rounded.
Context (L : libm) (E : env (Bnum L)) (M : libml) (fs : filesystem) (prog : string).
Context (eps epsf epsl : R).
Hypothesis HT : strtod_correct L.
Hypothesis HS : show_ok real_of_f64 E.
Hypothesis HF : forall t, In t test_files -> fs (name t) = Some (text t).
Hypothesis Hsort : sort_ok E.
Hypothesis HA : libm_accurate L eps.
Hypothesis He : bpow radix2 (-53) <= eps <= bpow radix2 (-47).
Hypothesis HFA : fft_accurate E epsf.
Hypothesis Hf : bpow radix2 (-53) <= epsf <= bpow radix2 (-45).
Hypothesis HM : libml_accurate M epsl.
Hypothesis Hl : bpow radix2 (-64) <= epsl <= bpow radix2 (-40).
Hypothesis HMs : libml_special M.
Hypothesis HLD : long_dbl E = x87 L M.
Let frexp : xr -> Z := fun _ => 0%Z.

Lemma small_eps : 0 < eps <= 8 / 1000000000000000 /\ 0 < epsf <= 3 / 100000000000000 /\ 0 < epsl <= 1 / 1000000000000.
Proof.
  pose proof (bpow_gt_0 radix2 (-53)). pose proof (bpow_gt_0 radix2 (-64)).
  assert (bpow radix2 (-47) <= 8 / 1000000000000000) by (simpl; lra).
  assert (bpow radix2 (-45) <= 3 / 100000000000000) by (simpl; lra).
  assert (bpow radix2 (-40) <= 1 / 1000000000000) by (simpl; lra). lra.
Qed.

Lemma row64 cmd t out : prints_as t out ->
  (exists p (r : f64), is_noncrossing_probability (lower_of t) (upper_of t) p /\
     @cli_main (Bnum L) E fs [prog; cmd; name t] = Ok ([Text (@show_double (Bnum L) E r)], 0%Z) /\
     is_finite r = true /\ Rabs (B2R r - p) <= 1/10000000) ->
  @cli_main (Bnum L) E fs [prog; cmd; name t] = Ok ([Text out], 0%Z).
Proof.
  intros (p & HP & HX) (p' & r & HP' & HO & Fr & Hr). rewrite HO. rewrite (is_prob_unique _ _ _ _ (proj2 HP') (proj2 HP)) in *.
  rewrite (HX (B2R r) _ Hr (HS (r : car (Bnum L)) (B2R r) (conj Fr eq_refl))). reflexivity.
Qed.

Lemma squares n : (n <= 10)%nat -> 0 <= INR n * INR n <= 100.
Proof.
  intros H. assert (0 <= INR n <= 10). { split; [apply pos_INR|]. replace 10 with (INR 10) by (simpl; lra). apply le_INR. exact H. }
  split; [apply Rmult_le_pos; lra|]. replace 100 with (10 * 10) by lra. apply Rmult_le_compat; lra.
Qed.
Lemma two_small u n : (n <= 10)%nat -> two_bound u n eps epsf <= 1/10000000 /\ 65536 * (INR n * INR n) * eps <= 1 /\ 16384 * (INR n * INR n) * epsf <= 1.
Proof.
  intros H. pose proof (squares n H) as Q. destruct small_eps as (E1 & E2 & _).
  assert (A : INR n * INR n * eps <= 100 * (8 / 1000000000000000)) by (apply Rmult_le_compat; lra).
  assert (B : INR n * INR n * epsf <= 100 * (3 / 100000000000000)) by (apply Rmult_le_compat; lra).
  assert (T : bpow radix2 (-1000) <= 1 / 1000000000000).
  { apply Rle_trans with (bpow radix2 (-40)); [apply bpow_le; lia|simpl; lra]. }
  split; [|lra]. unfold two_bound. destruct u; lra.
Qed.
Lemma hyp_two u n : (n <= 10)%nat -> fft_hyp L E u n epsf.
Proof. intros H _. split; [exact HFA|]. split; [apply Hf|apply (two_small u n H)]. Qed.

Lemma two64 u t out : prints_as t out -> In t test_files -> no_gap t -> List.length (lower t) = List.length (upper t) -> (1 <= List.length (lower t) <= 10)%nat ->
  @cli_main (Bnum L) E fs [prog; ecdf2_command u; name t] = Ok ([Text out], 0%Z).
Proof.
  intros HX Ht HG HL HN. apply (row64 _ t out HX). destruct (fine_all t Ht) as (V1 & V2 & N1 & N2).
  destruct (two_small u (List.length (lower t)) ltac:(lia)) as (S1 & S2 & _).
  destruct (cli_two64 L E frexp fs prog (name t) (text t) HT (HF t Ht) eps epsf u (lower t) (upper t) HA (proj1 He)) as (p & r & HP & HO & Fr & Hr); auto.
  - apply hyp_two. lia.
  - apply holds_all; exact Ht.
  - exists p, r. split; [|split; [exact HO|split; [exact Fr|lra]]]. unfold lower_of, upper_of.
    destruct (lower t); [simpl in HN; lia|]. destruct (upper t); [discriminate|]. exact HP.
Qed.
Lemma two64_B u t out : prints_as t out -> In t test_files -> lower t = [] -> (1 <= List.length (upper t) <= 10)%nat ->
  @cli_main (Bnum L) E fs [prog; ecdf2_command u; name t] = Ok ([Text out], 0%Z).
Proof.
  intros HX Ht H1 HN. apply (row64 _ t out HX). destruct (fine_all t Ht) as (V1 & V2 & N1 & N2).
  destruct (two_small u (List.length (upper t)) ltac:(lia)) as (S1 & S2 & _). pose proof (holds_all frexp t Ht) as HH.
  unfold holds in HH. rewrite H1 in HH.
  destruct (cli_two64_B L E frexp fs prog (name t) (text t) HT (HF t Ht) eps epsf u (upper t) HA (proj1 He)) as (p & r & HP & HO & Fr & Hr); auto.
  - apply hyp_two. lia.
  - destruct (upper t); [simpl in HN; lia|discriminate].
  - exists p, r. split; [|split; [exact HO|split; [exact Fr|lra]]]. apply prob_zeros in HP. unfold lower_of, upper_of. rewrite H1.
    destruct (upper t); [simpl in HN; lia|]. exact HP.
Qed.
Lemma two64_b u t out : prints_as t out -> In t test_files -> upper t = [] -> (1 <= List.length (lower t) <= 10)%nat ->
  @cli_main (Bnum L) E fs [prog; ecdf2_command u; name t] = Ok ([Text out], 0%Z).
Proof.
  intros HX Ht H1 HN. apply (row64 _ t out HX). destruct (fine_all t Ht) as (V1 & V2 & N1 & N2).
  destruct (two_small u (List.length (lower t)) ltac:(lia)) as (S1 & S2 & _). pose proof (holds_all frexp t Ht) as HH.
  unfold holds in HH. rewrite H1 in HH.
  destruct (cli_two64_b L E frexp fs prog (name t) (text t) HT (HF t Ht) eps epsf u (lower t) HA (proj1 He)) as (p & r & HP & HO & Fr & Hr); auto.
  - apply hyp_two. lia.
  - destruct (lower t); [simpl in HN; lia|discriminate].
  - exists p, r. split; [|split; [exact HO|split; [exact Fr|lra]]]. apply prob_ones in HP. unfold lower_of, upper_of. rewrite H1.
    destruct (lower t); [simpl in HN; lia|]. exact HP.
Qed.

Lemma new_small n : (1 <= n <= 10)%nat -> 65536 * (INR n * INR n * sqrt (INR n)) * eps <= 1 /\ 16384 * (INR n * INR n * sqrt (INR n)) * epsf <= 1 /\
  60002 * (INR n * INR n * eps) + 9000 * (INR n * INR n * epsf) <= 1/10000000.
Proof.
  intros H. pose proof (squares n ltac:(lia)) as Q. destruct small_eps as (E1 & E2 & _).
  assert (S : 0 <= sqrt (INR n) <= 4).
  { split; [apply sqrt_pos|]. replace 4 with (sqrt (4 * 4)) by (apply sqrt_square; lra). apply sqrt_le_1_alt.
    apply Rle_trans with (INR 10); [apply le_INR; lia|simpl; lra]. }
  assert (Q4 : INR n * INR n * sqrt (INR n) <= 100 * 4) by (apply Rmult_le_compat; lra).
  assert (Q0 : 0 <= INR n * INR n * sqrt (INR n)) by (apply Rmult_le_pos; lra).
  assert (A : INR n * INR n * sqrt (INR n) * eps <= 100 * 4 * (8 / 1000000000000000)) by (apply Rmult_le_compat; lra).
  assert (B : INR n * INR n * sqrt (INR n) * epsf <= 100 * 4 * (3 / 100000000000000)) by (apply Rmult_le_compat; lra).
  assert (C : INR n * INR n * eps <= 100 * (8 / 1000000000000000)) by (apply Rmult_le_compat; lra).
  assert (D : INR n * INR n * epsf <= 100 * (3 / 100000000000000)) by (apply Rmult_le_compat; lra). lra.
Qed.
Lemma mns_small n : (1 <= n <= 10)%nat -> let N := INR (S n) in let nu := INR n * INR n * bpow radix2 (-53) in
  (56 * (N * N) + 410 * N) * epsl + bpow radix2 (-52) + 2 * nu <= 1/10000000 /\ (56 * (N * N) + 57 * N) * epsl + 2 * nu < 1/10 /\ 0 <= nu.
Proof.
  intros H N nu. pose proof (squares n ltac:(lia)) as Q. destruct small_eps as (_ & _ & E3).
  assert (HN : 0 <= N <= 11). { split; [apply pos_INR|]. unfold N. replace 11 with (INR 11) by (simpl; lra). apply le_INR. lia. }
  assert (NN : 0 <= N * N <= 11 * 11) by (split; [apply Rmult_le_pos; lra|apply Rmult_le_compat; lra]).
  assert (T : 0 < bpow radix2 (-53) <= 1 / 1000000000000).
  { split; [apply bpow_gt_0|]. apply Rle_trans with (bpow radix2 (-40)); [apply bpow_le; lia|simpl; lra]. }
  assert (T2 : bpow radix2 (-52) <= 1 / 1000000000000).
  { apply Rle_trans with (bpow radix2 (-40)); [apply bpow_le; lia|simpl; lra]. }
  assert (U : 0 <= nu <= 100 * (1 / 1000000000000)) by (unfold nu; split; [apply Rmult_le_pos; lra|apply Rmult_le_compat; lra]).
  assert (A : (56 * (N * N) + 410 * N) * epsl <= (56 * (11 * 11) + 410 * 11) * (1 / 1000000000000)) by (apply Rmult_le_compat; lra).
  assert (B : (56 * (N * N) + 57 * N) * epsl <= (56 * (11 * 11) + 57 * 11) * (1 / 1000000000000)) by (apply Rmult_le_compat; lra).
  lra.
Qed.

Lemma one64_new t out : prints_as t out -> In t test_files -> one_sided t ->
  @cli_main (Bnum L) E fs [prog; "ecdf1-new"; name t] = Ok ([Text out], 0%Z).
Proof.
  intros HX Ht HO. apply (row64 _ t out HX). destruct (fine_all t Ht) as (V1 & V2 & N1 & N2). pose proof (holds_all frexp t Ht) as HH. unfold holds in HH.
  destruct HO as [(H1 & HN)|(H1 & HN)]; rewrite H1 in HH.
  - destruct (new_small (List.length (upper t)) ltac:(lia)) as (S1 & S2 & S3).
    destruct (cli_new64 L E frexp fs prog (name t) (text t) HT (HF t Ht) eps epsf (upper t) HA (proj1 He) HFA (proj1 Hf) ltac:(lia) ltac:(intros _; lia) S1 S2 V2 N2) as [_ K].
    destruct (K HH) as (p & r & HP & HO & Fr & Hr). exists p, r. split; [|split; [exact HO|split; [exact Fr|lra]]].
    apply prob_zeros in HP. unfold lower_of, upper_of. rewrite H1. destruct (upper t); [simpl in HN; lia|]. exact HP.
  - destruct (new_small (List.length (lower t)) ltac:(lia)) as (S1 & S2 & S3).
    destruct (cli_new64 L E frexp fs prog (name t) (text t) HT (HF t Ht) eps epsf (lower t) HA (proj1 He) HFA (proj1 Hf) ltac:(lia) ltac:(intros _; lia) S1 S2 V1 N1) as [K _].
    destruct (K HH) as (p & r & HP & HO & Fr & Hr). exists p, r. split; [|split; [exact HO|split; [exact Fr|lra]]].
    apply prob_ones in HP. unfold lower_of, upper_of. rewrite H1. destruct (lower t); [simpl in HN; lia|]. exact HP.
Qed.
(** The probabilities are not small, so the result is no NaN. *)
Lemma one64_mns t out : prints_as t out -> near t (1/2) 1 -> In t test_files -> one_sided t ->
  @cli_main (Bnum L) E fs [prog; "ecdf1-mns2016"; name t] = Ok ([Text out], 0%Z).
Proof.
  intros HX (p0 & HP0 & HB0) Ht HO. apply (row64 _ t out HX). destruct (fine_all t Ht) as (V1 & V2 & N1 & N2). pose proof (holds_all frexp t Ht) as HH. unfold holds in HH.
  destruct HO as [(H1 & HN)|(H1 & HN)]; rewrite H1 in HH.
  - destruct (mns_small (List.length (upper t)) ltac:(lia)) as (S1 & S2 & S3).
    destruct (cli_mns64 L E frexp fs prog (name t) (text t) HT (HF t Ht) M epsl (upper t) HM (proj1 Hl) (proj2 Hl) HMs HLD ltac:(lia) V2 N2) as [_ K].
    destruct (K HH) as (p & r & HP & HO & Hr).
    assert (HP' : is_noncrossing_probability (lower_of t) (upper_of t) p).
    { apply prob_zeros in HP. unfold lower_of, upper_of. rewrite H1. destruct (upper t); [simpl in HN; lia|]. exact HP. }
    rewrite (is_prob_unique _ _ _ _ (proj2 HP0) (proj2 HP')) in HB0.
    destruct Hr as [(-> & Hr)|(Fr & Hr)]; [lra|]. exists p, r. split; [exact HP'|split; [exact HO|split; [exact Fr|lra]]].
  - destruct (mns_small (List.length (lower t)) ltac:(lia)) as (S1 & S2 & S3).
    destruct (cli_mns64 L E frexp fs prog (name t) (text t) HT (HF t Ht) M epsl (lower t) HM (proj1 Hl) (proj2 Hl) HMs HLD ltac:(lia) V1 N1) as [K _].
    destruct (K HH) as (p & r & HP & HO & Hr).
    assert (HP' : is_noncrossing_probability (lower_of t) (upper_of t) p).
    { apply prob_ones in HP. unfold lower_of, upper_of. rewrite H1. destruct (lower t); [simpl in HN; lia|]. exact HP. }
    rewrite (is_prob_unique _ _ _ _ (proj2 HP0) (proj2 HP')) in HB0.
    destruct Hr as [(-> & Hr)|(Fr & Hr)]; [lra|]. exists p, r. split; [exact HP'|split; [exact HO|split; [exact Fr|lra]]].
Qed.

Theorem suite_binary64 : Forall (fun row => match row with (cmd, t, out) => @cli_main (Bnum L) E fs [prog; cmd; name t] = Ok ([Text out], 0%Z) end) suite.
Proof.
  destruct text_ones as (O1 & O2 & O3). pose proof text_bounds2 as T2. pose proof text_bounds8 as T8. pose proof text_cksplus as TP. pose proof text_cksminus as TM.
  assert (OM : one_sided bounds_cksminus_10) by (left; split; [reflexivity|simpl; lia]).
  assert (OP : one_sided bounds_cksplus_10) by (right; split; [reflexivity|simpl; lia]).
  assert (OA : one_sided bounds_0) by (right; split; [reflexivity|simpl; lia]).
  assert (OB : one_sided bounds__1) by (left; split; [reflexivity|simpl; lia]).
  assert (NM : near bounds_cksminus_10 (1/2) 1) by (eapply near_weaken; [exact near_cksminus|lra|lra]).
  assert (NP : near bounds_cksplus_10 (1/2) 1) by (eapply near_weaken; [exact near_cksplus|lra|lra]).
  assert (NA : near bounds_0 (1/2) 1) by (eapply near_weaken; [exact near_bounds_0|lra|lra]).
  assert (NB : near bounds__1 (1/2) 1) by (eapply near_weaken; [exact near_bounds__1|lra|lra]).
  unfold suite. change "ecdf2-ks2001" with (ecdf2_command false). change "ecdf2-mn2017" with (ecdf2_command true).
  repeat (apply Forall_cons; [first
    [ apply one64_new; [assumption|member|assumption] | apply one64_mns; [assumption|assumption|member|assumption]
    | apply two64; [assumption|member|first [exact gap_bounds_0_1|exact gap_bounds2|exact gap_bounds8]|reflexivity|simpl; lia]
    | apply two64_b; [assumption|member|reflexivity|simpl; lia]
    | apply two64_B; [assumption|member|reflexivity|simpl; lia] ]|]).
  apply Forall_nil.
Qed.
End Rounded.
