(** * PyFacts: what callers of the Python module see; envelopes of boundaries. *)
From Coquelicot Require Import Coquelicot.
From Flocq Require Import Core.Raux.
From Coq Require Import ZArith Reals List Bool String Lia Lra Sorted Permutation.
From Verif Require Import Base Num XReal Common Ecdf2 Ecdf1New Ecdf1Mns Cli.
From Verif Require Import Spec SpecFacts XCommon XFft XEcdf1NewMain XMns ExactFacts ExactMore ExactEnv Cases NewMath ProbFacts.
Import List. Import ListNotations.
Local Open Scope R_scope.

Ltac list_tac := repeat first [apply Sorted_nil|apply Sorted_cons|apply HdRel_nil|apply HdRel_cons|apply Forall_nil|apply Forall_cons].

(** Boundary arguments the documentation allows, among the reals with infinities. *)
Definition allowed (v : list Rbar) : Prop :=
  Sorted Rbar_le v /\ Forall (fun x => Rbar_le 0 x /\ Rbar_le x 1) v.

Lemma allowed_real v : allowed v -> exists w, v = map Finite w /\ valid_boundary w.
Proof.
  intros (S & F).
  assert (exists w, v = map Finite w) as (w & ->).
  { clear S. induction F as [|x v (A & B) F (w & ->)]; [exists []; reflexivity|].
    destruct x as [r| |]; simpl in A, B; try contradiction. exists (r :: w). reflexivity. }
  exists w. split; [reflexivity|]. apply valid_boundary_Rbar. split; [exact S|exact F].
Qed.

Section Py.
Context {frexp : xr -> Z} (E : env (Xnum frexp)).
Notation XN := (Xnum frexp).

Lemma check_dec name n v :
  (allowed v /\ Z.of_nat (length v) = n /\ check_boundary_vector (N := XN) name n (map of_Rbar v) = Ok tt) \/
  (~ (allowed v /\ Z.of_nat (length v) = n) /\
   exists w, check_boundary_vector (N := XN) name n (map of_Rbar v) = Throw (RuntimeError w)).
Proof.
  unfold allowed. destruct (validation (frexp := frexp) name n v) as [(A & ->)|[(A & B & ->)|[(A & B & C & ->)|(A & B & C & ->)]]].
  - right. split; [tauto|eauto].
  - right. split; [tauto|eauto].
  - right. split; [tauto|eauto].
  - left. auto.
Qed.

Definition float_or_error (ok : Prop) (r : pyresult (N := XN)) : Prop :=
  (ok /\ exists p, r = PyFloat (N := XN) (Fin p) /\ 0 <= p <= 1) \/ (~ ok /\ exists w, r = PyRuntimeError (N := XN) w).

Lemma map_of_Rbar_Finite w : map of_Rbar (map Finite w) = map Fin w.
Proof. rewrite map_map. reflexivity. Qed.

Lemma py_ecdf2 b B use_fft : asserts E = false -> sort_ok E -> (use_fft = true -> fft_ok E) ->
  float_or_error (allowed b /\ allowed B /\ length b = length B)
    (py_call (ecdf2 E (map of_Rbar b) (map of_Rbar B) use_fft)).
Proof.
  intros Ha Hs Hf.
  assert (SZ : @size (car XN) (map of_Rbar b) = Z.of_nat (length b)) by (unfold size; rewrite map_length; reflexivity).
  destruct (check_dec "b" (Z.of_nat (length b)) b) as [(A & L & C)|(A & w & C)].
  - destruct (check_dec "B" (Z.of_nat (length b)) B) as [(A' & L' & C')|(A' & w & C')].
    + left. split; [repeat split; try apply A; try apply A'; lia|].
      destruct (allowed_real b A) as (x & -> & Vx). destruct (allowed_real B A') as (y & -> & Vy).
      rewrite !map_of_Rbar_Finite. rewrite !map_length in L'.
      destruct (ecdf2_exact E x y use_fft) as (p & Hp & ->); auto; try lia; [intros; congruence|].
      exists p. split; [reflexivity|]. destruct Hp as (_ & Hp). exact (is_prob_range _ _ _ Hp).
    + right. split; [intros (_ & H & L2); apply A'; split; [exact H|lia]|].
      exists w. unfold ecdf2. rewrite SZ, C. cbn [bind]. rewrite C'. reflexivity.
  - right. split; [intros (H & _); apply A; split; [exact H|reflexivity]|].
    exists w. unfold ecdf2. rewrite SZ, C. reflexivity.
Qed.

Lemma py_new v : asserts E = false -> fft_ok E -> v <> [] -> (Z.of_nat (length v) <= INT_MAX)%Z ->
  float_or_error (allowed v) (py_call (ecdf1_new_B E (map of_Rbar v))) /\
  float_or_error (allowed v) (py_call (ecdf1_new_b E (map of_Rbar v))).
Proof.
  intros Ha Hf NE L.
  assert (SZ : @size (car XN) (map of_Rbar v) = Z.of_nat (length v)) by (unfold size; rewrite map_length; reflexivity).
  assert (L1 : (1 <= length v)%nat) by (destruct v; [congruence|simpl; lia]).
  split.
  - destruct (check_dec "B" (Z.of_nat (length v)) v) as [(A & _ & C)|(A & w & C)].
    + left. split; [exact A|]. destruct (allowed_real v A) as (x & -> & Vx). rewrite map_of_Rbar_Finite. rewrite map_length in L, L1.
      destruct (new_B_total E x Vx Hf L1 L) as (p & Hp & ->); [intros; congruence|].
      exists p. split; [reflexivity|exact (is_prob_range _ _ _ Hp)].
    + right. split; [intros H; apply A; auto|]. exists w. unfold ecdf1_new_B. rewrite SZ, C. reflexivity.
  - destruct (check_dec "b" (Z.of_nat (length v)) v) as [(A & _ & C)|(A & w & C)].
    + left. split; [exact A|]. destruct (allowed_real v A) as (x & -> & Vx). rewrite map_of_Rbar_Finite. rewrite map_length in L, L1.
      destruct (new_b_total E x Vx Hf L1 L) as (p & Hp & ->); [intros; congruence|].
      exists p. split; [reflexivity|exact (is_prob_range _ _ _ Hp)].
    + right. split; [intros H; apply A; auto|]. exists w. unfold ecdf1_new_b. rewrite SZ, C. reflexivity.
Qed.

Lemma py_mns v : long_double_ok E ->
  float_or_error (allowed v) (py_call (ecdf1_mns2016_B E (map of_Rbar v))) /\
  float_or_error (allowed v) (py_call (ecdf1_mns2016_b E (map of_Rbar v))).
Proof.
  intros Hld.
  assert (SZ : @size (car XN) (map of_Rbar v) = Z.of_nat (length v)) by (unfold size; rewrite map_length; reflexivity).
  split.
  - destruct (check_dec "B" (Z.of_nat (length v)) v) as [(A & _ & C)|(A & w & C)].
    + left. split; [exact A|]. destruct (allowed_real v A) as (x & -> & Vx). rewrite map_of_Rbar_Finite.
      destruct (mns_B_total E x Vx Hld) as (p & Hp & ->).
      exists p. split; [reflexivity|exact (is_prob_range _ _ _ Hp)].
    + right. split; [intros H; apply A; auto|]. exists w. unfold ecdf1_mns2016_B. rewrite SZ, C. reflexivity.
  - destruct (check_dec "b" (Z.of_nat (length v)) v) as [(A & _ & C)|(A & w & C)].
    + left. split; [exact A|]. destruct (allowed_real v A) as (x & -> & Vx). rewrite map_of_Rbar_Finite.
      destruct (mns_b_total E x Vx Hld) as (p & Hp & ->).
      exists p. split; [reflexivity|exact (is_prob_range _ _ _ Hp)].
    + right. split; [intros H; apply A; auto|]. exists w. unfold ecdf1_mns2016_b, mns_b. rewrite SZ, C. reflexivity.
Qed.
End Py.

(** ** Boundaries that are not monotone *)

(** Smallest non-decreasing vector above v (running maximum, from [m]); largest
    non-decreasing vector below v (running minimum from the right). *)
Fixpoint raise (m : R) (v : list R) : list R :=
  match v with [] => [] | x :: r => Rmax m x :: raise (Rmax m x) r end.
Fixpoint lower_from_right (v : list R) : list R :=
  match v with
  | [] => []
  | x :: r => match lower_from_right r with [] => [x] | y :: s => Rmin x y :: y :: s end
  end.

Lemma raise_length m v : length (raise m v) = length v.
Proof. revert m; induction v; intros; simpl; auto. Qed.
Lemma lower_length v : length (lower_from_right v) = length v.
Proof. induction v as [|x v IH]; simpl; auto. destruct (lower_from_right v); simpl in *; lia. Qed.

Lemma raise_valid m v : 0 <= m <= 1 -> Forall (fun x => 0 <= x <= 1) v ->
  valid_boundary (raise m v) /\ HdRel Rle m (raise m v).
Proof.
  intros Hm F; revert m Hm; induction F as [|x v Hx F IH]; intros m Hm; simpl.
  - split; [split; constructor|constructor].
  - assert (H : 0 <= Rmax m x <= 1) by (unfold Rmax; destruct (Rle_dec m x); lra).
    destruct (IH _ H) as ((S & G) & HD). split; [split; constructor; auto|].
    constructor. apply Rmax_l.
Qed.
Lemma lower_valid v : Forall (fun x => 0 <= x <= 1) v -> valid_boundary (lower_from_right v).
Proof.
  induction 1 as [|x v Hx F (S & G)]; simpl; [split; constructor|].
  destruct (lower_from_right v) as [|y s]; [split; list_tac; lra|].
  inversion G; subst. split.
  - constructor; [exact S|]. constructor. apply Rmin_r.
  - constructor; [|exact G]. unfold Rmin; destruct (Rle_dec x y); lra.
Qed.

Lemma raise_event m v o : Sorted Rle o -> HdRel Rle m o -> (Forall2 Rle v o <-> Forall2 Rle (raise m v) o).
Proof.
  intros S; revert m v; induction S as [|y o S IH HD]; intros m v Hm.
  - destruct v; simpl; [tauto|]. split; intros H; inversion H.
  - destruct v as [|x v]; simpl; [split; intros H; inversion H|].
    inversion Hm; subst.
    assert (T : x <= y <-> Rmax m x <= y) by (unfold Rmax; destruct (Rle_dec m x); lra).
    split; intros H; inversion H; subst; constructor; try tauto.
    + apply IH; [|assumption]. destruct HD; constructor. lra.
    + apply (IH (Rmax m x)); [|assumption]. destruct HD; constructor. lra.
Qed.
Lemma lower_event v o : Sorted Rle o -> (Forall2 Rle o v <-> Forall2 Rle o (lower_from_right v)).
Proof.
  intros S; revert v; induction S as [|y o S IH HD]; intros v.
  - destruct v; simpl; [tauto|]. split; intros H; inversion H. destruct (lower_from_right v); discriminate.
  - destruct v as [|x v]; simpl; [split; intros H; inversion H|].
    specialize (IH v). split.
    + intros H; inversion H as [|? ? ? ? Hx Hv]; subst. apply IH in Hv.
      destruct (lower_from_right v) as [|z s]; [inversion Hv; subst; constructor; auto|].
      inversion Hv as [|t ? o' ? Hz Ho]; subst. constructor; [|exact Hv].
      inversion HD; subst. unfold Rmin; destruct (Rle_dec x z); lra.
    + intros H. destruct (lower_from_right v) as [|z s].
      * inversion H as [|? ? ? ? Hx Hv]; subst. constructor; [exact Hx|]. apply IH; exact Hv.
      * inversion H as [|? ? ? ? Hx Hv]; subst. constructor; [|apply IH; exact Hv].
        pose proof (Rmin_l x z). lra.
Qed.

Lemma envelope_event b B l : Forall (fun x => 0 <= x <= 1) l ->
  (noncrossing b B l <-> noncrossing (raise 0 b) (lower_from_right B) l).
Proof.
  intros F. assert (P : forall o, Permutation l o -> HdRel Rle 0 o).
  { intros o HP. pose proof (Permutation_Forall HP F) as G. destruct G; constructor. tauto. }
  split; intros (o & HP & S & H1 & H2); exists o; repeat split; auto.
  - exact (proj1 (raise_event 0 b o S (P o HP)) H1).
  - exact (proj1 (lower_event B o S) H2).
  - exact (proj2 (raise_event 0 b o S (P o HP)) H1).
  - exact (proj2 (lower_event B o S) H2).
Qed.

Lemma envelope_ecdf2 {frexp} (E : env (Xnum frexp)) (b B : list R) use_fft :
  Forall (fun x => 0 <= x <= 1) b -> Forall (fun x => 0 <= x <= 1) B -> length b = length B ->
  sort_ok E -> (use_fft = true -> fft_ok E) -> asserts E = false ->
  exists p, is_noncrossing_probability b B p /\
    ecdf2 E (map Fin (raise 0 b)) (map Fin (lower_from_right B)) use_fft = Ok (Fin p).
Proof.
  intros Fb FB L Hs Hf Ha.
  destruct (ecdf2_exact E (raise 0 b) (lower_from_right B) use_fft) as (p & (_ & Hp) & R); auto.
  - apply raise_valid; [lra|exact Fb].
  - apply lower_valid; exact FB.
  - rewrite raise_length, lower_length; exact L.
  - intros; congruence.
  - exists p. split; [|exact R]. split; [exact L|]. rewrite raise_length in Hp.
    eapply is_prob_ext; [|exact Hp]. intros l _ F. symmetry. apply envelope_event; exact F.
Qed.

(** ** The documented example *)
Definition doc_b : list R := [0; 15/100; 5/10].
Definition doc_B : list R := [7/10; 9/10; 8/10].
Definition doc_B_fixed : list R := [7/10; 8/10; 8/10].

Lemma doc_b_valid : valid_boundary doc_b.
Proof. split; unfold doc_b; list_tac; lra. Qed.
Lemma doc_B_invalid {frexp} : check_boundary_vector (N := Xnum frexp) "B" 3 (map Fin doc_B) =
  Throw (RuntimeError (msg_monotone "B" 3)).
Proof.
  pose proof (validation (frexp := frexp) "B" 3 (map Finite doc_B)) as H. cbv zeta in H.
  change (map of_Rbar (map Finite doc_B)) with (map Fin doc_B) in H.
  assert (NS : ~ Sorted Rbar_le (map Finite doc_B)).
  { intros S. inversion S as [|? ? S1 _]; subst. inversion S1 as [|? ? _ H1]; subst. inversion H1 as [|? ? H2]; subst.
    simpl in H2. lra. }
  destruct H as [(L & _)|[(_ & _ & H)|[(_ & S & _)|(_ & S & _)]]]; try contradiction; auto.
Qed.
Lemma doc_example_fails {frexp} (E : env (Xnum frexp)) :
  py_call (ecdf2 E (map Fin doc_b) (map Fin doc_B) true) = PyRuntimeError (N := Xnum frexp) (msg_monotone "B" 3).
Proof.
  unfold ecdf2. change (@size (car (Xnum frexp)) (map Fin doc_b)) with 3%Z.
  pose proof (proj2 (validation_accepts (frexp := frexp) "b" doc_b) doc_b_valid) as H.
  change (Z.of_nat (length doc_b)) with 3%Z in H. rewrite H. cbn [bind].
  rewrite doc_B_invalid. reflexivity.
Qed.
Lemma doc_envelope : raise 0 doc_b = doc_b /\ lower_from_right doc_B = doc_B_fixed.
Proof.
  unfold doc_b, doc_B, doc_B_fixed. cbn [raise lower_from_right].
  rewrite (Rmax_left 0 0) by lra. rewrite (Rmax_right 0 (15/100)) by lra. rewrite (Rmax_right (15/100) (5/10)) by lra.
  rewrite (Rmin_right (9/10) (8/10)) by lra. rewrite (Rmin_left (7/10) (8/10)) by lra. auto.
Qed.
Lemma doc_B_fixed_valid : valid_boundary doc_B_fixed.
Proof. split; unfold doc_B_fixed; list_tac; lra. Qed.
Lemma doc_example_fixed {frexp} (E : env (Xnum frexp)) : sort_ok E -> fft_ok E ->
  exists p, is_noncrossing_probability doc_b doc_B p /\
    py_call (ecdf2 E (map Fin doc_b) (map Fin doc_B_fixed) true) = PyFloat (N := Xnum frexp) (Fin p).
Proof.
  intros Hs Hf. destruct (ecdf2_exact E doc_b doc_B_fixed true) as (p & (_ & Hp) & R); auto using doc_b_valid, doc_B_fixed_valid.
  - intros _ [|[|[|i]]] Hi; simpl in *; try lra; lia.
  - exists p. rewrite R. split; [|reflexivity]. split; [reflexivity|].
    eapply is_prob_ext; [|exact Hp]. intros l _ F. destruct doc_envelope as (E1 & E2).
    rewrite <- E1 at 1. rewrite <- E2. symmetry. apply envelope_event; exact F.
Qed.

Lemma allowed_valid w : valid_boundary w -> allowed (map Finite w).
Proof. intros V. apply valid_boundary_Rbar in V as (A & B). split; [exact A|exact B]. Qed.
Lemma allowed_case : allowed (map Finite case_b).
Proof. apply allowed_valid, case_b_valid. Qed.
Lemma not_allowed_decreasing : ~ allowed (map Finite [1; 0]).
Proof. intros (S & _). inversion S as [|? ? _ H]; subst. inversion H as [|? ? X]; subst. simpl in X. lra. Qed.
Lemma not_allowed_infinite : ~ allowed [p_infty].
Proof. intros (_ & F). inversion F as [|? ? (_ & X)]; subst. exact X. Qed.
