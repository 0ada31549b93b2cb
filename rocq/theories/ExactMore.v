(** * ExactMore: packaging for the property file PropsExact.v, and the two refutations. *)
From Coquelicot Require Import Coquelicot.
From Flocq Require Import Core.Raux.
From Coq Require Import ZArith Reals List Bool Lia Lra String Sorted.
From Verif Require Import Base Num Hoare XReal Common Ecdf2 Ecdf1New Ecdf1Mns FFTConv.
From Verif Require Import Spec SpecFacts Reflect XCommon XFft XEcdf1NewMain XMns ExactFacts ExactEnv SafeNew Cases.
Import List. Import ListNotations.
Local Open Scope R_scope.

Lemma all_results_in_range {frexp} (E : env (Xnum frexp)) (v : list R) :
  valid_boundary v -> sort_ok E -> fft_ok E -> long_double_ok E -> (2 <= length v)%nat -> (Z.of_nat (length v) <= INT_MAX)%Z ->
  (forall b B use_fft r, valid_boundary b -> valid_boundary B -> length b = length B ->
     ecdf2 E (map Fin b) (map Fin B) use_fft = Ok r -> exists p, r = Fin p /\ 0 <= p <= 1) /\
  (exists p, ecdf1_new_B E (map Fin v) = Ok (Fin p) /\ 0 <= p <= 1) /\
  (exists p, ecdf1_new_b E (map Fin v) = Ok (Fin p) /\ 0 <= p <= 1) /\
  (exists p, ecdf1_mns2016_B E (map Fin v) = Ok (Fin p) /\ 0 <= p <= 1) /\
  (exists p, ecdf1_mns2016_b E (map Fin v) = Ok (Fin p) /\ 0 <= p <= 1).
Proof.
  intros HV Hs Hf Hld H2 Hm. split; [intros b B use_fft r Vb VB L Hr; exact (ecdf2_range E b B use_fft r Vb VB L Hs (fun _ => Hf) Hr)|].
  destruct (new_B_total E v) as (p1 & Hp1 & E1); auto; [lia|].
  destruct (new_b_total E v) as (p2 & Hp2 & E2); auto; [lia|].
  destruct (mns_B_total E v) as (p3 & Hp3 & E3); auto.
  destruct (mns_b_total E v) as (p4 & Hp4 & E4); auto.
  repeat split; eexists; (split; [eassumption|eapply is_prob_range; eassumption]).
Qed.

Lemma ecdf2_reflect_total {frexp} (E : env (Xnum frexp)) (b B : list R) use_fft :
  valid_boundary b -> valid_boundary B -> length b = length B ->
  sort_ok E -> (use_fft = true -> fft_ok E) -> (asserts E = true -> no_gap b B) ->
  exists p, ecdf2 E (map Fin b) (map Fin B) use_fft = Ok (Fin p) /\
            ecdf2 E (map Fin (reflect B)) (map Fin (reflect b)) use_fft = Ok (Fin p).
Proof.
  intros V1 V2 L Hs Hf Hg.
  destruct (ecdf2_exact E b B use_fft) as (p & Hp & R1); auto.
  destruct (ecdf2_exact E (reflect B) (reflect b) use_fft) as (q & Hq & R2); auto using valid_reflect.
  - rewrite !reflect_length; auto.
  - intros Ha. apply no_gap_reflect; auto.
  - exists p. split; auto. rewrite R2. f_equal.
    symmetry. exact (ecdf2_reflect E E b B use_fft use_fft _ _ V1 V2 L Hs Hf Hs Hf R1 R2).
Qed.

(** ** C19 *)
Lemma new_b_one_aborts {frexp} (E : env (Xnum frexp)) (b : list R) : valid_boundary b -> length b = 1%nat -> asserts E = true ->
  ecdf1_new_b E (map Fin b) = Abort "jump_size <= n".
Proof.
  intros HV Hn Ha. rewrite new_b_reflects by auto. apply new_B_one_aborts; auto using valid_reflect.
  rewrite reflect_length. exact Hn.
Qed.
(** an empty vector passes validation; then B[-1] is read *)
Lemma new_empty_undef {N : num} (E : env N) : asserts E = false -> jump_size_for (N := N) 0 = Ok 1%Z ->
  ecdf1_new_B E [] = Undef "read below an array" /\ ecdf1_new_b E [] = Undef "read below an array".
Proof.
  intros Ha Hj.
  assert (H : ecdf1_new_B E [] = Undef "read below an array").
  { unfold ecdf1_new_B. simpl check_boundary_vector. cbn [bind]. change (size (@nil (car N))) with 0%Z. rewrite Hj. cbn [bind].
    unfold poisson_B_noncrossing_probability_n2, PoissonPmf.pmfgen_make. rewrite Ha. reflexivity. }
  split; auto.
Qed.
Lemma jump_zero {frexp} : jump_size_for (N := Xnum frexp) 0 = Ok 1%Z.
Proof.
  unfold jump_size_for. cbn [n_trunc n_add n_sqrt n_of_Z n1 Xnum xsqrt]. unfold n1. cbn [n_of_Z Xnum].
  rewrite Rlt_bool_false by lra. cbn [xadd xtrunc]. rewrite sqrt_0.
  replace (0 + 1) with (IZR 1) by ring. rewrite Ztrunc_IZR. reflexivity.
Qed.
Lemma new_empty_aborts {frexp} (E : env (Xnum frexp)) : asserts E = true ->
  ecdf1_new_B E [] = Abort "jump_size <= n" /\ ecdf1_new_b E [] = Abort "jump_size <= n".
Proof.
  intros Ha.
  assert (H : ecdf1_new_B E [] = Abort "jump_size <= n").
  { unfold ecdf1_new_B. simpl check_boundary_vector. cbn [bind]. change (size (@nil (car (Xnum frexp)))) with 0%Z.
    rewrite jump_zero. cbn [bind].
    unfold poisson_B_noncrossing_probability_n2. rewrite Ha. reflexivity. }
  split; auto.
Qed.

(** ** C14 *)
Lemma nan_accepted {frexp} : check_boundary_vector (N := Xnum frexp) "b" 2 [NaN; Fin (/2)] = Ok tt.
Proof.
  unfold check_boundary_vector. cbn [size length]. simpl.
  unfold front, back. simpl. rewrite Rlt_bool_false by lra. reflexivity.
Qed.
(** ... and then breaks the contract of std::sort *)
Lemma nan_undefined {frexp} (E : env (Xnum frexp)) use_fft :
  ecdf2 E [NaN; Fin (/2)] [Fin (/2); Fin 1] use_fft = Undef "std::sort: comparator is not a strict weak ordering".
Proof.
  unfold ecdf2. change (size [NaN; Fin (/2)]) with 2%Z.
  change (check_boundary_vector (N := Xnum frexp) "b" (@size (car (Xnum frexp)) [NaN; Fin (/2)]) [NaN; Fin (/2)])
    with (check_boundary_vector (N := Xnum frexp) "b" 2 [NaN; Fin (/2)]).
  rewrite nan_accepted. cbn [bind].
  assert (H : check_boundary_vector (N := Xnum frexp) "B" 2 [Fin (/2); Fin 1] = Ok tt).
  { apply (check_valid (frexp := frexp) "B" case_B). apply case_B_valid. }
  change (@size (car (Xnum frexp)) [NaN; Fin (/2)]) with 2%Z. rewrite H. cbn [bind].
  unfold poisson_process_noncrossing_probability, join_all_bounds, std_sort.
  match goal with |- context [strict_weak_order_on ?l] => assert (Hw : strict_weak_order_on (N := Xnum frexp) l = false) end.
  { unfold strict_weak_order_on. cbn [map app forallb]. unfold bound_lt. cbn [location n_lt Xnum xlt].
    assert (H1 : Rlt_bool (/2) 1 = true) by (apply Rlt_bool_true; lra).
    assert (H2 : Rlt_bool 1 (/2) = false) by (apply Rlt_bool_false; lra).
    assert (H3 : Rlt_bool (/2) (/2) = false) by (apply Rlt_bool_false; lra).
    assert (H4 : Rlt_bool 1 1 = false) by (apply Rlt_bool_false; lra).
    rewrite H1, H2, H3, H4. reflexivity. }
  rewrite Hw. reflexivity.
Qed.

(** ** C13 *)
Lemma validation {frexp} name n (v : list Rbar) :
  let r := check_boundary_vector (N := Xnum frexp) name n (map of_Rbar v) in
  (Z.of_nat (length v) <> n /\ r = Throw (RuntimeError (msg_length name n (Z.of_nat (length v))))) \/
  (Z.of_nat (length v) = n /\ ~ Sorted Rbar_le v /\ r = Throw (RuntimeError (msg_monotone name n))) \/
  (Z.of_nat (length v) = n /\ Sorted Rbar_le v /\ ~ Forall (fun x => Rbar_le 0 x /\ Rbar_le x 1) v /\
     r = Throw (RuntimeError (msg_range name n))) \/
  (Z.of_nat (length v) = n /\ Sorted Rbar_le v /\ Forall (fun x => Rbar_le 0 x /\ Rbar_le x 1) v /\ r = Ok tt).
Proof. exact (check_boundary_vector_cases name n v). Qed.
Lemma validation_accepts {frexp} name (v : list R) :
  check_boundary_vector (N := Xnum frexp) name (Z.of_nat (length v)) (map Fin v) = Ok tt <-> valid_boundary v.
Proof.
  split; [|apply check_valid]. rewrite map_Fin_of_Rbar. intros H.
  apply valid_boundary_Rbar.
  destruct (check_boundary_vector_cases (frexp := frexp) name (Z.of_nat (length v)) (map Finite v)) as
    [[_ H']|[(_ & _ & H')|[(_ & _ & _ & H')|(_ & H1 & H2 & _)]]]; auto; rewrite H in H'; discriminate.
Qed.
