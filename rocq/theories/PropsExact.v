(** * PropsExact: properties C01-C14, C18 and C19.

    Exact arithmetic: the floating-point type is the reals with infinities and NaN
    (XReal.v).  [is_noncrossing_probability], [noncrossing_b], [noncrossing_B],
    [is_prob], [valid_boundary] and [reflect] are defined in Spec.v; [sort_ok] (what
    the standard promises of std::sort) in Ecdf2.v; [fft_ok] (FFTW computes the DFT)
    in XFft.v; [long_double_ok] (long double is exact too) in XReal.v.  The environment E ranges over all memory
    contents, all sorting results and both assertion settings; frexp is arbitrary. *)
From Coquelicot Require Import Coquelicot.
From Coq Require Import ZArith Reals List String Sorted.
From Verif Require Import Base Num XReal Common Ecdf2 Ecdf1New Ecdf1Mns XCommon XFft Spec.
From Verif Require Import ExactFacts ExactMore ExactEnv Cases XEcdf1NewMain XMns NanFacts.
Import List. Import ListNotations.
Local Open Scope R_scope.

(** ** C01 *)
Theorem C01_ecdf2_direct_exact : forall frexp (E : env (Xnum frexp)) (b B : list R),
  valid_boundary b -> valid_boundary B -> length b = length B -> sort_ok E ->
  (asserts E = true -> forall i, (S i < length b)%nat -> nth i b 0 <= nth (S i) B 0) ->
  exists p, is_noncrossing_probability b B p /\ ecdf2 E (map Fin b) (map Fin B) false = Ok (Fin p).
Proof. exact @ecdf2_direct_exact. Qed.
Print Assumptions C01_ecdf2_direct_exact.
Example C01_case : is_noncrossing_probability case_b ones2 (3/4) /\
  ecdf2 (some_env true) (map Fin case_b) (map Fin ones2) false = Ok (Fin (3/4)).
Proof. exact (conj case_two_sided_b (case_ecdf2 true false)). Qed.

(** ** C02 *)
Theorem C02_ecdf2_fft_exact : forall frexp (E : env (Xnum frexp)) (b B : list R),
  valid_boundary b -> valid_boundary B -> length b = length B -> sort_ok E -> fft_ok E ->
  (asserts E = true -> forall i, (S i < length b)%nat -> nth i b 0 <= nth (S i) B 0) ->
  exists p, is_noncrossing_probability b B p /\ ecdf2 E (map Fin b) (map Fin B) true = Ok (Fin p).
Proof. exact @ecdf2_fft_exact. Qed.
Print Assumptions C02_ecdf2_fft_exact.
Example C02_case : sort_ok (some_env true) /\ fft_ok (some_env true) /\
  ecdf2 (some_env true) (map Fin case_b) (map Fin ones2) true = Ok (Fin (3/4)).
Proof. exact (conj (exact_env_sort _ _ _) (conj (exact_env_fft _ _ _) (case_ecdf2 true true))). Qed.

(** ** C03 *)
Theorem C03_ecdf1_new_B_exact : forall frexp (E : env (Xnum frexp)) (B : list R),
  valid_boundary B -> fft_ok E ->
  (1 <= length B)%nat -> (Z.of_nat (length B) <= INT_MAX)%Z -> (asserts E = true -> (2 <= length B)%nat) ->
  exists p, is_prob (length B) (noncrossing_B B) p /\ ecdf1_new_B E (map Fin B) = Ok (Fin p).
Proof. exact @new_B_total. Qed.
Print Assumptions C03_ecdf1_new_B_exact.
Example C03_case : is_prob 2 (noncrossing_B case_B) (3/4) /\
  ecdf1_new_B (some_env true) (map Fin case_B) = Ok (Fin (3/4)).
Proof. exact (conj case_B_prob (case_new_B true)). Qed.

(** ** C04 *)
Theorem C04_ecdf1_new_b_exact : forall frexp (E : env (Xnum frexp)) (b : list R),
  valid_boundary b -> fft_ok E ->
  (1 <= length b)%nat -> (Z.of_nat (length b) <= INT_MAX)%Z -> (asserts E = true -> (2 <= length b)%nat) ->
  exists p, is_prob (length b) (noncrossing_b b) p /\ ecdf1_new_b E (map Fin b) = Ok (Fin p).
Proof. exact @new_b_total. Qed.
Print Assumptions C04_ecdf1_new_b_exact.
Example C04_case : is_prob 2 (noncrossing_b case_b) (3/4) /\
  ecdf1_new_b (some_env true) (map Fin case_b) = Ok (Fin (3/4)).
Proof. exact (conj case_b_prob (case_new_b true)). Qed.

(** ** C05: whatever frexp reports *)
Theorem C05_ecdf1_mns2016_b_exact : forall frexp (E : env (Xnum frexp)) (b : list R),
  valid_boundary b -> long_double_ok E ->
  exists p, is_prob (length b) (noncrossing_b b) p /\ ecdf1_mns2016_b E (map Fin b) = Ok (Fin p).
Proof. exact @mns_b_total. Qed.
Print Assumptions C05_ecdf1_mns2016_b_exact.
Example C05_case : is_prob 2 (noncrossing_b case_b) (3/4) /\
  ecdf1_mns2016_b (some_env true) (map Fin case_b) = Ok (Fin (3/4)).
Proof. exact (conj case_b_prob (case_mns_b true)). Qed.

(** ** C06 *)
Theorem C06_ecdf1_mns2016_B_exact : forall frexp (E : env (Xnum frexp)) (B : list R),
  valid_boundary B -> long_double_ok E ->
  exists p, is_prob (length B) (noncrossing_B B) p /\ ecdf1_mns2016_B E (map Fin B) = Ok (Fin p).
Proof. exact @mns_B_total. Qed.
Print Assumptions C06_ecdf1_mns2016_B_exact.
Example C06_case : is_prob 2 (noncrossing_B case_B) (3/4) /\
  ecdf1_mns2016_B (some_env true) (map Fin case_B) = Ok (Fin (3/4)).
Proof. exact (conj case_B_prob (case_mns_B true)). Qed.

(** ** C07 *)
Theorem C07_algorithms_agree_B : forall frexp (E : env (Xnum frexp)) (B : list R) use_fft,
  valid_boundary B -> sort_ok E -> fft_ok E -> long_double_ok E -> (2 <= length B)%nat -> (Z.of_nat (length B) <= INT_MAX)%Z ->
  exists p, ecdf1_new_B E (map Fin B) = Ok (Fin p) /\
    ecdf1_mns2016_B E (map Fin B) = Ok (Fin p) /\
    ecdf2 E (map Fin (repeat 0 (length B))) (map Fin B) use_fft = Ok (Fin p).
Proof. exact @agree_B. Qed.
Print Assumptions C07_algorithms_agree_B.
Theorem C07_algorithms_agree_b : forall frexp (E : env (Xnum frexp)) (b : list R) use_fft,
  valid_boundary b -> sort_ok E -> fft_ok E -> long_double_ok E -> (2 <= length b)%nat -> (Z.of_nat (length b) <= INT_MAX)%Z ->
  exists p, ecdf1_new_b E (map Fin b) = Ok (Fin p) /\
    ecdf1_mns2016_b E (map Fin b) = Ok (Fin p) /\
    ecdf2 E (map Fin b) (map Fin (repeat 1 (length b))) use_fft = Ok (Fin p).
Proof. exact @agree_b. Qed.
Print Assumptions C07_algorithms_agree_b.
Example C07_case : ecdf1_new_b (some_env true) (map Fin case_b) = Ok (Fin (3/4)) /\
  ecdf1_mns2016_b (some_env true) (map Fin case_b) = Ok (Fin (3/4)) /\
  ecdf2 (some_env true) (map Fin case_b) (map Fin (repeat 1 2)) false = Ok (Fin (3/4)).
Proof. exact (conj (case_new_b true) (conj (case_mns_b true) (case_ecdf2 true false))). Qed.

(** ** C08 *)
Theorem C08_results_are_probabilities : forall frexp (E : env (Xnum frexp)) (v : list R),
  valid_boundary v -> sort_ok E -> fft_ok E -> long_double_ok E -> (2 <= length v)%nat -> (Z.of_nat (length v) <= INT_MAX)%Z ->
  (forall b B use_fft r, valid_boundary b -> valid_boundary B -> length b = length B ->
     ecdf2 E (map Fin b) (map Fin B) use_fft = Ok r -> exists p, r = Fin p /\ 0 <= p <= 1) /\
  (exists p, ecdf1_new_B E (map Fin v) = Ok (Fin p) /\ 0 <= p <= 1) /\
  (exists p, ecdf1_new_b E (map Fin v) = Ok (Fin p) /\ 0 <= p <= 1) /\
  (exists p, ecdf1_mns2016_B E (map Fin v) = Ok (Fin p) /\ 0 <= p <= 1) /\
  (exists p, ecdf1_mns2016_b E (map Fin v) = Ok (Fin p) /\ 0 <= p <= 1).
Proof. exact @all_results_in_range. Qed.
Print Assumptions C08_results_are_probabilities.
Example C08_case : valid_boundary case_B /\ sort_ok (some_env true) /\ fft_ok (some_env true) /\ long_double_ok (some_env true).
Proof. exact (conj case_B_valid (conj (exact_env_sort _ _ _) (conj (exact_env_fft _ _ _) (exact_env_ld _ _ _)))). Qed.

(** ** C09 *)
Theorem C09_widening_is_monotone : forall frexp frexp' (E : env (Xnum frexp)) (E' : env (Xnum frexp'))
  (b B b' B' : list R) use_fft use_fft' p p',
  valid_boundary b -> valid_boundary B -> length b = length B ->
  valid_boundary b' -> valid_boundary B' -> length b' = length B' ->
  sort_ok E -> (use_fft = true -> fft_ok E) ->
  sort_ok E' -> (use_fft' = true -> fft_ok E') ->
  Forall2 Rle b' b -> Forall2 Rle B B' ->
  ecdf2 E (map Fin b) (map Fin B) use_fft = Ok (Fin p) ->
  ecdf2 E' (map Fin b') (map Fin B') use_fft' = Ok (Fin p') -> p <= p'.
Proof. exact @ecdf2_widen. Qed.
Print Assumptions C09_widening_is_monotone.
Example C09_case : ecdf2 (some_env true) (map Fin case_b) (map Fin touch_B) true = Ok (Fin 0) /\
  ecdf2 (some_env false) (map Fin case_b) (map Fin ones2) false = Ok (Fin (3/4)).
Proof. exact (conj (case_touch true true) (case_ecdf2 false false)). Qed.

(** ** C10 *)
Theorem C10_reflection : forall frexp (E : env (Xnum frexp)) (b B : list R) use_fft,
  valid_boundary b -> valid_boundary B -> length b = length B ->
  sort_ok E -> (use_fft = true -> fft_ok E) ->
  (asserts E = true -> forall i, (S i < length b)%nat -> nth i b 0 <= nth (S i) B 0) ->
  exists p, ecdf2 E (map Fin b) (map Fin B) use_fft = Ok (Fin p) /\
            ecdf2 E (map Fin (reflect B)) (map Fin (reflect b)) use_fft = Ok (Fin p).
Proof. exact @ecdf2_reflect_total. Qed.
Print Assumptions C10_reflection.
Example C10_case : reflect case_B = case_b /\ ecdf2 (some_env true) (map Fin case_b) (map Fin ones2) false = Ok (Fin (3/4)).
Proof. exact (conj reflect_case_b (case_ecdf2 true false)). Qed.

(** ** C11 *)
Theorem C11_trivial_boundaries : forall frexp (E : env (Xnum frexp)) n use_fft,
  sort_ok E -> (use_fft = true -> fft_ok E) ->
  ecdf2 E (map Fin (repeat 0 n)) (map Fin (repeat 1 n)) use_fft = Ok (Fin 1).
Proof. exact @ecdf2_trivial. Qed.
Print Assumptions C11_trivial_boundaries.
Theorem C11_touching_boundaries : forall frexp (E : env (Xnum frexp)) (b B : list R) use_fft r i,
  valid_boundary b -> valid_boundary B -> length b = length B -> sort_ok E -> (use_fft = true -> fft_ok E) ->
  (i < length b)%nat -> nth i B 0 <= nth i b 0 ->
  ecdf2 E (map Fin b) (map Fin B) use_fft = Ok r -> r = Fin 0.
Proof. exact @ecdf2_touching. Qed.
Print Assumptions C11_touching_boundaries.
Theorem C11_separated_boundaries : forall frexp (E : env (Xnum frexp)) (b B : list R) use_fft,
  valid_boundary b -> valid_boundary B -> sort_ok E -> (use_fft = true -> fft_ok E) ->
  Forall2 Rlt b B ->
  exists p, ecdf2 E (map Fin b) (map Fin B) use_fft = Ok (Fin p) /\ 0 < p.
Proof. exact @ecdf2_positive. Qed.
Print Assumptions C11_separated_boundaries.
Example C11_case : ecdf2 (some_env true) (map Fin case_b) (map Fin touch_B) false = Ok (Fin 0).
Proof. exact (case_touch true false). Qed.

(** ** C12 *)
Theorem C12_environment_independence : forall frexp frexp' (E : env (Xnum frexp)) (E' : env (Xnum frexp'))
  (b B : list R) use_fft use_fft' r r',
  valid_boundary b -> valid_boundary B -> length b = length B ->
  sort_ok E -> (use_fft = true -> fft_ok E) ->
  sort_ok E' -> (use_fft' = true -> fft_ok E') ->
  ecdf2 E (map Fin b) (map Fin B) use_fft = Ok r ->
  ecdf2 E' (map Fin b) (map Fin B) use_fft' = Ok r' -> r = r'.
Proof. exact @ecdf2_same. Qed.
Print Assumptions C12_environment_independence.
Example C12_case : ecdf2 (some_env true) (map Fin case_b) (map Fin ones2) true = Ok (Fin (3/4)) /\
  ecdf2 (some_env false) (map Fin case_b) (map Fin ones2) false = Ok (Fin (3/4)).
Proof. exact (conj (case_ecdf2 true true) (case_ecdf2 false false)). Qed.

(** ** C13: [of_Rbar] embeds the reals with both infinities; NaN is C14 *)
Theorem C13_validation : forall frexp name n (v : list Rbar),
  let r := check_boundary_vector (N := Xnum frexp) name n (map of_Rbar v) in
  (Z.of_nat (length v) <> n /\ r = Throw (RuntimeError (msg_length name n (Z.of_nat (length v))))) \/
  (Z.of_nat (length v) = n /\ ~ Sorted Rbar_le v /\ r = Throw (RuntimeError (msg_monotone name n))) \/
  (Z.of_nat (length v) = n /\ Sorted Rbar_le v /\ ~ Forall (fun x => Rbar_le 0 x /\ Rbar_le x 1) v /\
     r = Throw (RuntimeError (msg_range name n))) \/
  (Z.of_nat (length v) = n /\ Sorted Rbar_le v /\ Forall (fun x => Rbar_le 0 x /\ Rbar_le x 1) v /\ r = Ok tt).
Proof. exact @validation. Qed.
Print Assumptions C13_validation.
Theorem C13_accepted_vectors : forall frexp name (v : list R),
  check_boundary_vector (N := Xnum frexp) name (Z.of_nat (length v)) (map Fin v) = Ok tt <-> valid_boundary v.
Proof. exact @validation_accepts. Qed.
Print Assumptions C13_accepted_vectors.
Example C13_case : valid_boundary case_b.
Proof. exact case_b_valid. Qed.

(** ** C14: false; a NaN passes validation and then breaks std::sort's contract *)
Theorem C14_nan_accepted_refuted : exists v : list xr, In NaN v /\
  forall frexp (E : env (Xnum frexp)) use_fft,
    check_boundary_vector (N := Xnum frexp) "b" 2 v = Ok tt /\
    exists s, ecdf2 E v [Fin (/2); Fin 1] use_fft = Undef s.
Proof.
  exact (ex_intro _ [NaN; Fin (/2)] (conj (or_introl eq_refl)
    (fun frexp E use_fft => conj nan_accepted (ex_intro _ _ (nan_undefined E use_fft))))).
Qed.
Print Assumptions C14_nan_accepted_refuted.
(** What is accepted: no element is below its predecessor, the first is not below
    0, the last is not above 1 ([below] of NanFacts.v is < , never true of NaN). *)
Theorem C14_accepted : forall frexp name (v : list xr),
  check_boundary_vector (N := Xnum frexp) name (Z.of_nat (length v)) v = Ok tt <->
  (forall i, (S i < length v)%nat -> ~ below (nth (S i) v NaN) (nth i v NaN)) /\
  ~ below (nth 0 v NaN) (Fin 0) /\ ~ below (Fin 1) (nth (length v - 1) v NaN).
Proof. exact (@accepted_iff). Qed.
Print Assumptions C14_accepted.
Example C14_case : forall frexp,
  check_boundary_vector (N := Xnum frexp) "b" 5 [Fin 0; Fin 7; NaN; Fin (-3); Fin 1] = Ok tt.
Proof. exact (@nan_hides). Qed.

(** ** C18 *)
Theorem C18_when_ecdf2_aborts : forall frexp (E : env (Xnum frexp)) (b B : list R) use_fft,
  valid_boundary b -> valid_boundary B -> length b = length B -> sort_ok E -> (use_fft = true -> fft_ok E) ->
  asserts E = true ->
  ((exists s, ecdf2 E (map Fin b) (map Fin B) use_fft = Abort s) <->
   exists i, (S i < length b)%nat /\ nth (S i) B 0 < nth i b 0).
Proof. exact @ecdf2_aborts_iff. Qed.
Print Assumptions C18_when_ecdf2_aborts.
Example C18_case : exists s, ecdf2 (some_env true) (map Fin gap_b) (map Fin gap_B) false = Abort s.
Proof. exact (case_gap false). Qed.

(** ** C19: false for n = 1 when assertions are live (C03 and C04 say what holds) *)
Theorem C19_single_sample_refuted : exists B : list R, valid_boundary B /\ length B = 1%nat /\
  forall frexp (E : env (Xnum frexp)), asserts E = true ->
    ecdf1_new_B E (map Fin B) = Abort "jump_size <= n" /\ ecdf1_new_b E (map Fin B) = Abort "jump_size <= n".
Proof.
  exact (ex_intro _ [/2] (conj single_valid (conj eq_refl (fun frexp E Ha =>
    conj (new_B_one_aborts E [/2] single_valid eq_refl Ha) (new_b_one_aborts E [/2] single_valid eq_refl Ha))))).
Qed.
Print Assumptions C19_single_sample_refuted.
Theorem C19_single_sample_aborts : forall frexp (E : env (Xnum frexp)) (B : list R),
  valid_boundary B -> length B = 1%nat -> asserts E = true ->
  ecdf1_new_B E (map Fin B) = Abort "jump_size <= n" /\ ecdf1_new_b E (map Fin B) = Abort "jump_size <= n".
Proof. exact (fun frexp E B V L Ha => conj (new_B_one_aborts E B V L Ha) (new_b_one_aborts E B V L Ha)). Qed.
Print Assumptions C19_single_sample_aborts.
Theorem C19_empty_sample_aborts : forall frexp (E : env (Xnum frexp)), asserts E = true ->
  ecdf1_new_B E [] = Abort "jump_size <= n" /\ ecdf1_new_b E [] = Abort "jump_size <= n".
Proof. exact (@new_empty_aborts). Qed.
Print Assumptions C19_empty_sample_aborts.
Theorem C19_empty_sample_undefined : forall frexp (E : env (Xnum frexp)), asserts E = false ->
  ecdf1_new_B E [] = Undef "read below an array" /\ ecdf1_new_b E [] = Undef "read below an array".
Proof. exact (fun frexp E Ha => new_empty_undef E Ha jump_zero). Qed.
Print Assumptions C19_empty_sample_undefined.
