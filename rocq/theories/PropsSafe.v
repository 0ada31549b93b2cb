(** * PropsSafe: properties C15-C17, for every floating-point type.

    [N : num] is arbitrary: nothing is assumed about rounding, comparisons or libm.
    [well_defined] (SafeMore.v): neither undefined behaviour nor an endless loop.
    [fft_lengths] (SafeFft.v): FFTW writes as many elements as it documents. *)
From Coquelicot Require Import Coquelicot.
From Coq Require Import ZArith Reals List String.
From Verif Require Import Base Num XReal Common Ecdf2 Ecdf1New Ecdf1Mns SafeFft SafeMore ExactEnv Cases.
Import List. Import ListNotations.
Local Open Scope Z_scope.

(** ** C15 *)
Theorem C15_ecdf2_memory_safe : forall (N : num) (E : env N) (b B : list (car N)) use_fft,
  strict_weak_order_on (map (fun x => mkBound x bSTEP) b ++ map (fun x => mkBound x BSTEP) B) = true ->
  sort_ok E -> (use_fft = true -> fft_lengths E) -> well_defined (ecdf2 E b B use_fft).
Proof. exact ecdf2_well_defined. Qed.
Print Assumptions C15_ecdf2_memory_safe.
Example C15_case : strict_weak_order_on (N := Xnum some_frexp)
    (map (fun x => @mkBound (Xnum some_frexp) x bSTEP) (map Fin case_b) ++
     map (fun x => @mkBound (Xnum some_frexp) x BSTEP) (map Fin ones2)) = true /\
  sort_ok (some_env true) /\ fft_lengths (some_env true).
Proof. exact (conj case_order (conj (exact_env_sort _ _ _) (exact_env_lengths _ _ _))). Qed.

(** ** C16 *)
Theorem C16_ecdf1_new_memory_safe : forall (N : num) (E : env N) (v : list (car N)) k,
  fft_lengths E -> 1 <= Z.of_nat (length v) ->
  jump_size_for (N := N) (Z.of_nat (length v)) = Ok k -> 1 <= k ->
  well_defined (ecdf1_new_B E v) /\ well_defined (ecdf1_new_b E v).
Proof. exact new_well_defined. Qed.
Print Assumptions C16_ecdf1_new_memory_safe.
Example C16_case : fft_lengths (some_env true) /\ jump_size_for (N := Xnum some_frexp) 2 = Ok 2.
Proof. exact (conj (exact_env_lengths _ _ _) jump_two). Qed.

(** ** C17 *)
Theorem C17_ecdf1_mns2016_memory_safe : forall (N : num) (E : env N) (v : list (car N)),
  ((exists r, ecdf1_mns2016_b E v = Ok r) \/ (exists s, ecdf1_mns2016_b E v = Throw (RuntimeError s))) /\
  ((exists r, ecdf1_mns2016_B E v = Ok r) \/ (exists s, ecdf1_mns2016_B E v = Throw (RuntimeError s))).
Proof. exact mns_well_defined. Qed.
Print Assumptions C17_ecdf1_mns2016_memory_safe.
