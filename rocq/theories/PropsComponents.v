(** * PropsComponents: properties C21-C24 of the convolutions and the Poisson generator.

    [holds_product before after od sz a oa b ob] (ComponentFacts.v): after is before with
    elements od..od+sz-1 replaced by the truncated product of a (from oa) and b (from ob). *)
From Coquelicot Require Import Coquelicot.
From Coq Require Import ZArith Reals List String Factorial.
From Verif Require Import Base Num XReal Common PoissonPmf FFTConv XFft ComponentFacts SafeMore ExactEnv Cases.
Import List. Import ListNotations.
Local Open Scope Z_scope.

(** ** C21 *)
Theorem C21_convolution : forall frexp (a b : list R) (dest : list (car (Xnum frexp))) (sz oa ob od : nat),
  (oa + sz <= length a)%nat -> (ob + sz <= length b)%nat -> (od + sz <= length dest)%nat ->
  exists dest',
    convolve_same_size (N := Xnum frexp) (Z.of_nat sz) (map Fin a) (Z.of_nat oa) (map Fin b) (Z.of_nat ob)
      dest (Z.of_nat od) = Ok dest' /\
    holds_product dest dest' od sz a oa b ob.
Proof. exact @convolve_exact. Qed.
Print Assumptions C21_convolution.
Theorem C21_nothing_for_negative_sizes : forall frexp sz (a b dest : list (car (Xnum frexp))) oa ob od, sz <= 0 ->
  convolve_same_size sz a oa b ob dest od = Ok dest.
Proof. exact @convolve_nothing. Qed.
Print Assumptions C21_nothing_for_negative_sizes.
Example C21_case : exists d : list (car (Xnum some_frexp)),
  convolve_same_size (N := Xnum some_frexp) 2 (map Fin [1; 2]%R) 0 (map Fin [9; 3; 4]%R) 1 [NaN; NaN; Fin 8] 0 = Ok d /\
  holds_product [NaN; NaN; Fin 8%R] d 0 2 [1; 2]%R 0 [9; 3; 4]%R 1 /\
  truncated_product [1; 2]%R 0 [9; 3; 4]%R 1 1 = 10%R.
Proof. exact case_convolve. Qed.

(** ** C22: [used E m f]: f was built for m elements and then used in any way *)
Theorem C22_fft_convolver : forall frexp (E : env (Xnum frexp)) (m : nat) f (a b : list R)
  (dest : list (car (Xnum frexp))) (sz oa ob od : nat),
  fft_ok E -> used E (Z.of_nat m) f -> (sz <= m)%nat ->
  (oa + sz <= length a)%nat -> (ob + sz <= length b)%nat -> (od + sz <= length dest)%nat ->
  exists f' dest',
    fft_convolve_same_size E f (Z.of_nat sz) (map Fin a) (Z.of_nat oa) (map Fin b) (Z.of_nat ob)
      dest (Z.of_nat od) = Ok (f', dest') /\
    convolve_same_size (N := Xnum frexp) (Z.of_nat sz) (map Fin a) (Z.of_nat oa) (map Fin b) (Z.of_nat ob)
      dest (Z.of_nat od) = Ok dest' /\
    holds_product dest dest' od sz a oa b ob.
Proof. exact @fft_equals_direct. Qed.
Print Assumptions C22_fft_convolver.
Example C22_case : fft_ok (some_env true) /\ used (some_env true) 4000 (fftconv_make (some_env true) 4000).
Proof. exact (conj (exact_env_fft _ _ _) (used_new _ _)). Qed.

(** ** C23: false; up to 2047 elements too many pass the guard and overrun the buffers *)
Theorem C23_guard_refuted : exists m sz, 0 <= m < sz /\
  forall (N : num) (E : env N) (v : list (car N)), length v = 1025%nat ->
    exists s, fft_convolve_same_size E (fftconv_make E m) sz v 0 v 0 v 0 = Undef s.
Proof.
  exact (ex_intro _ 1024 (ex_intro _ 1025 (conj (conj (Zle_bool_imp_le 0 1024 eq_refl) eq_refl)
    (fun N E v Hv => ex_intro _ _ (guard_hole N E v Hv))))).
Qed.
Print Assumptions C23_guard_refuted.
Theorem C23_what_the_guard_refuses : forall (N : num) (E : env N) m sz (a b out : list (car N)) oa ob oo,
  0 <= m -> m + 2047 < sz ->
  exists s, fft_convolve_same_size E (fftconv_make E m) sz a oa b ob out oo = Throw (RuntimeError s).
Proof. exact guard_throws. Qed.
Print Assumptions C23_what_the_guard_refuses.

(** ** C24: [pmf_used E mk g]: g was built for max_k = mk and compute_array was called on it at will *)
Theorem C24_poisson_pmf : forall frexp (E : env (Xnum frexp)) (l : R) (k : nat), (0 <= l)%R ->
  poisson_pmf E (Fin l) (Z.of_nat k) = Ok (Fin (exp (- l) * l ^ k / INR (fact k))).
Proof. exact @poisson_exact. Qed.
Print Assumptions C24_poisson_pmf.
Theorem C24_evaluate_pmf : forall frexp (E : env (Xnum frexp)) (mk : Z) g (l : R) (k : nat),
  0 < mk -> pmf_used E mk g -> (0 <= l)%R -> Z.of_nat k <= mk ->
  evaluate_pmf E g (Fin l) (Z.of_nat k) = Ok (Fin (exp (- l) * l ^ k / INR (fact k))).
Proof. exact @evaluate_exact. Qed.
Print Assumptions C24_evaluate_pmf.
Theorem C24_compute_array : forall frexp (E : env (Xnum frexp)) (mk : Z) g (l : R) (k : nat),
  0 < mk -> pmf_used E mk g -> (0 <= l)%R -> Z.of_nat k <= mk ->
  exists g', compute_array E g (Z.of_nat k) (Fin l) = Ok g' /\
    length (get_array g') = length (get_array g) /\
    (forall i, (i <= k)%nat -> nth_error (get_array g') i = Some (Fin (exp (- l) * l ^ i / INR (fact i)))) /\
    (forall i, (k < i)%nat -> nth_error (get_array g') i = nth_error (get_array g) i).
Proof. exact @compute_array_exact. Qed.
Print Assumptions C24_compute_array.
Theorem C24_compute_array_throws_iff_negative : forall (N : num) (E : env N) (g : pmfgen N) k lambda mk,
  pmfgen_make E mk = Ok g -> 0 < mk -> 0 <= k <= mk ->
  ((exists e, compute_array E g k lambda = Throw e) <-> n_lt lambda n0 = true) /\
  (n_lt lambda n0 = false -> exists g', compute_array E g k lambda = Ok g').
Proof. exact compute_array_errors. Qed.
Print Assumptions C24_compute_array_throws_iff_negative.
Example C24_case : exists g, pmfgen_make (some_env true) 7 = Ok g.
Proof. exact (pmf_make_returns (some_env true) 7 eq_refl). Qed.
