(** * Ecdf2: model of src/ecdf2.cc. *)
From Coq Require Import ZArith List Bool String Permutation Sorted.
From Verif Require Import Base Num Common PoissonPmf FFTConv.
Local Open Scope string_scope.
Local Open Scope Z_scope.

Section Ecdf2.
Context {N : num} (E : env N).
Notation T := (car N).

(** src/ecdf2.cc:28-32, operator<: locations only, ties are equivalent. *)
Definition bound_lt (x y : bound N) : bool := n_lt (location x) (location y).

(** std::sort requires its comparator to be a strict weak ordering of the range
    ([alg.sorting]); otherwise the behaviour is undefined.  This is that
    requirement, checked over the elements of the range. *)
Definition strict_weak_order_on (l : list (bound N)) : bool :=
  forallb (fun x =>
    negb (bound_lt x x) &&
    forallb (fun y => forallb (fun z =>
      (negb (bound_lt x y && bound_lt y z) || bound_lt x z) &&
      (negb (negb (bound_lt x y) && negb (bound_lt y x) &&
             negb (bound_lt y z) && negb (bound_lt z y))
       || (negb (bound_lt x z) && negb (bound_lt z x)))) l) l) l.

Definition std_sort (l : list (bound N)) : outcome (list (bound N)) :=
  if strict_weak_order_on l then Ok (sort_bounds E l)
  else Undef "std::sort: comparator is not a strict weak ordering".

(** src/ecdf2.cc:34-60, join_all_bounds. *)
Definition join_all_bounds (b B : list T) : outcome (list (bound N)) :=
  sorted <- std_sort (map (fun x => mkBound x bSTEP) b ++ map (fun x => mkBound x BSTEP) B)%list ;;
  Ok (sorted ++ [mkBound n1 END])%list.

(** src/ecdf2.cc:62-76, update_dest_buffer_and_step_counts.  The [else] branch
    cannot throw: the only remaining tag is END. *)
Definition update_dest_buffer_and_step_counts (t : bound_tag) (dest : list T)
  (b_step_count B_step_count : Z) : outcome (list T * Z * Z) :=
  match t with
  | bSTEP =>
      let b_step_count := b_step_count + 1 in
      dest <- wr dest b_step_count n0 ;; Ok (dest, b_step_count, B_step_count)
  | BSTEP =>
      dest <- wr dest B_step_count n0 ;; Ok (dest, b_step_count, B_step_count + 1)
  | END => Ok (dest, b_step_count, B_step_count)
  end.

(** The local variables of poisson_process_noncrossing_probability. *)
Record e2state : Type := mkE2 {
  e2_buffers : dbuf N;
  e2_fft : fftconv N;
  e2_pmf : pmfgen N;
  e2_b : Z;                 (* b_step_count *)
  e2_B : Z;                 (* B_step_count *)
  e2_prev : T               (* prev_location *)
}.

Definition msg_lambda : string :=
  "lambda<0 in poisson_process_noncrossing_probability(). This should never happen.".

(** src/ecdf2.cc:94-114, one iteration of the loop. *)
Definition e2_step (intensity : T) (use_fft : bool) (bd : bound N) (s : e2state)
  : outcome e2state :=
  let cur_size := e2_b s - e2_B s + 1 in
  let lambda := n_mul intensity (n_sub (location bd) (e2_prev s)) in
  if n_lt n0 lambda then
    pg <- compute_array E (e2_pmf s) cur_size lambda ;;
    let src := get_src (e2_buffers s) in
    let dest := get_dest (e2_buffers s) in
    do addr src (e2_B s) ;;
    do addr dest (e2_B s) ;;
    fd <- (if use_fft
           then fft_convolve_same_size E (e2_fft s) cur_size (get_array pg) 0 src (e2_B s) dest (e2_B s)
           else dest <- convolve_same_size cur_size (get_array pg) 0 src (e2_B s) dest (e2_B s) ;;
                Ok (e2_fft s, dest)) ;;
    u <- update_dest_buffer_and_step_counts (tag bd) (snd fd) (e2_b s) (e2_B s) ;;
    let '(dest, b', B') := u in
    Ok (mkE2 (flip (set_dest (e2_buffers s) dest)) (fst fd) pg b' B' (location bd))
  else if n_eq lambda n0 then
    u <- update_dest_buffer_and_step_counts (tag bd) (get_src (e2_buffers s)) (e2_b s) (e2_B s) ;;
    let '(src, b', B') := u in
    Ok (mkE2 (set_src (e2_buffers s) src) (e2_fft s) (e2_pmf s) b' B' (location bd))
  else Throw (RuntimeError msg_lambda).

(** src/ecdf2.cc:78-116, poisson_process_noncrossing_probability. *)
Definition poisson_process_noncrossing_probability (n : Z) (intensity : T)
  (b B : list T) (use_fft : bool) : outcome (list T) :=
  bounds <- join_all_bounds b B ;;
  let buffers := dbuf_make (n + 1) n0 in
  src <- wr (get_src buffers) 0 n1 ;;
  let buffers := set_src buffers src in
  let fft := fftconv_make E (n + 1) in
  pg <- pmfgen_make E (n + 1) ;;
  s <- for_each bounds (mkE2 buffers fft pg 0 0 n0) (e2_step intensity use_fft) ;;
  Ok (get_src (e2_buffers s)).

(** src/ecdf2.cc:118-127, ecdf2. *)
Definition ecdf2 (b B : list T) (use_fft : bool) : outcome T :=
  let n := size b in
  do check_boundary_vector "b" n b ;;
  do check_boundary_vector "B" n B ;;
  probs <- poisson_process_noncrossing_probability n (n_of_Z n) b B use_fft ;;
  pn <- rd probs n ;;
  d <- poisson_pmf E (n_of_Z n) n ;;
  Ok (n_div pn d).

(** What the C++ standard promises about std::sort, given a strict weak ordering:
    the result is a permutation of the input in which no element is less than an
    earlier one.  Nothing is promised about ties (std::sort is not stable). *)
Definition sort_ok : Prop :=
  forall l, strict_weak_order_on l = true ->
    Permutation l (sort_bounds E l) /\
    StronglySorted (fun x y => bound_lt y x = false) (sort_bounds E l).

End Ecdf2.
Arguments e2state N : clear implicits.
