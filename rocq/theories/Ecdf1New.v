(** * Ecdf1New: model of src/ecdf1_new.cc. *)
From Coq Require Import ZArith List Bool String.
From Verif Require Import Base Num Common PoissonPmf FFTConv.
Local Open Scope string_scope.
Local Open Scope Z_scope.

Section Ecdf1New.
Context {N : num} (E : env N).
Notation T := (car N).

(** Local variables that the inner loop (src/ecdf1_new.cc:65-83) changes. *)
Record inner : Type := mkInner {
  in_pmf : pmfgen N;
  in_fft : fftconv N;
  in_mini : dbuf N;          (* minibuffers *)
  in_dest : list T;          (* buffers.get_dest() *)
  in_prev : T                (* i_prev_location *)
}.

(** src/ecdf1_new.cc:71-77, the loop over j. *)
Definition subtract_exits (n : Z) (pg : pmfgen N) (I i : Z) (prob_exit_now lambda : T)
  (dest : list T) : outcome (list T) :=
  for_ (I + 1) (n + 1) dest (fun j dest =>
    d <- rd dest j ;;
    p <- evaluate_pmf E pg lambda (j - i) ;;
    wr dest j (n_sub d (n_mul prob_exit_now p))).

(** src/ecdf1_new.cc:65-83, one iteration of the loop over i. *)
Definition inner_step (n : Z) (intensity : T) (B : list T) (I_prev I i : Z) (s : inner)
  : outcome inner :=
  Bi <- rd B i ;;
  pg <- compute_array E (in_pmf s) (I - i + 1) (n_mul intensity (n_sub Bi (in_prev s))) ;;
  let o := i - I_prev - 1 in
  do addr (get_src (in_mini s)) o ;;
  do addr (get_dest (in_mini s)) o ;;
  fd <- fft_convolve_same_size E (in_fft s) (I - i + 1) (get_array pg) 0
          (get_src (in_mini s)) o (get_dest (in_mini s)) o ;;
  prob_exit_now <- rd (snd fd) o ;;
  BI <- rd B I ;;
  let lambda := n_mul intensity (n_sub BI Bi) in
  dest <- subtract_exits n pg I i prob_exit_now lambda (in_dest s) ;;
  md <- wr (snd fd) o n0 ;;
  ms <- wr (get_src (in_mini s)) o n0 ;;
  Ok (mkInner pg (fst fd) (flip (set_src (set_dest (in_mini s) md) ms)) dest Bi).

(** Local variables that the outer loop (src/ecdf1_new.cc:42-96) changes. *)
Record outer : Type := mkOuter {
  o_bufs : dbuf N;
  o_mini : dbuf N;
  o_fft : fftconv N;
  o_pmf : pmfgen N;
  o_tmp : list T;
  o_prev_loc : T;            (* I_prev_location *)
  o_I_prev : Z;
  o_I : Z
}.

(** src/ecdf1_new.cc:46-88, one iteration of the while loop, up to the [break]
    test; [o_I] is left unchanged and [o_I_prev] becomes I. *)
Definition outer_step (n : Z) (intensity : T) (B : list T) (s : outer) : outcome outer :=
  let I_prev := o_I_prev s in
  let I := o_I s in
  BI <- rd B I ;;
  pg <- compute_array E (o_pmf s) (n - I_prev) (n_mul intensity (n_sub BI (o_prev_loc s))) ;;
  let src := get_src (o_bufs s) in
  do addr src (I_prev + 1) ;;
  ft <- fft_convolve_same_size E (o_fft s) (n - I_prev) (get_array pg) 0 src (I_prev + 1) (o_tmp s) 0 ;;
  let tmp := snd ft in
  do addr (get_dest (o_bufs s)) 0 ;;
  do addr (get_dest (o_bufs s)) (I + 1) ;;
  dest <- fill (get_dest (o_bufs s)) 0 (I + 1) n0 ;;
  dest <- blit tmp (I - I_prev) dest (I + 1) (n - I) ;;
  do addr src (I + 1) ;;
  do addr (get_src (o_mini s)) 0 ;;
  mini <- blit src (I_prev + 1) (get_src (o_mini s)) 0 (I - I_prev) ;;
  r <- for_ (I_prev + 1) I
         (mkInner pg (fst ft) (set_src (o_mini s) mini) dest (o_prev_loc s))
         (fun i s => inner_step n intensity B I_prev I i s) ;;
  Ok (mkOuter (flip (set_dest (o_bufs s) (in_dest r))) (in_mini r) (in_fft r) (in_pmf r)
        tmp BI I I).

(** src/ecdf1_new.cc:42-96, while (true).  [fuel] bounds the number of
    iterations; running out is reported as [Hang]. *)
Fixpoint outer_loop (fuel : nat) (n n_steps jump_size : Z) (intensity : T) (B : list T)
  (s : outer) : outcome outer :=
  match fuel with
  | O => Hang
  | S fuel =>
      s <- outer_step n intensity B s ;;
      if o_I s =? n_steps - 1 then Ok s
      else outer_loop fuel n n_steps jump_size intensity B
             (mkOuter (o_bufs s) (o_mini s) (o_fft s) (o_pmf s) (o_tmp s) (o_prev_loc s)
                (o_I_prev s) (Z.min (o_I s + jump_size) (n_steps - 1)))
  end.

(** src/ecdf1_new.cc:24-112, poisson_B_noncrossing_probability_n2. *)
Definition poisson_B_noncrossing_probability_n2 (fuel : nat) (n : Z) (intensity : T)
  (B : list T) (jump_size : Z) : outcome (list T) :=
  do cassert (asserts E) (jump_size <=? n) "jump_size <= n" ;;
  let buffers := dbuf_make (n + 1) n0 in
  let minibuffers := dbuf_make jump_size n0 in
  src <- wr (get_src buffers) 0 n1 ;;
  let buffers := set_src buffers src in
  let fft := fftconv_make E (n + 1) in
  pg <- pmfgen_make E (n + 1) ;;
  let tmp := alloc_doubles E 10 (n + 1) in
  let n_steps := size B in
  s <- outer_loop fuel n n_steps jump_size intensity B
         (mkOuter buffers minibuffers fft pg tmp n0 (-1) (Z.min (-1 + jump_size) (n_steps - 1))) ;;
  pg <- compute_array E (o_pmf s) (n - n_steps + 1) (n_mul intensity (n_sub n1 (o_prev_loc s))) ;;
  let src := get_src (o_bufs s) in
  do addr src n_steps ;;
  do addr (get_dest (o_bufs s)) n_steps ;;
  fd <- fft_convolve_same_size E (o_fft s) (n - n_steps + 1) (get_array pg) 0 src n_steps
          (get_dest (o_bufs s)) n_steps ;;
  fill (snd fd) 0 n_steps n0.

(** src/ecdf1_new.cc:123, int k = sqrt(n) + 1. *)
Definition jump_size_for (n : Z) : outcome Z :=
  match n_trunc (n_add (n_sqrt (n_of_Z n)) n1 : T) with
  | Some k => if (INT_MIN <=? k) && (k <=? INT_MAX) then Ok k
              else Undef "conversion of sqrt(n)+1 to int out of range"
  | None => Undef "conversion of sqrt(n)+1 to int out of range"
  end.

(** src/ecdf1_new.cc:114-128, ecdf1_new_B.  The fuel is n+1 iterations of the
    while loop; SafeNew.v shows it is never exhausted. *)
Definition ecdf1_new_B (B : list T) : outcome T :=
  let n := size B in
  do check_boundary_vector "B" n B ;;
  k <- jump_size_for n ;;
  probs <- poisson_B_noncrossing_probability_n2 (Z.to_nat (n + 1)) n (n_of_Z n) B k ;;
  pn <- rd probs n ;;
  d <- poisson_pmf E (n_of_Z n) n ;;
  Ok (n_div pn d).

(** src/ecdf1_new.cc:131-143, ecdf1_new_b.  n - b.size() = 0, so the loop starts at 0. *)
Definition ecdf1_new_b (b : list T) : outcome T :=
  let n := size b in
  do check_boundary_vector "b" n b ;;
  steps <- for_ (n - size b) n (vec n n0) (fun i st =>
             x <- rd b (size b - 1 - i) ;; wr st i (n_sub n1 x)) ;;
  ecdf1_new_B steps.

End Ecdf1New.
