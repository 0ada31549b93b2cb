(** * Cost: the amount of work the algorithms do.

    A [costed] computation is an outcome together with the number of elementary steps executed until
    it is reached.  One elementary step is one array access, one addition, subtraction, multiplication,
    division, negation or conversion, one comparison or assertion, one call of exp, log, lgamma, sqrt, pow,
    frexp or ldexp, one iteration of a loop (its test and increment) or one constant-time library
    operation.  The work of FFTW and of std::sort is charged at the [prices] given.

    Each definition below repeats the control flow of the function of the model that it is named after
    and writes the number of steps next to each statement: [op c m] is the statement m, at c steps.
    The second component of a costed function is that function of the model, and Coq checks this by
    computation (the lemmas [.._same]); so a change of the model is a change of what is counted. *)
From Coq Require Import ZArith List Bool String Lia.
From Verif Require Import Base Num Common PoissonPmf FFTConv Ecdf2 Ecdf1New Ecdf1Mns.
Import List. Import ListNotations.
Local Open Scope string_scope.
Local Open Scope Z_scope.

(** What one call of the library costs, as a function of the number of points or elements: executing
    a plan (fftw_execute), creating one (fftw_plan_dft_*_1d with FFTW_ESTIMATE) and sorting. *)
Record prices : Type := mkPrices { p_fft : Z -> Z; p_plan : Z -> Z; p_sort : Z -> Z }.

Definition costed (A : Type) : Type := (Z * outcome A)%type.
Definition steps {A} (m : costed A) : Z := fst m.
Definition result {A} (m : costed A) : outcome A := snd m.

(** The statement m, at c steps. *)
Definition op {A} (c : Z) (m : outcome A) : costed A := (c, m).

(** Sequencing: what follows is executed, and paid for, only if the first part returns. *)
Definition cbind {A B} (m : costed A) (k : A -> costed B) : costed B :=
  (fst m + match snd m with Ok a => fst (k a) | _ => 0 end, bind (snd m) (fun a => snd (k a))).
Notation "x <== m ;; k" := (cbind m (fun x => k)) (at level 61, m at next level, right associativity) : cpp_scope.
Notation "'run' m ;; k" := (cbind m (fun _ => k)) (at level 61, m at next level, right associativity) : cpp_scope.

(** if, at one step for the test. *)
Definition cif {A} (c : bool) (x y : costed A) : costed A :=
  (1 + (if c then fst x else fst y), if c then snd x else snd y).

(** Taking a pair apart is free. *)
Definition cpair {A B C} (u : A * B) (k : A -> B -> costed C) : costed C :=
  (let '(a, b) := u in fst (k a b), let '(a, b) := u in snd (k a b)).

(** Loops: one step for every iteration, and what the body costs. *)
Fixpoint loop_steps {S} (k : nat) (i : Z) (body : Z -> S -> costed S) (s : S) : Z :=
  match k with
  | O => 0
  | Datatypes.S k' =>
      1 + fst (body i s) + match snd (body i s) with Ok s' => loop_steps k' (i + 1) body s' | _ => 0 end
  end.
Definition cfor {S} (lo hi : Z) (s : S) (body : Z -> S -> costed S) : costed S :=
  (1 + loop_steps (Z.to_nat (hi - lo)) lo body s, for_ lo hi s (fun i s => snd (body i s))).

Fixpoint loop_down_steps {S} (k : nat) (i : Z) (body : Z -> S -> costed S) (s : S) : Z :=
  match k with
  | O => 0
  | Datatypes.S k' =>
      1 + fst (body i s) + match snd (body i s) with Ok s' => loop_down_steps k' (i - 1) body s' | _ => 0 end
  end.
Definition cfor_down {S} (hi lo : Z) (s : S) (body : Z -> S -> costed S) : costed S :=
  (1 + loop_down_steps (Z.to_nat (hi - lo + 1)) hi body s, for_down hi lo s (fun i s => snd (body i s))).

Fixpoint each_steps {A S} (l : list A) (s : S) (body : A -> S -> costed S) : Z :=
  match l with
  | [] => 0
  | x :: r => 1 + fst (body x s) + match snd (body x s) with Ok s' => each_steps r s' body | _ => 0 end
  end.
Definition ceach {A S} (l : list A) (s : S) (body : A -> S -> costed S) : costed S :=
  (1 + each_steps l s body, for_each l s (fun x s => snd (body x s))).

(** memcpy, std::copy, std::fill and memset: element by element. *)
Definition cblit {A} (src : list A) (so : Z) (dst : list A) (do_ len : Z) : costed (list A) :=
  cfor 0 len dst (fun k dst => x <== op 1 (rd src (so + k)) ;; op 1 (wr dst (do_ + k) x)).
Definition cfill {A} (a : list A) (lo hi : Z) (v : A) : costed (list A) :=
  cfor lo hi a (fun k a => op 1 (wr a k v)).

Section Cost.
Context {N : num} (E : env N) (P : prices).
Notation T := (car N).

(** ** src/common.cc *)

(** lines 9-19, is_monotone_increasing: the loop stops at the first descent. *)
Fixpoint monotone_steps (prev : T) (v : list T) : Z :=
  match v with
  | [] => 1
  | x :: r => 3 + (if n_lt x prev then 0 else monotone_steps x r)
  end.

(** lines 21-40, check_boundary_vector: the comparison of the lengths and, if they agree,
    is_monotone_increasing; and three tests with two accesses, or the construction of a message. *)
Definition c_check (name : string) (n : Z) (v : list T) : costed unit :=
  op (1 + (if size v =? n then monotone_steps n_ninf v else 0) + 10) (check_boundary_vector name n v).

(** lines 42-51, convolve_same_size (convolve_same_size_naive, src/fftwconvolver.cc:44-54). *)
Definition c_convolve (sz : Z) (src0 : list T) (o0 : Z) (src1 : list T) (o1 : Z) (dest : list T) (od : Z)
  : costed (list T) :=
  cfor 0 sz dest (fun j dest =>
    acc <== cfor 0 (j + 1) n0 (fun k acc =>
              x <== op 1 (rd src0 (o0 + k)) ;;
              y <== op 1 (rd src1 (o1 + (j - k))) ;;
              op 2 (Ok (n_add acc (n_mul x y)))) ;;
    op 1 (wr dest (od + j) acc)).

(** ** src/poisson_pmf.hh and src/poisson_pmf.cc *)

(** poisson_pmf.hh:9-18: two assertions, a test, log, lgamma and the seven operations of the formula. *)
Definition c_poisson_pmf (lambda : T) (k : Z) : costed T := op 12 (poisson_pmf E lambda k).

(** poisson_pmf.cc:10-23, the constructor.  Its two malloc calls cost one step each. *)
Definition c_pmfgen_make (max_k : Z) : costed (pmfgen N) :=
  run op 1 (cassert (asserts E) (0 <? max_k) "PoissonPMFGenerator: max_k > 0") ;;
  lut <== cfor 0 (max_k + 2) (alloc_doubles E 0 (max_k + 2)) (fun i a => op 2 (wr a i (n_lgamma i))) ;;
  arr <== cfor 0 (max_k + 1) (alloc_doubles E 1 (max_k + 1)) (fun i a => op 1 (wr a i n0)) ;;
  op 2 (Ok (mkPmfgen max_k lut arr)).

(** poisson_pmf.hh:25-35, evaluate_pmf. *)
Definition c_evaluate_pmf (g : pmfgen N) (lambda : T) (k : Z) : costed T :=
  op 12 (evaluate_pmf E g lambda k).

(** poisson_pmf.cc:32-52, compute_array. *)
Definition c_compute_array (g : pmfgen N) (k : Z) (lambda : T) : costed (pmfgen N) :=
  run op 1 (cassert (asserts E) (0 <=? k) "compute_array: k >= 0") ;;
  run op 1 (cassert (asserts E) (k <=? pg_max_k g) "compute_array: k <= max_k") ;;
  cif (n_lt lambda n0)
    (op 1 (Throw (RuntimeError "Expecting lambda>0 in PoissonPMFGenerator::compute_array()")))
    (cif (n_eq lambda n0)
       (a <== op 1 (wr (pmf_array g) 0 n1) ;;
        a <== cfor 1 (k + 1) a (fun i a => op 1 (wr a i n0)) ;;
        op 1 (Ok (mkPmfgen (pg_max_k g) (log_gamma_LUT g) a)))
       (let log_lambda := n_log lambda in
        a <== cfor 0 (k + 1) (pmf_array g) (fun i a =>
                lg <== op 1 (rd (log_gamma_LUT g) (i + 1)) ;;
                op 7 (wr a i (pmf_formula lambda log_lambda lg i))) ;;
        op 2 (Ok (mkPmfgen (pg_max_k g) (log_gamma_LUT g) a)))).

(** ** src/fftwconvolver.cc *)

(** lines 28-42 and 146-167, the constructor and the destructor: two vectors of NULL plans, which the
    destructor runs through, five malloc and five free calls. *)
Definition fftconv_make_steps (max_in : Z) : Z :=
  10 + 4 * Z.quot (round_up (2 * max_in) ROUNDING) ROUNDING.

(** lines 68-96, memoized_r2c_plan and memoized_c2r_plan. *)
Definition c_memoized_plan (plans : list (option Z)) (rounded_size : Z) : costed (list (option Z) * Z) :=
  run op 1 (cassert (asserts E) (0 <? rounded_size) "memoized_plan: rounded_size > 0") ;;
  run op 2 (cassert (asserts E) (Z.rem rounded_size ROUNDING =? 0) "memoized_plan: rounded_size % ROUNDING == 0") ;;
  let index := Z.quot rounded_size ROUNDING - 1 in
  run op 3 (cassert (asserts E) (index <? size plans) "memoized_plan: index < plans.size()") ;;
  p <== op 1 (rd plans index) ;;
  op (match p with Some _ => 2 | None => 3 + p_plan P rounded_size end)
     (match p with
      | Some sz => Ok (plans, sz)
      | None => plans <- wr plans index (Some rounded_size) ;; Ok (plans, rounded_size)
      end).

(** lines 98-103, copy_zero_padded. *)
Definition c_copy_zero_padded (src : list T) (so : Z) (dest : list T) (src_size dest_size : Z) : costed (list T) :=
  dest <== cblit src so dest 0 src_size ;;
  cfill dest src_size dest_size n0.

(** lines 56-66, elementwise_complex_product: two accesses, two multiplications for the scaling, four
    multiplications, an addition and a subtraction for the product, and the assignment. *)
Definition c_elementwise (sz : Z) (src0 src1 dest : list (cplx N)) (c : T) : costed (list (cplx N)) :=
  cfor 0 sz dest (fun i dest =>
    x <== op 1 (rd src0 i) ;; y <== op 1 (rd src1 i) ;; op 9 (wr dest i (cmul (cscale c x) y))).

(** lines 105-144, FFTWConvolver::convolve_same_size. *)
Definition c_fft_convolve (f : fftconv N) (sz : Z) (a : list T) (oa : Z) (b : list T) (ob : Z)
  (output : list T) (oo : Z) : costed (fftconv N * list T) :=
  cif (maximum_input_size f <? sz)
    (op 1 (Throw (RuntimeError (msg_too_big sz (maximum_input_size f)))))
  (cif (sz <=? 0)
    (op 0 (Ok (f, output)))
  (cif (sz <? MINIMUM_SIZE_FOR_FFTW_CONVOLUTION)
    (output <== c_convolve sz a oa b ob output oo ;; op 0 (Ok (f, output)))
    (let padded_size := round_up (2 * sz) ROUNDING in
     inp <== c_copy_zero_padded a oa (r2c_in f) sz padded_size ;;
     pl <== c_memoized_plan (r2c_plans f) padded_size ;;
     rc <== op (p_fft P (snd pl)) (execute_r2c E 7 (snd pl) inp (tmp_complex f)) ;;
     let inp := fst rc in
     let tmpc := snd rc in
     let plans_r := fst pl in
     inp <== c_copy_zero_padded b ob inp sz padded_size ;;
     pl <== c_memoized_plan plans_r padded_size ;;
     rc <== op (p_fft P (snd pl)) (execute_r2c E 8 (snd pl) inp (r2c_out f)) ;;
     let inp := fst rc in
     let outc := snd rc in
     let plans_r := fst pl in
     cin <== c_elementwise (Z.quot padded_size 2 + 1) tmpc outc (c2r_in f)
               (n_div n1 (n_of_Z padded_size)) ;;
     plc <== c_memoized_plan (c2r_plans f) padded_size ;;
     cr <== op (p_fft P (snd plc)) (execute_c2r E 9 (snd plc) cin (c2r_out f)) ;;
     output <== cblit (snd cr) 0 output oo sz ;;
     op 4 (Ok (mkFftconv (maximum_input_size f) inp outc (fst cr) (snd cr) tmpc plans_r (fst plc), output))))).

(** ** src/ecdf2.cc *)

(** lines 34-60, join_all_bounds: three steps for every push_back, the sort, and the last push_back. *)
Definition c_join (b B : list T) : costed (list (bound N)) :=
  op (4 * (size b + size B) + p_sort P (size b + size B) + 4) (join_all_bounds E b B).

(** lines 94-114, one iteration of the loop.  update_dest_buffer_and_step_counts (lines 62-76) costs four
    steps. *)
Definition c_e2_step (intensity : T) (use_fft : bool) (bd : bound N) (s : e2state N) : costed (e2state N) :=
  let cur_size := e2_b s - e2_B s + 1 in
  let lambda := n_mul intensity (n_sub (location bd) (e2_prev s)) in
  run op 5 (Ok tt) ;;
  cif (n_lt n0 lambda)
    (pg <== c_compute_array (e2_pmf s) cur_size lambda ;;
     let src := get_src (e2_buffers s) in
     let dest := get_dest (e2_buffers s) in
     run op 1 (addr src (e2_B s)) ;;
     run op 1 (addr dest (e2_B s)) ;;
     fd <== cif use_fft
              (c_fft_convolve (e2_fft s) cur_size (get_array pg) 0 src (e2_B s) dest (e2_B s))
              (dest <== c_convolve cur_size (get_array pg) 0 src (e2_B s) dest (e2_B s) ;;
               op 0 (Ok (e2_fft s, dest))) ;;
     u <== op 4 (update_dest_buffer_and_step_counts (tag bd) (snd fd) (e2_b s) (e2_B s)) ;;
     op 2 (let '(dest, b', B') := u in
           Ok (mkE2 (flip (set_dest (e2_buffers s) dest)) (fst fd) pg b' B' (location bd))))
    (cif (n_eq lambda n0)
      (u <== op 4 (update_dest_buffer_and_step_counts (tag bd) (get_src (e2_buffers s)) (e2_b s) (e2_B s)) ;;
       op 2 (let '(src, b', B') := u in
             Ok (mkE2 (set_src (e2_buffers s) src) (e2_fft s) (e2_pmf s) b' B' (location bd))))
      (op 1 (Throw (RuntimeError msg_lambda)))).

(** lines 78-116, poisson_process_noncrossing_probability.  The two buffers cost 2(n+1) steps, the vector
    returned n+1. *)
Definition c_poisson_process (n : Z) (intensity : T) (b B : list T) (use_fft : bool) : costed (list T) :=
  bounds <== c_join b B ;;
  let buffers := dbuf_make (n + 1) n0 in
  src <== op (2 * (n + 1) + 1) (wr (get_src buffers) 0 n1) ;;
  let buffers := set_src buffers src in
  run op (fftconv_make_steps (n + 1)) (Ok tt) ;;
  let fft := fftconv_make E (n + 1) in
  pg <== c_pmfgen_make (n + 1) ;;
  s <== ceach bounds (mkE2 buffers fft pg 0 0 n0) (c_e2_step intensity use_fft) ;;
  op (n + 1 + 4) (Ok (get_src (e2_buffers s))).

(** lines 118-127, ecdf2. *)
Definition c_ecdf2 (b B : list T) (use_fft : bool) : costed T :=
  let n := size b in
  run c_check "b" n b ;;
  run c_check "B" n B ;;
  probs <== c_poisson_process n (n_of_Z n) b B use_fft ;;
  pn <== op 1 (rd probs n) ;;
  d <== c_poisson_pmf (n_of_Z n) n ;;
  op 3 (Ok (n_div pn d)).

(** ** src/ecdf1_new.cc *)

(** lines 71-77, the loop over j. *)
Definition c_subtract_exits (n : Z) (pg : pmfgen N) (I i : Z) (prob_exit_now lambda : T) (dest : list T)
  : costed (list T) :=
  cfor (I + 1) (n + 1) dest (fun j dest =>
    d <== op 1 (rd dest j) ;;
    p <== c_evaluate_pmf pg lambda (j - i) ;;
    op 4 (wr dest j (n_sub d (n_mul prob_exit_now p)))).

(** lines 65-83, one iteration of the loop over i. *)
Definition c_inner_step (n : Z) (intensity : T) (B : list T) (I_prev I i : Z) (s : inner (N := N))
  : costed (inner (N := N)) :=
  Bi <== op 1 (rd B i) ;;
  pg <== c_compute_array (in_pmf s) (I - i + 1) (n_mul intensity (n_sub Bi (in_prev s))) ;;
  let o := i - I_prev - 1 in
  run op 1 (addr (get_src (in_mini s)) o) ;;
  run op 1 (addr (get_dest (in_mini s)) o) ;;
  fd <== c_fft_convolve (in_fft s) (I - i + 1) (get_array pg) 0 (get_src (in_mini s)) o (get_dest (in_mini s)) o ;;
  prob_exit_now <== op 1 (rd (snd fd) o) ;;
  BI <== op 1 (rd B I) ;;
  let lambda := n_mul intensity (n_sub BI Bi) in
  dest <== c_subtract_exits n pg I i prob_exit_now lambda (in_dest s) ;;
  md <== op 1 (wr (snd fd) o n0) ;;
  ms <== op 1 (wr (get_src (in_mini s)) o n0) ;;
  op 20 (Ok (mkInner pg (fst fd) (flip (set_src (set_dest (in_mini s) md) ms)) dest Bi)).

(** lines 46-88, one iteration of the while loop. *)
Definition c_outer_step (n : Z) (intensity : T) (B : list T) (s : outer (N := N)) : costed (outer (N := N)) :=
  let I_prev := o_I_prev s in
  let I := o_I s in
  BI <== op 1 (rd B I) ;;
  pg <== c_compute_array (o_pmf s) (n - I_prev) (n_mul intensity (n_sub BI (o_prev_loc s))) ;;
  let src := get_src (o_bufs s) in
  run op 1 (addr src (I_prev + 1)) ;;
  ft <== c_fft_convolve (o_fft s) (n - I_prev) (get_array pg) 0 src (I_prev + 1) (o_tmp s) 0 ;;
  let tmp := snd ft in
  run op 1 (addr (get_dest (o_bufs s)) 0) ;;
  run op 1 (addr (get_dest (o_bufs s)) (I + 1)) ;;
  dest <== cfill (get_dest (o_bufs s)) 0 (I + 1) n0 ;;
  dest <== cblit tmp (I - I_prev) dest (I + 1) (n - I) ;;
  run op 1 (addr src (I + 1)) ;;
  run op 1 (addr (get_src (o_mini s)) 0) ;;
  mini <== cblit src (I_prev + 1) (get_src (o_mini s)) 0 (I - I_prev) ;;
  r <== cfor (I_prev + 1) I
          (mkInner pg (fst ft) (set_src (o_mini s) mini) dest (o_prev_loc s))
          (fun i s => c_inner_step n intensity B I_prev I i s) ;;
  op 30 (Ok (mkOuter (flip (set_dest (o_bufs s) (in_dest r))) (in_mini r) (in_fft r) (in_pmf r)
               tmp BI I I)).

(** lines 42-96, while (true): the test of the break and the minimum cost five steps. *)
Fixpoint outer_steps (fuel : nat) (n n_steps jump_size : Z) (intensity : T) (B : list T)
  (s : outer (N := N)) : Z :=
  match fuel with
  | O => 0
  | S fuel =>
      fst (c_outer_step n intensity B s) +
      match snd (c_outer_step n intensity B s) with
      | Ok s =>
          5 + (if o_I s =? n_steps - 1 then 0
               else outer_steps fuel n n_steps jump_size intensity B
                      (mkOuter (o_bufs s) (o_mini s) (o_fft s) (o_pmf s) (o_tmp s) (o_prev_loc s)
                         (o_I_prev s) (Z.min (o_I s + jump_size) (n_steps - 1))))
      | _ => 0
      end
  end.
Definition c_outer_loop (fuel : nat) (n n_steps jump_size : Z) (intensity : T) (B : list T)
  (s : outer (N := N)) : costed (outer (N := N)) :=
  op (outer_steps fuel n n_steps jump_size intensity B s) (outer_loop E fuel n n_steps jump_size intensity B s).

(** lines 24-112, poisson_B_noncrossing_probability_n2. *)
Definition c_n2 (fuel : nat) (n : Z) (intensity : T) (B : list T) (jump_size : Z) : costed (list T) :=
  run op 1 (cassert (asserts E) (jump_size <=? n) "jump_size <= n") ;;
  let buffers := dbuf_make (n + 1) n0 in
  let minibuffers := dbuf_make jump_size n0 in
  src <== op (2 * (n + 1) + 2 * jump_size + 1) (wr (get_src buffers) 0 n1) ;;
  let buffers := set_src buffers src in
  run op (fftconv_make_steps (n + 1)) (Ok tt) ;;
  let fft := fftconv_make E (n + 1) in
  pg <== c_pmfgen_make (n + 1) ;;
  run op 5 (Ok tt) ;;
  let tmp := alloc_doubles E 10 (n + 1) in
  let n_steps := size B in
  s <== c_outer_loop fuel n n_steps jump_size intensity B
          (mkOuter buffers minibuffers fft pg tmp n0 (-1) (Z.min (-1 + jump_size) (n_steps - 1))) ;;
  pg <== c_compute_array (o_pmf s) (n - n_steps + 1) (n_mul intensity (n_sub n1 (o_prev_loc s))) ;;
  let src := get_src (o_bufs s) in
  run op 1 (addr src n_steps) ;;
  run op 1 (addr (get_dest (o_bufs s)) n_steps) ;;
  fd <== c_fft_convolve (o_fft s) (n - n_steps + 1) (get_array pg) 0 src n_steps
           (get_dest (o_bufs s)) n_steps ;;
  run op (n + 1 + 10) (Ok tt) ;;   (* free, and the vector returned *)
  cfill (snd fd) 0 n_steps n0.

(** lines 114-128, ecdf1_new_B.  int k = sqrt(n) + 1 costs four steps. *)
Definition c_new_B (B : list T) : costed T :=
  let n := size B in
  run c_check "B" n B ;;
  k <== op 4 (jump_size_for (N := N) n) ;;
  probs <== c_n2 (Z.to_nat (n + 1)) n (n_of_Z n) B k ;;
  pn <== op 1 (rd probs n) ;;
  d <== c_poisson_pmf (n_of_Z n) n ;;
  op 3 (Ok (n_div pn d)).

(** lines 131-143, ecdf1_new_b. *)
Definition c_new_b (b : list T) : costed T :=
  let n := size b in
  run c_check "b" n b ;;
  run op n (Ok tt) ;;              (* the vector symmetric_steps *)
  steps <== cfor (n - size b) n (vec n n0) (fun i st =>
              x <== op 1 (rd b (size b - 1 - i)) ;; op 2 (wr st i (n_sub n1 x))) ;;
  c_new_B steps.

(** ** src/ecdf1_mns2016.cc *)
Section Mns.
Context {F : num}.

(** lines 93-101 and 103-107: two malloc, two memset, two free. *)
Definition c_ptm_make (max_degree : Z) : costed (ptm F) :=
  op (5 + 2 * (max_degree + 1)) (ptm_make E max_degree).

(** lines 132-139. *)
Definition c_evaluate (p : ptm F) (x : car F) : costed (car F) :=
  cfor 0 (degree p + 1) n0 (fun i result =>
    m <== op 1 (rd (mult p) i) ;;
    a <== op 1 (rd (addc p) i) ;;
    op 4 (Ok (n_add result (n_mul m (n_pow (n_add x a) i))))).

(** lines 141-151. *)
Definition c_integrate (p : ptm F) : costed (ptm F) :=
  ma <== cfor_down (degree p + 1) 1 (mult p, addc p) (fun i ma =>
           cpair ma (fun m a =>
             x <== op 1 (rd m (i - 1)) ;;
             m <== op 3 (wr m i (n_div x (n_of_Z i))) ;;
             y <== op 1 (rd a (i - 1)) ;;
             a <== op 1 (wr a i y) ;;
             op 0 (Ok (m, a)))) ;;
  cpair ma (fun m a =>
    a <== op 1 (wr a 1 n0) ;;
    a <== op 1 (wr a 0 n0) ;;
    m <== op 1 (wr m 0 n0) ;;
    op 1 (Ok (mkPtm (degree p + 1) m a))).

(** lines 153-158. *)
Definition c_ldexp_all (p : ptm F) (e : Z) : costed (ptm F) :=
  m <== cfor 0 (degree p + 1) (mult p) (fun i m =>
          x <== op 1 (rd m i) ;; op 2 (wr m i (n_ldexp x e))) ;;
  op 0 (Ok (mkPtm (degree p) m (addc p))).

(** lines 177-188: an access with its two assertions, and a comparison. *)
Definition c_maximum (p : ptm F) : costed (car F) :=
  run op 1 (cassert (asserts E) (1 <=? degree p) "p.degree >= 1") ;;
  m0 <== op 3 (get_multiplicative_coefficient E p 0) ;;
  cfor 0 (degree p + 1) m0 (fun i m =>
    x <== op 3 (get_multiplicative_coefficient E p i) ;;
    op 2 (Ok (if n_lt m x then x else m))).
End Mns.

Section MnsMain.
Variable LD : long_double N.
Notation F := (ld LD).

(** lines 210-227, one iteration of the loop over i. *)
Definition c_mns_step (b : list T) (i : Z) (s : ptm F * Z) : costed (ptm F * Z) :=
  cpair s (fun p total_exponent_delta =>
    p <== c_integrate p ;;
    bi <== op 2 (rd b i) ;;
    p <== op 5 (set_additive_coefficient E p 1 (widen LD (n_neg bi))) ;;
    v <== c_evaluate p (widen LD bi) ;;
    p <== op 5 (set_multiplicative_coefficient E p 0 (n_neg v)) ;;
    cif (Z.rem i NUM_ITERATIONS_BETWEEN_EXP_FIXES =? 0)
      (max_coef <== c_maximum p ;;
       let highest_exponent := extract_exponent max_coef in
       run op 2 (Ok tt) ;;
       cif (highest_exponent <? 0)
         (p <== c_ldexp_all p (0 - highest_exponent) ;;
          op 3 (Ok (p, total_exponent_delta + (0 - highest_exponent))))
         (op 0 (Ok (p, total_exponent_delta))))
      (op 0 (Ok (p, total_exponent_delta)))).

(** lines 197-242, ecdf1_mns2016_b. *)
Definition c_mns_b (b : list T) : costed T :=
  let n := size b in
  run c_check "b" n b ;;
  p <== c_ptm_make (n + 1) ;;
  p <== op 3 (set_multiplicative_coefficient E p 0 n1) ;;
  s <== cfor 0 n (p, 0) (c_mns_step b) ;;
  cpair s (fun p total_exponent_delta =>
    integral_result <== c_evaluate p n1 ;;
    let log_integral_result := n_log integral_result in
    op 10 (Ok (narrow LD (n_exp (n_sub (n_add (n_lgamma (n + 1)) log_integral_result)
                                (n_mul (n_of_Z total_exponent_delta) (n_log (n_of_Z 2)))))))).
End MnsMain.

Definition c_mns2016_b (b : list T) : costed T := c_mns_b (long_dbl E) b.

(** lines 244-255, ecdf1_mns2016_B. *)
Definition c_mns2016_B (B : list T) : costed T :=
  let n := size B in
  run c_check "B" n B ;;
  run op n (Ok tt) ;;
  steps <== cfor 0 n (vec n n0) (fun i st =>
              x <== op 1 (rd B (n - 1 - i)) ;; op 2 (wr st i (n_sub n1 x))) ;;
  c_mns2016_b steps.

(** ** What is counted is what the model computes *)
Lemma ecdf2_same b B use_fft : snd (c_ecdf2 b B use_fft) = ecdf2 E b B use_fft.
Proof. reflexivity. Qed.
Lemma new_B_same B : snd (c_new_B B) = ecdf1_new_B E B.
Proof. reflexivity. Qed.
Lemma new_b_same b : snd (c_new_b b) = ecdf1_new_b E b.
Proof. reflexivity. Qed.
Lemma mns_b_same b : snd (c_mns2016_b b) = ecdf1_mns2016_b E b.
Proof. reflexivity. Qed.
Lemma mns_B_same B : snd (c_mns2016_B B) = ecdf1_mns2016_B E B.
Proof. reflexivity. Qed.
Lemma outer_step_same n intensity B s : snd (c_outer_step n intensity B s) = outer_step E n intensity B s.
Proof. reflexivity. Qed.
End Cost.
