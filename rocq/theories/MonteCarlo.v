(** * MonteCarlo: model of src/crossprob_mc.cc. *)
From Coq Require Import ZArith List Bool Ascii String.
From Verif Require Import Base Num TinyMT StringUtils.
Local Open Scope string_scope.
Local Open Scope Z_scope.

Section MonteCarlo.
Context {N : num} (E : env N).
Notation T := (car N).

(** src/crossprob_mc.cc:16-32, class RandomNumberGenerator.  Its only member is the
    tinymt64_t; [uninit] is the indeterminate content that member has when the
    constructor calls tinymt64_init. *)
Definition rng_make (uninit : tinymt) (seed : Z) : tinymt := tinymt64_init uninit (u64 seed).
Definition generate_uniform01 (r : tinymt) : T * tinymt := tinymt64_generate_double01 r.
Definition generate_exponential (beta : T) (r : tinymt) : T * tinymt :=
  let '(u, r) := generate_uniform01 r in (n_mul (n_neg beta) (n_log u), r).

(** src/crossprob_mc.cc:47-59; [steps] is a pointer to at least num_steps doubles. *)
Fixpoint any_index (k : nat) (i : Z) (test : Z -> outcome bool) : outcome bool :=
  match k with
  | O => Ok false
  | S k' => t <- test i ;; if t : bool then Ok true else any_index k' (i + 1) test
  end.
Definition does_integer_step_function_cross_lower_boundary (steps : list T) (num_steps : Z)
  (B : list T) : outcome bool :=
  if num_steps <? size B then Ok true
  else any_index (List.length B) 0 (fun i => s <- rd steps i ;; Bi <- rd B i ;; Ok (n_lt Bi s)).

(** src/crossprob_mc.cc:61-73. *)
Definition does_integer_step_function_cross_upper_boundary (steps : list T) (num_steps : Z)
  (b : list T) : outcome bool :=
  if size b <? num_steps then Ok true
  else any_index (Z.to_nat num_steps) 0 (fun i => s <- rd steps i ;; bi <- rd b i ;; Ok (n_lt s bi)).

(** src/crossprob_mc.cc:75-86. *)
Definition does_integer_step_function_cross (steps : list T) (num_steps : Z) (b B : list T)
  : outcome bool :=
  if size b =? 0 then does_integer_step_function_cross_lower_boundary steps num_steps B
  else if (num_steps <? size B) || (size b <? num_steps) then Ok true
  else
    c <- does_integer_step_function_cross_lower_boundary steps num_steps B ;;
    if c : bool then Ok true
    else does_integer_step_function_cross_upper_boundary steps num_steps b.

(** src/crossprob_mc.cc:90-94: partial sums of unit exponentials, from [last_x]. *)
Fixpoint partial_sums (k : nat) (last_x : T) (r : tinymt) : list T * T * tinymt :=
  match k with
  | O => ([], last_x, r)
  | S k' =>
      let '(e, r) := generate_exponential n1 r in
      let x := n_add last_x e in
      let '(l, last, r) := partial_sums k' x r in
      (x :: l, last, r)
  end.

(** src/crossprob_mc.cc:88-100, does_random_ecdf_cross.  tmp_buffer is entirely
    overwritten, so only its length n matters.  [&tmp_buffer[0]] of an empty
    vector is undefined. *)
Definition random_ecdf (n : nat) (r : tinymt) : list T * tinymt :=
  let '(l, last_x, r) := partial_sums n n0 r in
  let '(e, r) := generate_exponential n1 r in
  let normalizing_factor := n_add last_x e in
  (map (fun x => n_div x normalizing_factor) l, r).
Definition does_random_ecdf_cross (b B : list T) (n : nat) (r : tinymt) : outcome (bool * tinymt) :=
  let '(l, r) := random_ecdf n r in
  do addr l 0 ;;
  c <- does_integer_step_function_cross l (size l) b B ;;
  Ok (c, r).

(** The loop for (int reps = 0; reps < num_simulations; ++reps) of lines 115-117
    and 152-154.  [reps] is a 32-bit int that wraps (-fwrapv); num_simulations is
    a 64-bit long.  [bump] is the update of count_crossings.  Running out of [fuel]
    is [Hang]. *)
Fixpoint mc_loop (fuel : nat) (bump : Z -> bool -> outcome Z) (sim : tinymt -> outcome (bool * tinymt))
  (num_simulations : Z) (reps count : Z) (r : tinymt) : outcome Z :=
  if reps <? num_simulations then
    match fuel with
    | O => Hang
    | S fuel =>
        cr <- sim r ;;
        count <- bump count (fst cr) ;;
        mc_loop fuel bump sim num_simulations (wrap32 (reps + 1)) count (snd cr)
    end
  else Ok count.

(** Line 116: int += double (does_random_ecdf_cross returns a double): the sum is
    computed as a double, exactly, and converted back; out of range is undefined.
    Line 153: int += bool, which wraps. *)
Definition add_double (count : Z) (c : bool) : outcome Z :=
  let k := count + Z.b2z c in
  if k <=? INT_MAX then Ok k else Undef "conversion of count_crossings + 1.0 to int out of range".
Definition add_int (count : Z) (c : bool) : outcome Z := Ok (wrap32 (count + Z.b2z c)).

(** src/crossprob_mc.cc:102-120, ecdf_crossing_probability_montecarlo.
    [now] is time(NULL). *)
Definition ecdf_crossing_probability_montecarlo (fuel : nat) (uninit : tinymt) (now : Z)
  (n : Z) (b B : list T) (num_simulations : Z) : outcome T :=
  if n <? size B then Ok n1
  else if (0 <? size b) && (size b <? n) then Ok n1
  else
    let r := rng_make uninit (now + n * 2 ^ 20) in
    c <- mc_loop fuel add_double (does_random_ecdf_cross b B (Z.to_nat n)) num_simulations 0 0 r ;;
    Ok (n_div (n_of_Z c) (n_of_Z num_simulations)).

(** src/crossprob_mc.cc:122-140, does_random_poisson_process_cross; [k] is
    max_steps - num_steps, [steps] the filled prefix of tmp_buffer in reverse. *)
Fixpoint poisson_walk (k : nat) (beta : T) (steps : list T) (last_x : T) (b B : list T)
  (r : tinymt) : outcome (bool * tinymt) :=
  let '(e, r) := generate_exponential beta r in
  let x := n_add last_x e in
  if n_lt n1 x then
    c <- does_integer_step_function_cross (rev steps) (size steps) b B ;; Ok (c, r)
  else match k with
       | O => Ok (true, r)
       | S k' => poisson_walk k' beta (x :: steps) x b B r
       end.
Definition does_random_poisson_process_cross (b B : list T) (beta : T) (r : tinymt)
  : outcome (bool * tinymt) :=
  poisson_walk (List.length b) beta [] n0 b B r.

(** src/crossprob_mc.cc:142-157.  The conversion (int)(intensity*1000000.0) of an
    out-of-range value is undefined behaviour. *)
Definition poisson_process_crossing_probability_montecarlo (fuel : nat) (uninit : tinymt)
  (now : Z) (intensity : T) (b B : list T) (num_simulations : Z) : outcome T :=
  if (0 <? size b) && (size b <? size B) then Ok n1
  else
    k <- match n_trunc (n_mul intensity (n_of_Z 1000000)) with
         | Some k => if (INT_MIN <=? k) && (k <=? INT_MAX) then Ok k
                     else Undef "conversion of intensity*1000000 to int out of range"
         | None => Undef "conversion of intensity*1000000 to int out of range"
         end ;;
    let r := rng_make uninit (now + k) in
    let beta := n_div n1 intensity in
    c <- mc_loop fuel add_int (does_random_poisson_process_cross b B beta) num_simulations 0 0 r ;;
    Ok (n_div (n_of_Z c) (n_of_Z num_simulations)).

(** What a program wrote to stdout: the usage text (not reproduced), or text. *)
Inductive item : Type := Usage | Text (s : string).

(** src/crossprob_mc.cc:192-227, handle_command_line_arguments (argv[0] included
    in [argv]): what was printed, and how it ended. *)
Definition mc_handle (fuel : nat) (uninit : tinymt) (now : Z) (fs : filesystem)
  (argv : list string) : list item * outcome unit :=
  match argv with
  | [_; command; filename; nsim] =>
      match string_to_long nsim with
      | Ok num_simulations =>
          if num_simulations <? 0 then
            ([Usage], Throw (RuntimeError "num-simulations must be non-negative!"))
          else
            match read_and_check_boundaries_file fs filename with
            | Ok (b, B) =>
                let n := Z.max (size b) (size B) in
                if (command =? "poisson")%string then
                  match poisson_process_crossing_probability_montecarlo fuel uninit now
                          (n_of_Z n) b B num_simulations with
                  | Ok crossprob => ([Text (show_double E (n_sub n1 crossprob))], Ok tt)
                  | Throw e => ([], Throw e) | Abort s => ([], Abort s)
                  | Undef s => ([], Undef s) | Hang => ([], Hang)
                  end
                else if (command =? "ecdf")%string then
                  match ecdf_crossing_probability_montecarlo fuel uninit now n b B num_simulations with
                  | Ok crossprob => ([Text (show_double E (n_sub n1 crossprob))], Ok tt)
                  | Throw e => ([], Throw e) | Abort s => ([], Abort s)
                  | Undef s => ([], Undef s) | Hang => ([], Hang)
                  end
                else ([Usage], Throw (RuntimeError "Second command line argument must be 'ecdf' or 'poisson'"))
            | Throw e => ([], Throw e) | Abort s => ([], Abort s)
            | Undef s => ([], Undef s) | Hang => ([], Hang)
            end
      | Throw e => ([], Throw e) | Abort s => ([], Abort s)
      | Undef s => ([], Undef s) | Hang => ([], Hang)
      end
  | _ => ([Usage], Throw (RuntimeError "Expecting 3 command line arguments!"))
  end.

(** src/crossprob_mc.cc:229-243, main: stdout and exit status.  [e.what()] of an
    ios failure is library text, not reproduced. *)
Definition mc_main (fuel : nat) (uninit : tinymt) (now : Z) (fs : filesystem)
  (argv : list string) : outcome (list item * Z) :=
  let '(out, r) := mc_handle fuel uninit now fs argv in
  match r with
  | Ok _ => Ok (out, 0)
  | Throw IosFailure => Ok ((out ++ [Text "ifstream::failure exception caught:"])%list, 1)
  | Throw (RuntimeError w) =>
      Ok ((out ++ [Text "runtime_error exception caught:"; Text w])%list, 2)
  | Abort s => Abort s
  | Undef s => Undef s
  | Hang => Hang
  end.

End MonteCarlo.
