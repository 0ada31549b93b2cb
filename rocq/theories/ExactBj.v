(** * ExactBj: model of the statistical part of benchmarks/exactbj.py (lines 27-104).

    The functions compute the one-sided Berk-Jones statistic M_n+, its distribution through the Python module,
    and the threshold of a given level.  scipy's betainc and betaincinv are parameters.  Not modelled: the debug
    prints of inverse_Mn_plus, Timer, the plot_* functions (the precalc_* functions are in BjBench.v), and that X.sort() in
    Mn_plus_statistic also reorders the caller's sample when that is a numpy array. *)
From Coq Require Import ZArith List Bool String.
From Verif Require Import Base Num Ecdf1New Cli.
Local Open Scope string_scope.
Local Open Scope Z_scope.

(** What running a Python expression results in. *)
Inductive script (A : Type) : Type :=
| Value (a : A)
| Exception (name : string)
| Killed                       (* abort() or undefined behaviour in the extension module *)
| Stuck.                       (* never returns *)
Arguments Value {A}. Arguments Exception {A}. Arguments Killed {A}. Arguments Stuck {A}.
Definition sbind {A B} (s : script A) (k : A -> script B) : script B :=
  match s with Value a => k a | Exception n => Exception n | Killed => Killed | Stuck => Stuck end.

Section ExactBj.
Context {N : num} (E : env N).
Notation T := (car N).
Context (betainc betaincinv : Z -> Z -> T -> T).

(** A call of the module crossprob (src/crossprob.i:66-76). *)
Definition call (o : outcome T) : script T :=
  match py_call o with
  | PyFloat x => Value x
  | PyRuntimeError _ => Exception "RuntimeError"
  | PyProcessDies => Killed
  | PyNeverReturns => Stuck
  end.

(** benchmarks/exactbj.py:27-39. *)
Definition _uniform_order_statistic_cdf (i n : Z) (x : T) : T := betainc i (n - i + 1) x.

(** numpy's arange(a, a + k) *)
Fixpoint arange (a : Z) (k : nat) : list Z := match k with O => [] | S k => a :: arange (a + 1) k end.

(** numpy's sort and min.  The values sorted are in [0,1] (line 43); min returns NaN if one of the values is. *)
Fixpoint np_insert (x : T) (l : list T) : list T :=
  match l with [] => [x] | y :: r => if n_lt y x then y :: np_insert x r else x :: l end.
Fixpoint np_sort (l : list T) : list T := match l with [] => [] | x :: l => np_insert x (np_sort l) end.
Definition np_min2 (x y : T) : T := if negb (n_eq x x) then x else if n_lt x y then x else y.
Fixpoint np_min (x : T) (l : list T) : T := match l with [] => x | y :: l => np_min2 x (np_min y l) end.

(** benchmarks/exactbj.py:42-48. *)
Definition Mn_plus_statistic (uniform01_samples : list T) : script T :=
  if negb (forallb (fun x => n_le n0 x && n_le x n1) uniform01_samples) then Exception "AssertionError"
  else
    let n := Z.of_nat (List.length uniform01_samples) in
    let X := np_sort uniform01_samples in
    let p_values := map (fun ix => _uniform_order_statistic_cdf (fst ix) n (snd ix))
                        (combine (arange 1 (List.length uniform01_samples)) X) in
    match p_values with [] => Exception "ValueError" | p :: ps => Value (np_min p ps) end.

(** benchmarks/exactbj.py:51-53. *)
Definition Mn_plus_bounds (n : nat) (Mn_plus_value : T) : list T :=
  map (fun i => betaincinv i (Z.of_nat n - i + 1) Mn_plus_value) (arange 1 n).

(** benchmarks/exactbj.py:56-60. *)
Definition Mn_plus_distribution (n : nat) (x : T) : script T :=
  sbind (call (ecdf1_new_b E (Mn_plus_bounds n x))) (fun p => Value (n_sub n1 p)).

(** benchmarks/exactbj.py:62-63; the second is the literal 1e-11. *)
Definition N_BINARY_SEARCH_STEPS_MAX : nat := 110.
Definition EPSILON : T := fst (n_strtod (LDec false 1 (-11))).

(** benchmarks/exactbj.py:73-95.  [steps] iterations are left, the next has index i; [mid] is the variable mid
    (unassigned before the first iteration, which assigns it).  The result: the variables i and mid after the loop. *)
Fixpoint binary_search (distribution : T -> script T) (alpha : T) (steps : nat) (i : Z)
  (low high : T) (last_range : option (T * T)) (mid : T) : script (Z * T) :=
  match steps with
  | O => Value (i - 1, mid)
  | S steps =>
      if match last_range with Some (l, h) => n_eq l low && n_eq h high | None => false end then Value (i, mid)
      else
        let last_range := Some (low, high) in
        let mid := n_div (n_add low high) (n_of_Z 2) in
        sbind (distribution mid) (fun mid_alpha =>
          let '(low, high) := if n_lt mid_alpha alpha then (mid, high) else (low, mid) in
          if n_le high low then Value (i, mid)
          else binary_search distribution alpha steps (i + 1) low high last_range mid)
  end.

(** benchmarks/exactbj.py:65-104, without debug_prints.  The result: the returned threshold and the relative
    error if lines 101-102 report it. *)
Definition inverse_Mn_plus (n : nat) (alpha : T) : script (T * option T) :=
  sbind (binary_search (Mn_plus_distribution n) alpha N_BINARY_SEARCH_STEPS_MAX 0 n0 n1 None n0) (fun r =>
    let '(i, mid) := r in
    if negb (i <? Z.of_nat N_BINARY_SEARCH_STEPS_MAX - 1) then Exception "AssertionError"
    else
      sbind (call (ecdf1_new_b E (Mn_plus_bounds n mid))) (fun p =>
        let nocross_probability := n_sub n1 p in
        let difference := n_sub alpha nocross_probability in
        let relative_error := n_div (if n_lt difference n0 then n_neg difference else difference) alpha in
        Value (mid, if n_lt EPSILON relative_error then Some relative_error else None))).

End ExactBj.
