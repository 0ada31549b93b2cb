(** * BjBench: model of the measurements of benchmarks/exactbj.py (lines 134-230).

    The times are parameters: elapsed r a i is what the Timer around algorithm a shows for entry i of repetition r, in
    ticks of the clock.  Not modelled: the printed progress, the processor's name, the format of the pickle files, the
    plot_* functions, and the import of [utils] (benchmarks/exactbj.py:23), a module the repository does not contain.
    The Timer of lines 106-131 calls time.clock(), which Python removed in 3.8: the model is that of an earlier Python, one
    where [utils] can be imported. *)
From Coq Require Import ZArith List Bool String.
From Verif Require Import Base Num Ecdf2 Ecdf1New Ecdf1Mns Cli ExactBj.
Import ListNotations.
Local Open Scope string_scope.
Local Open Scope Z_scope.

Inductive algorithm : Type := KS2001 | MNS2016 | MN2017 | NEW.

(** Python's l[i] and l[i] = x for an index i >= 0. *)
Definition get_item {A} (l : list A) (i : nat) : script A :=
  match nth_error l i with Some x => Value x | None => Exception "IndexError" end.
Fixpoint set_item {A} (l : list A) (i : nat) (x : A) : script (list A) :=
  match l, i with
  | [], _ => Exception "IndexError"
  | _ :: l, O => Value (x :: l)
  | y :: l, S i => sbind (set_item l i x) (fun l => Value (y :: l))
  end.
(** Python's min(t, e) for a time t, None standing for inf (line 13). *)
Definition min_time (t : option Z) (e : Z) : option Z :=
  match t with None => Some e | Some t => Some (if e <? t then e else t) end.

Section BjBench.
Context {N : num} (E : env N).
Notation T := (car N).
Context (betaincinv : Z -> Z -> T -> T).

(** benchmarks/exactbj.py:134-142: the pairs (n, threshold) that are saved. *)
Fixpoint alpha_level_thresholds (alpha : T) (n_range : list nat) : script (list (nat * T)) :=
  match n_range with
  | [] => Value []
  | n :: n_range =>
      sbind (inverse_Mn_plus E betaincinv n alpha) (fun r =>
      sbind (alpha_level_thresholds alpha n_range) (fun l => Value ((n, fst r) :: l)))
  end.

(** benchmarks/exactbj.py:174, 179, 183, 187: the calls measured. *)
Definition run (a : algorithm) (n : nat) (bounds : list T) : outcome T :=
  match a with
  | KS2001 => ecdf2 E bounds (repeat n1 n) false
  | MNS2016 => ecdf1_mns2016_b E bounds
  | MN2017 => ecdf2 E bounds (repeat n1 n) true
  | NEW => ecdf1_new_b E bounds
  end.

(** The lists timings_* and results_* of one algorithm (lines 152-163). *)
Record column := mkColumn { timings : list (option Z); results : list (option T) }.
Definition empty_column (len : nat) : column := mkColumn (repeat None len) (repeat None len).

(** benchmarks/exactbj.py:173-175 and the like: one measurement. *)
Definition measure (elapsed : Z) (a : algorithm) (i n : nat) (bounds : list T) (c : column) : script column :=
  sbind (call (run a n bounds)) (fun p =>
  sbind (set_item (results c) i (Some (n_sub n1 p))) (fun res =>
  sbind (get_item (timings c) i) (fun t =>
  sbind (set_item (timings c) i (min_time t elapsed)) (fun tim => Value (mkColumn tim res))))).

(** What the last pickler.dump has saved (lines 190-197). *)
Record columns := mkColumns { c_ks2001 : column; c_mns2016 : column; c_mn2017 : column; c_new : column }.

Section Timings.
Context (elapsed : nat -> algorithm -> nat -> Z) (max_ks2001_n max_mns2016_n : Z).

(** benchmarks/exactbj.py:168-197: the body of the inner loop. *)
Definition bench_entry (rep i n : nat) (threshold : T) (c : columns) : script columns :=
  let bounds := Mn_plus_bounds betaincinv n threshold in
  sbind (if Z.of_nat n <=? max_ks2001_n then measure (elapsed rep KS2001 i) KS2001 i n bounds (c_ks2001 c) else Value (c_ks2001 c)) (fun ks =>
  sbind (if Z.of_nat n <=? max_mns2016_n then measure (elapsed rep MNS2016 i) MNS2016 i n bounds (c_mns2016 c) else Value (c_mns2016 c)) (fun mns =>
  sbind (measure (elapsed rep MN2017 i) MN2017 i n bounds (c_mn2017 c)) (fun mn =>
  sbind (measure (elapsed rep NEW i) NEW i n bounds (c_new c)) (fun new =>
  Value (mkColumns ks mns mn new))))).

(** The inner loop (line 167).  [saved]: what has been saved so far. *)
Fixpoint bench_entries (rep i : nat) (l : list (nat * T)) (c : columns) (saved : option columns) : script (columns * option columns) :=
  match l with
  | [] => Value (c, saved)
  | (n, threshold) :: l => sbind (bench_entry rep i n threshold c) (fun c => bench_entries rep (S i) l c (Some c))
  end.
(** The outer loop (line 165); [num] repetitions are left, the next is number rep. *)
Fixpoint bench_reps (num rep : nat) (l : list (nat * T)) (c : columns) (saved : option columns) : script (option columns) :=
  match num with
  | O => Value saved
  | S num => sbind (bench_entries rep 0 l c saved) (fun r => bench_reps num (S rep) l (fst r) (snd r))
  end.

(** benchmarks/exactbj.py:145-197; [len] is the length of the saved n_range, [l] the saved thresholds. *)
Definition timings_Mn_plus (num_reps len : nat) (l : list (nat * T)) : script (option columns) :=
  bench_reps num_reps 0 l (mkColumns (empty_column len) (empty_column len) (empty_column len) (empty_column len)) None.
End Timings.

(** benchmarks/exactbj.py:200-230: one threshold for all sample sizes, NEW first, one repetition. *)
Fixpoint largescale_entries (elapsed : algorithm -> nat -> Z) (threshold : T) (i : nat) (n_range : list nat) (mn new : column)
  (saved : option (column * column)) : script (option (column * column)) :=
  match n_range with
  | [] => Value saved
  | n :: n_range =>
      let bounds := Mn_plus_bounds betaincinv n threshold in
      sbind (measure (elapsed NEW i) NEW i n bounds new) (fun new =>
      sbind (measure (elapsed MN2017 i) MN2017 i n bounds mn) (fun mn =>
      largescale_entries elapsed threshold (S i) n_range mn new (Some (mn, new))))
  end.
Definition timings_Mn_plus_largescale (elapsed : algorithm -> nat -> Z) (threshold : T) (n_range : list nat) : script (option (column * column)) :=
  largescale_entries elapsed threshold 0 n_range (empty_column (List.length n_range)) (empty_column (List.length n_range)) None.

End BjBench.
