(** * PoissonPmf: model of src/poisson_pmf.hh and src/poisson_pmf.cc
      (and of allocate_aligned_doubles, src/aligned_mem.hh:10-13). *)
From Coq Require Import ZArith List Bool String.
From Verif Require Import Base Num.
Local Open Scope string_scope.
Local Open Scope Z_scope.

Section PoissonPmf.
Context {N : num} (E : env N).
Notation T := (car N).

(** src/aligned_mem.hh:10-13.  A failed allocation (NULL) is not modelled. *)
Definition alloc_doubles (site : nat) (n : Z) : list T :=
  map (junk E site) (seq 0 (Z.to_nat n)).

(** The expression exp(-lambda + k*log(lambda) - lgamma(k+1)) that occurs in
    poisson_pmf.hh:17, poisson_pmf.hh:34 and poisson_pmf.cc:50, as a function of
    the values of log(lambda) and of the log-gamma table entry. *)
Definition pmf_formula (lambda log_lambda lg : T) (k : Z) : T :=
  n_exp (n_sub (n_add (n_neg lambda) (n_mul (n_of_Z k) log_lambda)) lg).

(** src/poisson_pmf.hh:9-18, poisson_pmf. *)
Definition poisson_pmf (lambda : T) (k : Z) : outcome T :=
  do cassert (asserts E) (0 <=? k) "poisson_pmf: k >= 0" ;;
  do cassert (asserts E) (n_le n0 lambda) "poisson_pmf: lambda >= 0.0" ;;
  if n_eq lambda n0 then Ok (if k =? 0 then n1 else n0)
  else Ok (pmf_formula lambda (n_log lambda) (n_lgamma (k + 1)) k).

(** src/poisson_pmf.hh:21-46, class PoissonPMFGenerator. *)
Record pmfgen : Type := mkPmfgen {
  pg_max_k : Z;
  log_gamma_LUT : list T;
  pmf_array : list T
}.

(** src/poisson_pmf.cc:10-23, the constructor. *)
Definition pmfgen_make (max_k : Z) : outcome pmfgen :=
  do cassert (asserts E) (0 <? max_k) "PoissonPMFGenerator: max_k > 0" ;;
  lut <- for_ 0 (max_k + 2) (alloc_doubles 0 (max_k + 2))
           (fun i a => wr a i (n_lgamma i)) ;;
  arr <- for_ 0 (max_k + 1) (alloc_doubles 1 (max_k + 1))
           (fun i a => wr a i n0) ;;
  Ok (mkPmfgen max_k lut arr).

(** src/poisson_pmf.hh:25-35, evaluate_pmf. *)
Definition evaluate_pmf (g : pmfgen) (lambda : T) (k : Z) : outcome T :=
  do cassert (asserts E) (n_le n0 lambda) "evaluate_pmf: lambda >= 0" ;;
  do cassert (asserts E) (0 <=? k) "evaluate_pmf: k >= 0" ;;
  if n_eq lambda n0 then Ok (if k =? 0 then n1 else n0)
  else
    lg <- rd (log_gamma_LUT g) (k + 1) ;;
    Ok (pmf_formula lambda (n_log lambda) lg k).

(** src/poisson_pmf.cc:32-52, compute_array. *)
Definition compute_array (g : pmfgen) (k : Z) (lambda : T) : outcome pmfgen :=
  do cassert (asserts E) (0 <=? k) "compute_array: k >= 0" ;;
  do cassert (asserts E) (k <=? pg_max_k g) "compute_array: k <= max_k" ;;
  if n_lt lambda n0 then
    Throw (RuntimeError "Expecting lambda>0 in PoissonPMFGenerator::compute_array()")
  else if n_eq lambda n0 then
    a <- wr (pmf_array g) 0 n1 ;;
    a <- for_ 1 (k + 1) a (fun i a => wr a i n0) ;;
    Ok (mkPmfgen (pg_max_k g) (log_gamma_LUT g) a)
  else
    let log_lambda := n_log lambda in
    a <- for_ 0 (k + 1) (pmf_array g) (fun i a =>
           lg <- rd (log_gamma_LUT g) (i + 1) ;;
           wr a i (pmf_formula lambda log_lambda lg i)) ;;
    Ok (mkPmfgen (pg_max_k g) (log_gamma_LUT g) a).

(** src/poisson_pmf.hh:41, get_array. *)
Definition get_array (g : pmfgen) : list T := pmf_array g.

End PoissonPmf.
Arguments pmfgen N : clear implicits.
