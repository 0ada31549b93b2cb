(** * FastMath: binary64 arithmetic as compiled with -ffast-math.

    Makefile:13 (CXXFLAGS) and setup.py:16 compile with -ffast-math -march=native.  Such a compiler
    - evaluates a sum of several terms in any order and grouping (-fassociative-math), e.g. in the lanes of a vector register,
    - contracts a product and an addition into one operation with one rounding (-ffp-contract=fast),
    - divides by multiplying with a rounded reciprocal (-freciprocal-math),
    - and links start-up code after which the processor replaces subnormal operands and results by zero.
    Here a value of type double is the sum of terms it stands for in the source code, and a
    [compiler] is any choice of how to evaluate such sums and quotients.  Products, quotients, comparisons and calls of the C library
    apply to evaluated operands.

    Not covered: factoring or distributing products over sums, simplifications of the arguments of
    exp and log, code that assumes x == x for a NaN or an infinity (there are none in the
    runs considered), and different evaluations of the same expression at two of its uses. *)
From Coq Require Import ZArith Reals List Bool Permutation Factorial.
From Flocq Require Import Core.Core IEEE754.BinarySingleNaN.
From Verif Require Import Base Num Binary64.
Import List. Import ListNotations.
Local Open Scope R_scope.

(** A term of a sum: plus or minus (true) a number or a product that has not been rounded. *)
Inductive term : Type :=
| TVal (s : bool) (x : f64)
| TProd (s : bool) (x y : f64).

Definition term_neg (t : term) : term :=
  match t with TVal s x => TVal (negb s) x | TProd s x y => TProd (negb s) x y end.

Definition sg (s : bool) (r : R) : R := if s then - r else r.

(** Round to nearest, ties to even; the definition of Flocq. *)
Definition rnd64 (r : R) : R := round radix2 (SpecFloat.fexp 53 1024) ZnearestE r.

Section Mode.
(** [flush]: the processor replaces subnormal numbers by zero *)
Variable flush : bool.

(** What an operation sees of an operand. *)
Definition seen (x : f64) : f64 :=
  if flush && is_finite x && Rlt_bool (Rabs (B2R x)) (bpow radix2 (-1022)) then B754_zero false else x.
Definition sv (x : f64) : R := B2R (seen x).

(** [w] may be the result of an operation whose exact result is [r]; on overflow anything may happen. *)
Definition op_result (r : R) (w : f64) : Prop :=
  Rabs (rnd64 r) < bpow radix2 1024 ->
  is_finite w = true /\
  (B2R w = rnd64 r \/ flush = true /\ Rabs r < bpow radix2 (-1022) /\ B2R w = 0).

(** [evaluates l w]: some order of additions and contracted multiplications computes w for the sum of the terms of l. *)
Inductive evaluates : list term -> f64 -> Prop :=
| ev_val : forall s x, evaluates [TVal s x] (if s then Bopp x else x)
| ev_prod : forall s x y w,
    (is_finite x = true -> is_finite y = true -> op_result (sg s (sv x * sv y)) w) ->
    evaluates [TProd s x y] w
| ev_add : forall l l1 l2 a c w, Permutation l (l1 ++ l2) -> evaluates l1 a -> evaluates l2 c ->
    (is_finite a = true -> is_finite c = true -> op_result (sv a + sv c) w) ->
    evaluates l w
| ev_fma : forall l l1 s x y a w, Permutation l (TProd s x y :: l1) -> evaluates l1 a ->
    (is_finite x = true -> is_finite y = true -> is_finite a = true -> op_result (sg s (sv x * sv y) + sv a) w) ->
    evaluates l w.

(** [divides x y w]: w is the quotient, rounded, or the product with the rounded reciprocal. *)
Definition divides (x y w : f64) : Prop :=
  is_finite x = true -> is_finite y = true -> sv y <> 0 ->
  op_result (sv x / sv y) w \/
  exists c, op_result (/ sv y) c /\ (is_finite c = true -> op_result (sv x * sv c) w).
End Mode.

Record compiler : Type := mkCompiler {
  cp_flush : bool;
  cp_sum : list term -> f64;
  cp_div : f64 -> f64 -> f64;
  cp_sum_ok : forall l, l <> [] -> evaluates cp_flush l (cp_sum l);
  cp_div_ok : forall x y, divides cp_flush x y (cp_div x y)
}.

(** A number that is not an expression. *)
Definition lit (x : f64) : list term := [TVal false x].

(** double under the compiler C. *)
Definition Fnum (C : compiler) (L : libm) : num := mkNum (list term)
  (fun z => lit (b64_of_Z z)) (lit (B754_infinity true))
  (fun x y => x ++ y) (fun x y => x ++ map term_neg y)
  (fun x y => [TProd false (cp_sum C x) (cp_sum C y)])
  (fun x y => lit (cp_div C (cp_sum C x) (cp_sum C y)))
  (map term_neg)
  (fun x y => Bltb (seen (cp_flush C) (cp_sum C x)) (seen (cp_flush C) (cp_sum C y)))
  (fun x y => Bleb (seen (cp_flush C) (cp_sum C x)) (seen (cp_flush C) (cp_sum C y)))
  (fun x y => Beqb (seen (cp_flush C) (cp_sum C x)) (seen (cp_flush C) (cp_sum C y)))
  (fun x => lit (lm_exp L (cp_sum C x))) (fun x => lit (lm_log L (cp_sum C x)))
  (fun k => lit (lm_lgamma L k)) (fun x => lit (Bsqrt mode_NE (cp_sum C x)))
  (fun x k => lit (lm_pow L (cp_sum C x) k))
  (fun x => b64_frexp L (cp_sum C x)) (fun x k => lit (Bldexp mode_NE (cp_sum C x) k))
  (fun x => b64_trunc (cp_sum C x)) (fun z => lit (b64_of_bits z))
  (fun s => (lit (fst (lm_strtod L s)), snd (lm_strtod L s))).

(** The accuracy of the C library when subnormal numbers may count as zero: relative errors at most eps,
    for exp up to a multiple of the smallest normal number. *)
Record fast_libm_accurate (flush : bool) (L : libm) (eps : R) : Prop := {
  fl_log : forall x : f64, is_finite x = true -> bpow radix2 (-1000) <= B2R x ->
    is_finite (lm_log L x) = true /\ Rabs (sv flush (lm_log L x) - ln (B2R x)) <= eps * Rabs (ln (B2R x));
  fl_lgamma : forall k : Z, (1 <= k <= 2 ^ 31)%Z ->
    is_finite (lm_lgamma L k) = true /\
    Rabs (sv flush (lm_lgamma L k) - ln (INR (fact (Z.to_nat (k - 1))))) <= eps * ln (INR (fact (Z.to_nat (k - 1))));
  fl_exp : forall x : f64, is_finite x = true -> sv flush x <= 1 ->
    is_finite (lm_exp L x) = true /\
    Rabs (sv flush (lm_exp L x) - exp (sv flush x)) <= eps * exp (sv flush x) + bpow radix2 (-1020)
}.
