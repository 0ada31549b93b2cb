(** * Num: what the code requires of its floating-point type and of its environment.

    The model is written once, for an arbitrary [num].  Instances:
    - [Xnum] (XReal.v): exact real arithmetic extended with +inf, -inf and NaN;
      the correctness theorems are about this instance;
    - [Bnum] (Binary64.v): IEEE-754 binary64 with correct rounding;
    - [Qnum] (QNum.v): rationals, used only to run the model;
    - theorems about memory safety, assertions and control flow are proved for
      every [num]. *)
From Coq Require Import ZArith List String.
From Verif Require Import Base.

(** A numeric literal as the C library's strtod recognises it. *)
Inductive literal : Type :=
| LDec (neg : bool) (mantissa e10 : Z)   (* (-1)^neg * mantissa * 10^e10 *)
| LHex (neg : bool) (mantissa e2 : Z)    (* (-1)^neg * mantissa * 2^e2 *)
| LInf (neg : bool)
| LNan.

(** The type [double], or another floating-point type, with its operators and the libm functions the
    code calls. *)
Record num : Type := mkNum {
  car : Type;
  n_of_Z : Z -> car;                 (* conversion from int/long/size_t *)
  n_ninf : car;                      (* -numeric_limits<double>::infinity() *)
  n_add : car -> car -> car;
  n_sub : car -> car -> car;
  n_mul : car -> car -> car;
  n_div : car -> car -> car;
  n_neg : car -> car;
  n_lt : car -> car -> bool;         (* x < y; false on NaN *)
  n_le : car -> car -> bool;
  n_eq : car -> car -> bool;
  n_exp : car -> car;
  n_log : car -> car;
  n_lgamma : Z -> car;               (* lgamma, only ever applied to an int *)
  n_sqrt : car -> car;
  n_pow : car -> Z -> car;           (* pow, only ever applied to an int exponent >= 0 *)
  n_frexp : car -> Z;                (* the exponent frexp stores *)
  n_ldexp : car -> Z -> car;
  n_trunc : car -> option Z;         (* truncation toward zero; None on NaN and infinities *)
  n_of_bits : Z -> car;              (* the double with this 64-bit pattern *)
  n_strtod : literal -> car * bool   (* value of a literal; true if errno = ERANGE *)
}.

Definition n0 {N : num} : car N := n_of_Z N 0.
Definition n1 {N : num} : car N := n_of_Z N 1.
Arguments n_of_Z {n}. Arguments n_ninf {n}.
Arguments n_add {n}. Arguments n_sub {n}. Arguments n_mul {n}. Arguments n_div {n}.
Arguments n_neg {n}. Arguments n_lt {n}. Arguments n_le {n}. Arguments n_eq {n}.
Arguments n_exp {n}. Arguments n_log {n}. Arguments n_lgamma {n}. Arguments n_sqrt {n}.
Arguments n_pow {n}. Arguments n_frexp {n}. Arguments n_ldexp {n}. Arguments n_trunc {n}.
Arguments n_of_bits {n}. Arguments n_strtod {n}.

Declare Scope num_scope.
Delimit Scope num_scope with num.
Infix "+" := n_add : num_scope.
Infix "-" := n_sub : num_scope.
Infix "*" := n_mul : num_scope.
Infix "/" := n_div : num_scope.
Notation "- x" := (n_neg x) : num_scope.
Infix "<?" := n_lt : num_scope.
Infix "<=?" := n_le : num_scope.
Infix "=?" := n_eq : num_scope.

(** src/ecdf2.cc:21-26: the tagged boundary points that ecdf2 sorts. *)
Inductive bound_tag : Type := bSTEP | BSTEP | END.
Record bound (N : num) : Type := mkBound { location : car N; tag : bound_tag }.
Arguments mkBound {N}. Arguments location {N}. Arguments tag {N}.

(** src/ecdf1_mns2016.cc:37-49: FLOAT, which is [long double] (line 14 selects 80 bits), with the
    conversions from and to double.  On platforms where it is the same type as double they are the identity. *)
Record long_double (N : num) : Type := mkLD {
  ld : num;
  widen : car N -> car ld;
  narrow : car ld -> car N
}.
Arguments mkLD {N}. Arguments ld {N}. Arguments widen {N}. Arguments narrow {N}.

(** Everything a run depends on besides its arguments. *)
Record env (N : num) : Type := mkEnv {
  (** [assert] is live: the Makefile's binaries are compiled without -DNDEBUG
      (Makefile:14); distutils normally adds -DNDEBUG to the Python extension. *)
  asserts : bool;
  (** contents of freshly malloc-ed memory: allocation site, index. *)
  junk : nat -> nat -> car N;
  (** what std::sort returns; [sort_ok] below is what the standard promises. *)
  sort_bounds : list (bound N) -> list (bound N);
  (** FFTW real-to-complex transform of an array of n doubles: n/2+1 complexes. *)
  fft_r2c : list (car N) -> list (car N * car N);
  (** FFTW complex-to-real transform producing n doubles from n/2+1 complexes. *)
  fft_c2r : nat -> list (car N * car N) -> list (car N);
  (** [cout << x] for a double. *)
  show_double : car N -> string;
  (** the type long double *)
  long_dbl : long_double N
}.
Arguments asserts {N}. Arguments junk {N}. Arguments sort_bounds {N}.
Arguments fft_r2c {N}. Arguments fft_c2r {N}. Arguments show_double {N}. Arguments long_dbl {N}.
