(** * FastNum: what is needed of an arithmetic for ecdf2 to be accurate.

    The Makefile compiles with -ffast-math: the compiler may contract x*y+z, sum in any order,
    divide by multiplying with a reciprocal, and lets the processor replace subnormal
    numbers by zero.  Then no single operation of the source code has a well-defined
    result, but every expression of ecdf2 is still evaluated with a small error.  The record
    [arith] lists those expressions and how far each may be off; nothing else is assumed of
    the arithmetic.  FastInst.v shows that binary64 under these compiler
    transformations meets it. *)
From Coq Require Import ZArith Reals List Lia Lra Factorial.
From Flocq Require Import Core.Core.
From Verif Require Import Base Num RSum Spec.
Import List.
Local Open Scope R_scope.

(** The accumulation loop of convolve_same_size (src/common.cc:45-48): 0 + x_0 y_0 + ... + x_(m-1) y_(m-1). *)
Fixpoint dot {F : num} (x y : nat -> car F) (m : nat) : car F :=
  match m with
  | O => n0
  | S m => n_add (dot x y m) (n_mul (x m) (y m))
  end.

(** Zero, or not so small that differences could be subnormal. *)
Definition plain (r : R) : Prop := r = 0 \/ bpow radix2 (-900) <= r.

(** [fin x]: x is a finite number; [val x]: its value; [raw x]: a number, not an
    expression that may still be merged with others; [one x]: a number, a product or a library call, but not a sum. *)
Record arith (F : num) (fin one raw : car F -> Prop) (val : car F -> R) (u eps eta : R) : Prop := {
  (* conversions from int *)
  ar_int : forall z, (0 <= z < 2 ^ 31)%Z -> fin (n_of_Z z) /\ one (n_of_Z z) /\ raw (n_of_Z z) /\ val (n_of_Z z) = IZR z;
  (* comparisons *)
  ar_lt : forall x y, fin x -> fin y -> n_lt x y = Rlt_bool (val x) (val y);
  ar_le : forall x y, fin x -> fin y -> n_le x y = Rle_bool (val x) (val y);
  ar_eq : forall x y, fin x -> fin y -> n_eq x y = Req_bool (val x) (val y);
  ar_ninf : forall x, fin x -> n_lt x n_ninf = false;
  (* n * (x - p), src/ecdf2.cc:96 *)
  ar_rate : forall z x p, (1 <= z < 2 ^ 31)%Z -> fin x -> fin p -> raw x -> raw p -> plain (val x) -> plain (val p) ->
    val p <= val x <= 1 ->
    let l := n_mul (n_of_Z z) (n_sub x p) in
    fin l /\ one l /\ Rabs (val l - IZR z * (val x - val p)) <= 3 * u * (IZR z * (val x - val p)) /\
    (val p < val x -> bpow radix2 (-1000) <= val l);
  (* -l + k * g - q, src/poisson_pmf.hh:17,34 and src/poisson_pmf.cc:50 *)
  ar_exponent : forall l k g q, (0 <= k < 2 ^ 31)%Z -> fin l -> one l -> fin g -> one g -> fin q -> one q ->
    Rabs (val l) <= bpow radix2 50 -> Rabs (val g) <= bpow radix2 10 -> Rabs (val q) <= bpow radix2 50 ->
    let t := n_sub (n_add (n_neg l) (n_mul (n_of_Z k) g)) q in
    fin t /\ Rabs (val t - (- val l + IZR k * val g - val q))
             <= 3 * u * (Rabs (val l) + Rabs (IZR k * val g) + Rabs (val q)) + eta;
  (* the sums of products of convolve_same_size *)
  ar_dot : forall m (x y : nat -> car F), (Z.of_nat m <= 2 ^ 31)%Z ->
    (forall k, (k < m)%nat -> fin (x k) /\ Rabs (val (x k)) <= 4) ->
    (forall k, (k < m)%nat -> fin (y k) /\ Rabs (val (y k)) <= 4) ->
    fin (dot x y m) /\
    Rabs (val (dot x y m) - rsum m (fun k => val (x k) * val (y k)))
      <= ((1 + u) ^ (m + 1) - 1) * rsum m (fun k => Rabs (val (x k) * val (y k))) + (1 + u) ^ (m + 1) * (INR (m + 1) * eta);
  (* the final quotient, src/ecdf2.cc:126 *)
  ar_div : forall x y, fin x -> fin y -> Rabs (val x) <= 4 -> bpow radix2 (-30) <= val y <= 4 ->
    fin (n_div x y) /\ Rabs (val (n_div x y) - val x / val y) <= 3 * u * Rabs (val x / val y) + eta;
  (* the C library *)
  ar_log : forall x, fin x -> one x -> bpow radix2 (-1000) <= val x ->
    fin (n_log x) /\ one (n_log x) /\ Rabs (val (n_log x) - ln (val x)) <= eps * Rabs (ln (val x));
  ar_lgamma : forall k, (1 <= k <= 2 ^ 31)%Z -> fin (n_lgamma k) /\ one (n_lgamma k) /\
    Rabs (val (n_lgamma k) - ln (INR (fact (Z.to_nat (k - 1))))) <= eps * ln (INR (fact (Z.to_nat (k - 1))));
  ar_exp : forall x, fin x -> val x <= 1 ->
    fin (n_exp x) /\ Rabs (val (n_exp x) - exp (val x)) <= eps * exp (val x) + eta
}.

(** The vectors the input check accepts. *)
Definition accepted_in {F : num} (fin : car F -> Prop) (val : car F -> R) (v : list (car F)) : Prop :=
  Forall fin v /\ valid_boundary (map val v).

(** What the FFT convolver needs besides. *)
Record arith_fft (F : num) (fin : car F -> Prop) (val : car F -> R) (u eta : R) : Prop := {
  (* 1.0 / padded_size, src/fftwconvolver.cc:141 *)
  af_scale : forall z, (1 <= z <= 2 ^ 33)%Z -> let c := n_div n1 (n_of_Z z) in
    fin c /\ Rabs (val c - / IZR z) <= 4 * u * / IZR z;
  (* real and imaginary part of c*x*y, src/fftwconvolver.cc:64 *)
  af_re : forall c xr xi yr yi, fin c -> fin xr -> fin xi -> fin yr -> fin yi ->
    Rabs (val c) <= 4 -> Rabs (val xr) <= 4 -> Rabs (val xi) <= 4 -> Rabs (val yr) <= 4 -> Rabs (val yi) <= 4 ->
    let t := n_sub (n_mul (n_mul c xr) yr) (n_mul (n_mul c xi) yi) in
    fin t /\ Rabs (val t - (val c * val xr * val yr - val c * val xi * val yi))
             <= 6 * u * (Rabs (val c * val xr * val yr) + Rabs (val c * val xi * val yi)) + eta;
  af_im : forall c xr xi yr yi, fin c -> fin xr -> fin xi -> fin yr -> fin yi ->
    Rabs (val c) <= 4 -> Rabs (val xr) <= 4 -> Rabs (val xi) <= 4 -> Rabs (val yr) <= 4 -> Rabs (val yi) <= 4 ->
    let t := n_add (n_mul (n_mul c xr) yi) (n_mul (n_mul c xi) yr) in
    fin t /\ Rabs (val t - (val c * val xr * val yi + val c * val xi * val yr))
             <= 6 * u * (Rabs (val c * val xr * val yi) + Rabs (val c * val xi * val yr)) + eta
}.
