(** * FastNewNum: what is needed of an arithmetic for ecdf1_new_B to be accurate, besides FastNum.v.

    The inner loop of src/ecdf1_new.cc:71-77 subtracts one product after another from a stored value.  A compiler that reorders
    sums may merge these subtractions with each other and with the sum of products the stored value came from.
    [acc x s a k]: x is a number or such an expression, whose terms have the exact sum s, absolute values adding up to at most a,
    and there are at most k of them. *)
From Coq Require Import ZArith Reals List Lia Lra.
From Flocq Require Import Core.Core.
From Verif Require Import Base Num Ecdf1New RSum FastNum.
Local Open Scope R_scope.

Record arith_new (F : num) (fin raw : car F -> Prop) (val : car F -> R) (u eta : R)
  (acc : car F -> R -> R -> nat -> Prop) : Prop := {
  an_raw : forall x, fin x -> raw x -> acc x (val x) (Rabs (val x)) 1%nat;
  (* the sums of products of convolve_same_size, src/common.cc:45-48 *)
  an_dot : forall m (x y : nat -> car F), (Z.of_nat m <= 2 ^ 31)%Z ->
    (forall k, (k < m)%nat -> fin (x k) /\ Rabs (val (x k)) <= 4) ->
    (forall k, (k < m)%nat -> fin (y k) /\ Rabs (val (y k)) <= 4) ->
    acc (dot x y m) (rsum m (fun k => val (x k) * val (y k))) (rsum m (fun k => Rabs (val (x k) * val (y k)))) (m + 1)%nat;
  (* src/ecdf1_new.cc:76 *)
  an_sub : forall d s a k c p, acc d s a k -> fin c -> fin p ->
    acc (n_sub d (n_mul c p)) (s - val c * val p) (a + Rabs (val c * val p)) (S k);
  (* use of the value *)
  an_val : forall x s a k, acc x s a k -> a <= bpow radix2 36 -> (Z.of_nat k <= 2 ^ 36)%Z ->
    fin x /\ Rabs (val x - s) <= ((1 + u) ^ k - 1) * a + (1 + u) ^ k * (INR k * eta);
  (* int k = sqrt(n) + 1, src/ecdf1_new.cc:123 *)
  an_jump : forall n, (1 <= n <= INT_MAX)%Z ->
    exists k, @jump_size_for F n = Ok k /\ (2 <= k)%Z /\ (n = 1 -> k = 2)%Z /\ (2 <= n -> k <= n)%Z /\ IZR k <= 21 / 10 * sqrt (IZR n)
}.
