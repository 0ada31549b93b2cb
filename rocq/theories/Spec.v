(** * Spec: what the library is supposed to compute.

    Independent of the model: only real numbers, lists, permutations and the
    Riemann integral.  This file is all one has to read, besides the model, to
    understand the correctness theorems. *)
From Coquelicot Require Import Coquelicot.
From Coq Require Import Reals List Permutation Sorted.
Import ListNotations.
Local Open Scope R_scope.

(** [is_prob n A p]: n independent uniforms on [0,1] fall into A with probability p,
    that is, p is the iterated integral
      int_0^1 ... int_0^1 1[A (x_1, ..., x_n)] dx_n ... dx_1,
    every inner integral being required to exist (in the sense of Riemann). *)
Fixpoint is_prob (n : nat) (A : list R -> Prop) (p : R) : Prop :=
  match n with
  | O => (A [] /\ p = 1) \/ (~ A [] /\ p = 0)
  | S n' => exists f : R -> R,
      (forall x, 0 <= x <= 1 -> is_prob n' (fun l => A (x :: l)) (f x)) /\
      is_RInt f 0 1 p
  end.

(** The event of Eq. (1) of the documentation: the sorted sample
    X_(1) <= ... <= X_(n) satisfies b_i <= X_(i) <= B_i for all i. *)
Definition noncrossing (b B : list R) (sample : list R) : Prop :=
  exists order_statistics,
    Permutation sample order_statistics /\
    Sorted Rle order_statistics /\
    Forall2 Rle b order_statistics /\
    Forall2 Rle order_statistics B.

(** The one-sided events. *)
Definition noncrossing_b (b sample : list R) : Prop :=
  exists order_statistics,
    Permutation sample order_statistics /\ Sorted Rle order_statistics /\
    Forall2 Rle b order_statistics.
Definition noncrossing_B (B sample : list R) : Prop :=
  exists order_statistics,
    Permutation sample order_statistics /\ Sorted Rle order_statistics /\
    Forall2 Rle order_statistics B.

(** Boundary vectors the documentation allows: non-decreasing, within [0,1]. *)
Definition valid_boundary (v : list R) : Prop :=
  Sorted Rle v /\ Forall (fun x : R => 0 <= x <= 1) v.

(** The probability the library documents for boundaries b and B. *)
Definition is_noncrossing_probability (b B : list R) (p : R) : Prop :=
  length b = length B /\ is_prob (length b) (noncrossing b B) p.

(** Reversal of time: the vector 1 - v_n, ..., 1 - v_1. *)
Definition reflect (v : list R) : list R := map (fun x : R => 1 - x) (rev v).

(** The sum of the differences |u_1 - v_1| + |u_2 - v_2| + ... *)
Fixpoint distance (u v : list R) : R :=
  match u, v with x :: u, y :: v => Rabs (x - y) + distance u v | _, _ => 0 end.
