(** * McProbSpec: what one simulation of the Monte-Carlo program decides, as an event
      about the uniform random numbers it draws. *)
From Coq Require Import Reals List.
From Verif Require Import Spec McSpec.
Import List. Import ListNotations.
Local Open Scope R_scope.

(** A Poisson process whose waiting times have mean [beta]: made from the uniforms
    [us], its path on [0,1] makes exactly k jumps there and stays inside. *)
Definition poisson_inside (beta : R) (b B us : list R) : Prop :=
  let jumps := jump_times (map (fun u => beta * - ln u) us) in
  exists k, (k < length us)%nat /\ Forall (fun t => t <= 1) (firstn k jumps) /\ 1 < nth k jumps 0 /\
    stays_inside b B (firstn k jumps).

(** An ordered sample made from n+1 uniforms: partial sums of
    exponentials divided by the sum of all of them. *)
Definition ordered_sample (us : list R) : list R :=
  let es := map (fun u => - ln u) us in
  map (fun t => t / total es) (jump_times (removelast es)).
Definition ecdf_inside (b B us : list R) : Prop := stays_inside b B (ordered_sample us).

(** [has_prob n A p]: A lies between two events whose probabilities, as iterated
    Riemann integrals over n independent uniforms, are as close to p as desired.
    (For an event with [is_prob n A p] this holds with A itself.) *)
Definition has_prob (n : nat) (A : list R -> Prop) (p : R) : Prop :=
  forall eps, 0 < eps -> exists (A1 A2 : list R -> Prop) (p1 p2 : R),
    (forall l, length l = n -> Forall (fun x : R => 0 <= x <= 1) l -> A1 l -> A l) /\
    (forall l, length l = n -> Forall (fun x : R => 0 <= x <= 1) l -> A l -> A2 l) /\
    is_prob n A1 p1 /\ is_prob n A2 p2 /\ p - eps <= p1 /\ p2 <= p + eps.

(** Simulations that use k uniforms each: [cs] says which of the blocks of k uniforms
    fall outside the event A. *)
Fixpoint outcomes (k : nat) (A : list R -> Prop) (cs : list bool) (us : list R) : Prop :=
  match cs with
  | [] => True
  | c :: cs => (c = false <-> A (firstn k us)) /\ outcomes k A cs (skipn k us)
  end.

(** Poisson simulations use a random number of uniforms: one more than the number of jumps the
    path makes by time 1, but at most n+1. *)
Definition uniforms_used (beta : R) (n : nat) (us : list R) (m : nat) : Prop :=
  let jumps := jump_times (map (fun u => beta * - ln u) us) in
  (1 <= m <= S n)%nat /\ Forall (fun t => t <= 1) (firstn (m - 1) jumps) /\
  (m = S n \/ 1 < nth (m - 1) jumps 0).

(** Successive simulations fed from one stream of uniforms: [cs] says which of them cross. *)
Fixpoint poisson_outcomes (beta : R) (b B : list R) (cs : list bool) (us : list R) : Prop :=
  match cs with
  | [] => True
  | c :: cs => (c = false <-> poisson_inside beta b B us) /\
      exists m, uniforms_used beta (length b) us m /\ poisson_outcomes beta b B cs (skipn m us)
  end.
