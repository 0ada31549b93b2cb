(** * McB64Spec: what the simulations of crossprob_mc decide in binary64. *)
From Coq Require Import Reals List.
From Verif Require Import Spec McSpec McProbSpec.
Import List. Import ListNotations.
Local Open Scope R_scope.

(** A boundary moved up or down by d, within [0,1]. *)
Definition raised (d : R) (v : list R) : list R := map (fun t => Rmin 1 (t + d)) v.
Definition lowered (d : R) (v : list R) : list R := map (fun t => Rmax 0 (t - d)) v.

(** Simulations that use k uniforms each: one whose uniforms are in the event A1 does not cross,
    and one that does not cross has its uniforms in the event A2. *)
Fixpoint sandwiched (k : nat) (A1 A2 : list R -> Prop) (cs : list bool) (us : list R) : Prop :=
  match cs with
  | [] => True
  | c :: cs => (A1 (firstn k us) -> c = false) /\ (c = false -> A2 (firstn k us)) /\ sandwiched k A1 A2 cs (skipn k us)
  end.

(** The event A is contained in one of probability at most q. *)
Definition prob_at_most (n : nat) (A : list R -> Prop) (q : R) : Prop :=
  exists (A' : list R -> Prop) (q' : R), (forall us, length us = n -> Forall (fun x : R => 0 <= x <= 1) us -> A us -> A' us) /\
    has_prob n A' q' /\ q' <= q.

(** No jump time is within d of time 1, and none of those up to 1 within d of the boundary it is compared with. *)
Definition clear_jumps (d : R) (b B jumps : list R) : Prop :=
  forall i, (i < length jumps)%nat -> d < Rabs (nth i jumps 0 - 1) /\
    (nth i jumps 0 <= 1 -> (i < length b)%nat -> d < Rabs (nth i jumps 0 - nth i b 0)) /\
    (nth i jumps 0 <= 1 -> (i < length B)%nat -> d < Rabs (nth i jumps 0 - nth i B 0)).

(** This holds in each of num successive Poisson simulations fed from one stream of uniforms. *)
Fixpoint clear_simulations (beta d : R) (b B : list R) (num : nat) (us : list R) : Prop :=
  match num with
  | O => True
  | S num => clear_jumps d b B (firstn (S (length b)) (jump_times (map (fun u => beta * - ln u) us))) /\
      forall m, uniforms_used beta (length b) us m -> clear_simulations beta d b B num (skipn m us)
  end.

(** Of n independent uniforms, those in the event A are in one of finitely many events whose probabilities
    add up to at most q. *)
Definition covered (n : nat) (A : list R -> Prop) (q : R) : Prop :=
  exists events : list ((list R -> Prop) * R),
    Forall (fun e => is_prob n (fst e) (snd e)) events /\ total (map snd events) <= q /\
    forall us, length us = n -> Forall (fun x : R => 0 <= x <= 1) us -> A us -> Exists (fun e => fst e us) events.
