(** * McSpec: what the Monte-Carlo program is specified against. *)
From Coq Require Import ZArith Reals List Bool.
From Verif Require Import Base Num TinyMT.
Import List. Import ListNotations.
Local Open Scope R_scope.

(** The path with jumps at x_1 <= ... <= x_m stays between the boundaries: it has
    made its i-th jump by time B_i, for every B_i given, and it makes its i-th jump
    not before b_i; with more jumps than b has entries it leaves through b.  An
    empty b stands for "no such boundary". *)
Definition stays_inside (b B x : list R) : Prop :=
  (length B <= length x)%nat /\ (forall i, (i < length B)%nat -> nth i x 0 <= nth i B 0) /\
  (b = [] \/ (length x <= length b)%nat /\ forall i, (i < length x)%nat -> nth i b 0 <= nth i x 0).

(** [draws r us r']: from generator state [r], successive calls of the uniform
    generator give [us] and leave it in state [r']. *)
Inductive draws {N : num} : tinymt -> list (car N) -> tinymt -> Prop :=
| draws_nil r : draws r [] r
| draws_cons r u r1 us r2 : tinymt64_generate_double01 r = (u, r1) -> draws r1 us r2 -> draws r (u :: us) r2.

(** Successive simulations from state [r] answer [cs]. *)
Inductive simulations (sim : tinymt -> outcome (bool * tinymt)) : tinymt -> list bool -> Prop :=
| sims_nil r : simulations sim r []
| sims_cons r c r1 cs : sim r = Ok (c, r1) -> simulations sim r1 cs -> simulations sim r (c :: cs).

Definition crossings (cs : list bool) : Z := Z.of_nat (length (filter (fun c => c) cs)).

(** Partial sums: the jump times of a renewal process with waiting times [es]. *)
Definition total (es : list R) : R := fold_right Rplus 0 es.
Definition jump_times (es : list R) : list R := map (fun k => total (firstn k es)) (seq 1 (length es)).
