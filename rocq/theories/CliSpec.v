(** * CliSpec: what the crossprob program is specified to do.

    Written from the usage text (src/crossprob.cc:16-79); refers to the library
    functions but not to the model of the program. *)
From Coq Require Import ZArith List Bool String.
From Verif Require Import Base Num Ecdf2 Ecdf1New Ecdf1Mns StringSpec.
Local Open Scope string_scope.

Section Spec.
Context {N : num} (E : env N).
Notation T := (car N).

Definition ecdf2_command (use_fft : bool) : string :=
  if use_fft then "ecdf2-mn2017" else "ecdf2-ks2001".

(** [command_runs c b B o]: for command [c] on the two lines [b] and [B] the
    program is to perform the library call whose outcome is [o].  An empty line
    stands for "no boundary": 0,...,0 for the first line, 1,...,1 for the second. *)
Inductive command_runs : string -> list T -> list T -> outcome T -> Prop :=
| runs_mns_b b : b <> [] -> command_runs "ecdf1-mns2016" b [] (ecdf1_mns2016_b E b)
| runs_mns_B B : B <> [] -> command_runs "ecdf1-mns2016" [] B (ecdf1_mns2016_B E B)
| runs_new_b b : b <> [] -> command_runs "ecdf1-new" b [] (ecdf1_new_b E b)
| runs_new_B B : B <> [] -> command_runs "ecdf1-new" [] B (ecdf1_new_B E B)
| runs_two use_fft b B : List.length b = List.length B ->
    command_runs (ecdf2_command use_fft) b B (ecdf2 E b B use_fft)
| runs_two_B use_fft B : B <> [] ->
    command_runs (ecdf2_command use_fft) [] B (ecdf2 E (repeat n0 (List.length B)) B use_fft)
| runs_two_b use_fft b : b <> [] ->
    command_runs (ecdf2_command use_fft) b [] (ecdf2 E b (repeat n1 (List.length b)) use_fft).

(** A line of text holds these numbers. *)
Definition line_holds (line : string) (xs : list T) : Prop :=
  exists ps qs, fields line ps /\ kept ps qs /\ Forall2 field_value qs xs.

(** A file whose first two lines hold the numbers [b] and [B]. *)
Definition file_holds (contents : string) (b B : list T) : Prop :=
  exists l1 l2, first_two_lines contents l1 l2 /\ line_holds l1 b /\ line_holds l2 B.
End Spec.
