(** * UsageSpec: the two example files of crossprob's usage text and Windows line endings.

    Uses no definition of the model. *)
From Coq Require Import Reals List Ascii String.
From Verif Require Import StringSpec.
Import List. Import ListNotations.
Local Open Scope R_scope.
Local Open Scope string_scope.

(** src/crossprob.cc:60-61, the file of the first example, with the indentation the usage text gives it. *)
Definition usage_two : string := "    0, 0.15, 0.5," ++ String newline ("    0.7, 0.9, 1" ++ String newline "").
(** src/crossprob.cc:68-69, the file of the second example, as printed: "first line is empty", but the
    printed line consists of twelve spaces. *)
Definition usage_one : string := "            " ++ String newline ("    0.5, 0.7" ++ String newline "").
(** The same file with a first line that is empty. *)
Definition usage_one_empty : string := String newline ("    0.5, 0.7" ++ String newline "").

(** src/crossprob.cc:58: "X_(1)<=0.7 and 0.15<=X_(2)<=0.9 and 0.5<=X_(3)<= 0.7", as two lists of bounds. *)
Definition described_b : list R := [0; 15/100; 5/10].
Definition described_B : list R := [7/10; 9/10; 7/10].
(** The second line of the file the text tells the user to write for it. *)
Definition written_B : list R := [7/10; 9/10; 1].
(** src/crossprob.cc:65: "X_(1) <= 0.5 and X_(2) <= 0.7" *)
Definition one_sided_B : list R := [5/10; 7/10].

(** The same text with Windows line endings: a carriage return before each newline. *)
Definition carriage_return : ascii := "013".
Fixpoint crlf (s : string) : string :=
  match s with
  | "" => ""
  | String c r => if Ascii.eqb c newline then String carriage_return (String newline (crlf r)) else String c (crlf r)
  end.

(** The line is not empty and does not end in a comma. *)
Definition complete (l : string) : Prop := l <> "" /\ forall l', l <> l' ++ ",".

(** A file system with one file. *)
Definition only (text : string) (f : string) : option string := if f =? "bounds.txt" then Some text else None.
