(** * Cli: model of src/crossprob.cc (the crossprob program) and of the exception
      translation of src/crossprob.i (the Python module). *)
From Coq Require Import ZArith List Bool Ascii String.
From Verif Require Import Base Num Common Ecdf2 Ecdf1New Ecdf1Mns StringUtils MonteCarlo.
Local Open Scope string_scope.
Local Open Scope Z_scope.

Section Cli.
Context {N : num} (E : env N).
Notation T := (car N).

(** src/crossprob.cc:81-91, calculate_ecdf1_mns2016: printed text and result. *)
Definition calculate_ecdf1_mns2016 (b B : list T) : list item * outcome T :=
  if (0 <? size b) && (size B =? 0) then ([], ecdf1_mns2016_b E b)
  else if (size b =? 0) && (0 <? size B) then ([], ecdf1_mns2016_B E B)
  else ([Usage], Throw (RuntimeError ("Expecting EITHER a lower or an upper boundary function when using the 'ecdf1-mns2016' command for computing a one-sided boundary crossing."
                          ++ String "010" ""))).

(** src/crossprob.cc:93-103, calculate_ecdf1_new. *)
Definition calculate_ecdf1_new (b B : list T) : list item * outcome T :=
  if (0 <? size b) && (size B =? 0) then ([], ecdf1_new_b E b)
  else if (size b =? 0) && (0 <? size B) then ([], ecdf1_new_B E B)
  else ([Usage], Throw (RuntimeError ("Expecting EITHER a lower or an upper boundary function when using the 'ecdf1-m2020' command for computing a one-sided boundary crossing."
                          ++ String "010" ""))).

(** src/crossprob.cc:105-123 (use_fft = false) and 125-142 (use_fft = true). *)
Definition calculate_ecdf2 (use_fft : bool) (b B : list T) : outcome T :=
  let n := Z.max (size b) (size B) in
  if (size b =? n) && (size B =? n) then ecdf2 E b B use_fft
  else if (size b =? 0) && (size B =? n) then ecdf2 E (vec n n0) B use_fft
  else if (size b =? n) && (size B =? 0) then ecdf2 E b (vec n n1) use_fft
  else Throw (RuntimeError "Expecting either two boundary lists of length n or one list of length n and one of length zero").

(** src/crossprob.cc:144-174, handle_command_line_arguments: text printed and how it
    ended; argv has three elements (checked by main). *)
Definition cli_handle (fs : filesystem) (command filename : string) : list item * outcome unit :=
  match read_and_check_boundaries_file fs filename with
  | Ok (b, B) =>
      let '(out, r) :=
        if (command =? "ecdf1-mns2016")%string then calculate_ecdf1_mns2016 b B
        else if (command =? "ecdf1-new")%string then calculate_ecdf1_new b B
        else if (command =? "ecdf2-ks2001")%string then ([], calculate_ecdf2 false b B)
        else if (command =? "ecdf2-mn2017")%string then ([], calculate_ecdf2 true b B)
        else ([Usage], Throw (RuntimeError "Second command line argument must be one of: 'ecdf1-mns2016', 'ecdf1-new', 'ecdf2-ks2001', 'ecdf2-mn2017'.")) in
      match r with
      | Ok result => ((out ++ [Text (show_double E result)])%list, Ok tt)
      | Throw e => (out, Throw e) | Abort s => (out, Abort s)
      | Undef s => (out, Undef s) | Hang => (out, Hang)
      end
  | Throw e => ([], Throw e) | Abort s => ([], Abort s)
  | Undef s => ([], Undef s) | Hang => ([], Hang)
  end.

(** src/crossprob.cc:176-195, main: stdout and exit status. *)
Definition cli_main (fs : filesystem) (argv : list string) : outcome (list item * Z) :=
  match argv with
  | [_; command; filename] =>
      let '(out, r) := cli_handle fs command filename in
      match r with
      | Ok _ => Ok (out, 0)
      | Throw IosFailure => Ok ((out ++ [Text "ifstream::failure exception caught:"])%list, 2)
      | Throw (RuntimeError w) => Ok ((out ++ [Text "Error:"; Text w])%list, 3)
      | Abort s => Abort s
      | Undef s => Undef s
      | Hang => Hang
      end
  | _ => Ok ([Usage; Text "Error: Expecting 2 command line arguments!"], 1)
  end.

(** src/crossprob.i:66-76, the %exception block: what a Python caller sees.
    The two catch clauses that give UnknownError are unreachable: the model's code
    throws nothing but std::runtime_error (memory exhaustion is not modelled). *)
Inductive pyresult : Type :=
| PyFloat (x : T)
| PyRuntimeError (what : string)
| PyProcessDies              (* abort() or undefined behaviour *)
| PyNeverReturns.
Definition py_call (o : outcome T) : pyresult :=
  match o with
  | Ok x => PyFloat x
  | Throw (RuntimeError w) => PyRuntimeError w
  | Throw IosFailure => PyRuntimeError ""   (* a runtime_error since C++11; library text *)
  | Abort _ => PyProcessDies
  | Undef _ => PyProcessDies
  | Hang => PyNeverReturns
  end.

End Cli.
