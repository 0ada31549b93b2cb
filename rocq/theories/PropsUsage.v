(** * PropsUsage: properties C63 (the two examples of the usage text) and C64 (blank lines and Windows
    line endings) of the crossprob program.

    The example files, [crlf] and [complete] are in UsageSpec.v; [file_holds], [line_holds] in CliSpec.v;
    [first_two_lines], [blank] in StringSpec.v; [is_prob], [noncrossing] in Spec.v. *)
From Coquelicot Require Import Coquelicot.
From Coq Require Import ZArith Reals List String.
From Verif Require Import Base Num XReal StringUtils MonteCarlo Cli Spec StringSpec CliSpec UsageSpec Ecdf2 XFft ExactEnv ExactFacts Cases TextMore UsageFacts.
Import List. Import ListNotations.
Local Open Scope R_scope.
Local Open Scope string_scope.

Theorem C63_first_example_refuted : forall (frexp : xr -> Z) (E : env (Xnum frexp)) (fs : filesystem) (prog f : string) (use_fft : bool),
  fs f = Some usage_two -> sort_ok E -> (use_fft = true -> fft_ok E) ->
  is_prob 3 (noncrossing described_b described_B) (409/2000) /\
  is_prob 3 (noncrossing described_b written_B) (3173/4000) /\
  cli_main E fs [prog; ecdf2_command use_fft; f] = Ok ([Text (show_double E (Fin (3173/4000)))], 0%Z).
Proof.
  exact (fun frexp E fs prog f u F Hs Hf =>
    conj usage_described_prob (conj (proj2 usage_two_prob) (usage_two_prints E fs prog f u F Hs Hf))).
Qed.
Print Assumptions C63_first_example_refuted.

Theorem C63_second_example : forall (frexp : xr -> Z) (E : env (Xnum frexp)) (fs : filesystem) (prog f : string),
  fs f = Some usage_one_empty -> fft_ok E ->
  is_prob 2 (noncrossing_B one_sided_B) (9/20) /\
  cli_main E fs [prog; "ecdf1-new"; f] = Ok ([Text (show_double E (Fin (9/20)))], 0%Z).
Proof. exact (fun frexp E fs prog f F Hf => conj usage_one_prob (usage_one_prints E fs prog f F Hf)). Qed.
Print Assumptions C63_second_example.

Theorem C63_second_example_as_printed_refuted : forall (N : num) (E : env N) (fs : filesystem) (prog c f : string),
  fs f = Some usage_one -> exists w, cli_main E fs [prog; c; f] = Ok ([Text "Error:"; Text w], 3%Z).
Proof. exact @usage_one_verbatim. Qed.
Print Assumptions C63_second_example_as_printed_refuted.

Theorem C64_blank_line : forall (N : num) (E : env N) (fs : filesystem) (prog c f contents l1 l2 : string),
  fs f = Some contents -> first_two_lines contents l1 l2 ->
  (each blank l1 /\ l1 <> "") \/ (each blank l2 /\ l2 <> "") ->
  exists w, cli_main E fs [prog; c; f] = Ok ([Text "Error:"; Text w], 3%Z).
Proof. exact @blank_exit. Qed.
Print Assumptions C64_blank_line.

Theorem C64_carriage_return : forall (N : num) (l : string) (xs : list (car N)),
  read_comma_delimited_doubles (l ++ String carriage_return "") = Ok xs <->
  complete l /\ read_comma_delimited_doubles l = Ok xs.
Proof. exact @read_cr. Qed.
Print Assumptions C64_carriage_return.

Theorem C64_windows_line_endings : forall (N : num) (E : env N) (fs fs' : filesystem) (prog c f l1 l2 rest : string),
  let contents := l1 ++ String newline (l2 ++ String newline rest) in
  without newline l1 -> without newline l2 -> fs f = Some contents -> fs' f = Some (crlf contents) ->
  (complete l1 -> complete l2 -> (exists b B : list (car N), file_holds contents b B) ->
     cli_main E fs' [prog; c; f] = cli_main E fs [prog; c; f]) /\
  (~ (complete l1 /\ complete l2) ->
     exists w, cli_main E fs' [prog; c; f] = Ok ([Text "Error:"; Text w], 3%Z)).
Proof. exact @windows. Qed.
Print Assumptions C64_windows_line_endings.

Theorem C64_documented_files_refuted : forall (N : num) (E : env N) (fs : filesystem) (prog c f : string),
  (fs f = Some (crlf usage_two) \/ fs f = Some (crlf usage_one_empty)) ->
  exists w, cli_main E fs [prog; c; f] = Ok ([Text "Error:"; Text w], 3%Z).
Proof. exact @usage_crlf. Qed.
Print Assumptions C64_documented_files_refuted.

(** ** The hypotheses can be met *)

Example C63_case : forall a use_fft,
  cli_main (some_env a) (only usage_two) ["crossprob"; ecdf2_command use_fft; "bounds.txt"] =
    Ok ([Text (show_double (some_env a) (Fin (3173/4000)))], 0%Z) /\
  cli_main (some_env a) (only usage_one_empty) ["crossprob"; "ecdf1-new"; "bounds.txt"] =
    Ok ([Text (show_double (some_env a) (Fin (9/20)))], 0%Z).
Proof. exact usage_cases. Qed.

(** A file that reads the same with Windows line endings. *)
Example C64_case : forall a,
  cli_main (some_env a) (only (crlf usage_two_complete)) ["crossprob"; "ecdf2-mn2017"; "bounds.txt"] =
    Ok ([Text (show_double (some_env a) (Fin (3173/4000)))], 0%Z).
Proof. exact windows_case. Qed.
