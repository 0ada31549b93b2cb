(** * PropsCli: properties C30, C31, C40, C41, C43: the crossprob program and the Python module.

    CliSpec.v says what the program is to do for two lists of numbers
    ([command_runs]) and what numbers a file holds ([file_holds]); [too_short] and
    [unreadable] are in TextMore.v, [allowed] and [float_or_error] in PyFacts.v. *)
From Coquelicot Require Import Coquelicot.
From Coq Require Import ZArith Reals List Bool String.
From Verif Require Import Base Num XReal Common Ecdf2 Ecdf1New Ecdf1Mns StringUtils MonteCarlo Cli.
From Verif Require Import Spec XCommon XFft StringSpec CliSpec CliFacts ExactEnv Cases TextMore PyFacts.
Import List. Import ListNotations.
Local Open Scope string_scope.

(** ** C30, for every floating-point type *)
Theorem C30_argument_count : forall (N : num) (E : env N) fs argv, List.length argv <> 3%nat ->
  cli_main E fs argv = Ok ([Usage; Text "Error: Expecting 2 command line arguments!"], 1%Z).
Proof. exact (@cli_arguments). Qed.
Print Assumptions C30_argument_count.
Theorem C30_exit_status : forall (N : num) (E : env N) fs prog c f,
  (forall out, cli_main E fs [prog; c; f] = Ok (out, 0%Z) <->
     exists contents b B x, fs f = Some contents /\ file_holds contents b B /\
       command_runs E c b B (Ok x) /\ out = [Text (show_double E x)]) /\
  ((exists out, cli_main E fs [prog; c; f] = Ok (out, 2%Z)) <->
     exists contents, fs f = Some contents /\ too_short (N := N) contents) /\
  ((exists out, cli_main E fs [prog; c; f] = Ok (out, 3%Z)) <->
     fs f = None \/ exists contents, fs f = Some contents /\
       (unreadable (N := N) contents \/
        exists b B, file_holds contents b B /\
          ((forall o, ~ command_runs E c b B o) \/ exists w, command_runs E c b B (Throw (RuntimeError w))))) /\
  (forall out code, cli_main E fs [prog; c; f] = Ok (out, code) ->
     code = 0%Z \/
     (code = 2%Z /\ out = [Text "ifstream::failure exception caught:"]) \/
     (code = 3%Z /\ exists us w, (us = [] \/ us = [Usage]) /\ out = (us ++ [Text "Error:"; Text w])%list)) /\
  (forall o, (forall out code, o <> Ok (out, code)) -> cli_main E fs [prog; c; f] = o ->
     exists contents b B r, fs f = Some contents /\ file_holds contents b B /\ command_runs E c b B r /\
       (forall x, r <> Ok x) /\ (forall e, r <> Throw e)).
Proof. exact (@cli_exit). Qed.
Print Assumptions C30_exit_status.
Example C30_case : case_fs "bounds.txt" = Some case_text /\
  file_holds (N := Xnum some_frexp) case_text (map Fin case_b) (map Fin ones2).
Proof. exact case_holds. Qed.

(** ** C31, in exact arithmetic *)
Theorem C31_two_sided : forall frexp (E : env (Xnum frexp)) fs prog f contents (b B : list R) use_fft,
  fs f = Some contents -> file_holds (N := Xnum frexp) contents (map Fin b) (map Fin B) ->
  valid_boundary b -> valid_boundary B -> List.length b = List.length B -> sort_ok E -> (use_fft = true -> fft_ok E) ->
  (asserts E = true -> forall i, (S i < List.length b)%nat -> (nth i b 0 <= nth (S i) B 0)%R) ->
  exists p, is_noncrossing_probability b B p /\
    cli_main E fs [prog; ecdf2_command use_fft; f] = Ok ([Text (show_double E (Fin p))], 0%Z).
Proof. exact (@cli_two_sided). Qed.
Print Assumptions C31_two_sided.
Theorem C31_two_sided_without_lower : forall frexp (E : env (Xnum frexp)) fs prog f contents (B : list R) use_fft,
  fs f = Some contents -> file_holds (N := Xnum frexp) contents [] (map Fin B) ->
  valid_boundary B -> B <> [] -> sort_ok E -> (use_fft = true -> fft_ok E) ->
  exists p, is_prob (List.length B) (noncrossing_B B) p /\
    cli_main E fs [prog; ecdf2_command use_fft; f] = Ok ([Text (show_double E (Fin p))], 0%Z).
Proof. exact (@cli_two_sided_B). Qed.
Print Assumptions C31_two_sided_without_lower.
Theorem C31_two_sided_without_upper : forall frexp (E : env (Xnum frexp)) fs prog f contents (b : list R) use_fft,
  fs f = Some contents -> file_holds (N := Xnum frexp) contents (map Fin b) [] ->
  valid_boundary b -> b <> [] -> sort_ok E -> (use_fft = true -> fft_ok E) ->
  exists p, is_prob (List.length b) (noncrossing_b b) p /\
    cli_main E fs [prog; ecdf2_command use_fft; f] = Ok ([Text (show_double E (Fin p))], 0%Z).
Proof. exact (@cli_two_sided_b). Qed.
Print Assumptions C31_two_sided_without_upper.
Theorem C31_mns2016 : forall frexp (E : env (Xnum frexp)) fs prog f contents (v : list R),
  fs f = Some contents -> valid_boundary v -> v <> [] -> long_double_ok E ->
  (file_holds (N := Xnum frexp) contents (map Fin v) [] ->
   exists p, is_prob (List.length v) (noncrossing_b v) p /\
     cli_main E fs [prog; "ecdf1-mns2016"; f] = Ok ([Text (show_double E (Fin p))], 0%Z)) /\
  (file_holds (N := Xnum frexp) contents [] (map Fin v) ->
   exists p, is_prob (List.length v) (noncrossing_B v) p /\
     cli_main E fs [prog; "ecdf1-mns2016"; f] = Ok ([Text (show_double E (Fin p))], 0%Z)).
Proof. exact (@cli_mns). Qed.
Print Assumptions C31_mns2016.
Theorem C31_new : forall frexp (E : env (Xnum frexp)) fs prog f contents (v : list R),
  fs f = Some contents -> valid_boundary v -> fft_ok E ->
  (1 <= List.length v)%nat -> (Z.of_nat (List.length v) <= INT_MAX)%Z -> (asserts E = true -> (2 <= List.length v)%nat) ->
  (file_holds (N := Xnum frexp) contents (map Fin v) [] ->
   exists p, is_prob (List.length v) (noncrossing_b v) p /\
     cli_main E fs [prog; "ecdf1-new"; f] = Ok ([Text (show_double E (Fin p))], 0%Z)) /\
  (file_holds (N := Xnum frexp) contents [] (map Fin v) ->
   exists p, is_prob (List.length v) (noncrossing_B v) p /\
     cli_main E fs [prog; "ecdf1-new"; f] = Ok ([Text (show_double E (Fin p))], 0%Z)).
Proof. exact (@cli_new). Qed.
Print Assumptions C31_new.
Theorem C31_refuses : forall (N : num) (E : env N) fs prog f contents (b B : list (car N)) c,
  fs f = Some contents -> file_holds contents b B ->
  (c = "ecdf1-new" \/ c = "ecdf1-mns2016") /\ (b = [] <-> B = []) \/
  (c = "ecdf2-ks2001" \/ c = "ecdf2-mn2017") /\ b <> [] /\ B <> [] /\ List.length b <> List.length B ->
  exists us w, (us = [] \/ us = [Usage]) /\
    cli_main E fs [prog; c; f] = Ok ((us ++ [Text "Error:"; Text w])%list, 3%Z).
Proof. exact (@cli_refuses). Qed.
Print Assumptions C31_refuses.
(** The file "0, 0.5" / "1, 1" makes the program print 3/4. *)
Example C31_case : forall E : env (Xnum some_frexp), sort_ok E -> fft_ok E ->
  cli_main E case_fs ["crossprob"; "ecdf2-mn2017"; "bounds.txt"] = Ok ([Text (show_double E (Fin (3/4)))], 0%Z).
Proof. exact case_cli_prints. Qed.

(** ** C40 *)
Theorem C40_ecdf2 : forall frexp (E : env (Xnum frexp)) b B use_fft,
  asserts E = false -> sort_ok E -> (use_fft = true -> fft_ok E) ->
  float_or_error (allowed b /\ allowed B /\ List.length b = List.length B)
    (py_call (ecdf2 E (map of_Rbar b) (map of_Rbar B) use_fft)).
Proof. exact (@py_ecdf2). Qed.
Print Assumptions C40_ecdf2.
Theorem C40_ecdf1_new : forall frexp (E : env (Xnum frexp)) v,
  asserts E = false -> fft_ok E -> v <> [] -> (Z.of_nat (List.length v) <= INT_MAX)%Z ->
  float_or_error (allowed v) (py_call (ecdf1_new_B E (map of_Rbar v))) /\
  float_or_error (allowed v) (py_call (ecdf1_new_b E (map of_Rbar v))).
Proof. exact (@py_new). Qed.
Print Assumptions C40_ecdf1_new.
Theorem C40_ecdf1_mns2016 : forall frexp (E : env (Xnum frexp)) v, long_double_ok E ->
  float_or_error (allowed v) (py_call (ecdf1_mns2016_B E (map of_Rbar v))) /\
  float_or_error (allowed v) (py_call (ecdf1_mns2016_b E (map of_Rbar v))).
Proof. exact (@py_mns). Qed.
Print Assumptions C40_ecdf1_mns2016.
Example C40_case : allowed (map Finite case_b) /\ ~ allowed (map Finite [1; 0]%R) /\ ~ allowed [p_infty].
Proof. exact (conj allowed_case (conj not_allowed_decreasing not_allowed_infinite)). Qed.

(** ** C41: the expected property is false *)
Theorem C41_documented_example_refuted : forall frexp (E : env (Xnum frexp)),
  py_call (ecdf2 E (map Fin [0; 15/100; 5/10]%R) (map Fin [7/10; 9/10; 8/10]%R) true) =
  PyRuntimeError (N := Xnum frexp) (msg_monotone "B" 3).
Proof. exact (@doc_example_fails). Qed.
Print Assumptions C41_documented_example_refuted.
Theorem C41_repaired_example : forall frexp (E : env (Xnum frexp)), sort_ok E -> fft_ok E ->
  exists p, is_noncrossing_probability [0; 15/100; 5/10]%R [7/10; 9/10; 8/10]%R p /\
    py_call (ecdf2 E (map Fin [0; 15/100; 5/10]%R) (map Fin [7/10; 8/10; 8/10]%R) true) =
    PyFloat (N := Xnum frexp) (Fin p).
Proof. exact (@doc_example_fixed). Qed.
Print Assumptions C41_repaired_example.

(** ** C43: [raise 0 b] is the running maximum of b, [lower_from_right B] the running
    minimum of B from the right (PyFacts.v) *)
Theorem C43_not_monotone : forall frexp (E : env (Xnum frexp)) (b B : list R) use_fft,
  Forall (fun x => 0 <= x <= 1)%R b -> Forall (fun x => 0 <= x <= 1)%R B -> List.length b = List.length B ->
  sort_ok E -> (use_fft = true -> fft_ok E) -> asserts E = false ->
  exists p, is_noncrossing_probability b B p /\
    ecdf2 E (map Fin (raise 0 b)) (map Fin (lower_from_right B)) use_fft = Ok (Fin p).
Proof. exact (@envelope_ecdf2). Qed.
Print Assumptions C43_not_monotone.
Example C43_case : lower_from_right [7/10; 9/10; 8/10]%R = [7/10; 8/10; 8/10]%R.
Proof. exact (proj2 doc_envelope). Qed.
