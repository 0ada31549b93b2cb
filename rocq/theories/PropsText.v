(** * PropsText: properties C25-C29, reading numbers and files.

    The specification is StringSpec.v; [field_value q x] there says that [x] is
    the value of the longest prefix of [q] that is a number.  [N] is arbitrary. *)
From Coquelicot Require Import Coquelicot.
From Coq Require Import ZArith Reals List Bool Ascii String.
From Verif Require Import Base Num XReal StringUtils Cli ExactEnv Cases StringSpec CliSpec LineFacts TextMore.
Import List. Import ListNotations.
Local Open Scope string_scope.
Local Open Scope Z_scope.

(** ** C25 *)
Theorem C25_split : forall s d,
  List.length (StringUtils.split s d) = S (occurrences d s) /\
  Forall (without d) (StringUtils.split s d) /\ join d (StringUtils.split s d) = s /\
  (forall ps, ps <> [] -> Forall (without d) ps -> join d ps = s -> ps = StringUtils.split s d).
Proof. exact split_inverse. Qed.
Print Assumptions C25_split.
Example C25_case : StringUtils.split ",a,,b" "," = [""; "a"; ""; "b"] /\ occurrences "," ",a,,b" = 3%nat.
Proof. exact (conj eq_refl eq_refl). Qed.

(** ** C26: a line has exactly one list of fields, and is read field by field *)
Theorem C26_line : forall (N : num) line ps qs, fields line ps -> kept ps qs ->
  (forall xs : list (car N), read_comma_delimited_doubles line = Ok xs <-> Forall2 field_value qs xs) /\
  ((exists w, @read_comma_delimited_doubles N line = Throw (RuntimeError w)) <->
     exists q, In q qs /\ ~ exists x : car N, field_value q x) /\
  ((exists xs : list (car N), read_comma_delimited_doubles line = Ok xs) \/
   (exists w, @read_comma_delimited_doubles N line = Throw (RuntimeError w))).
Proof. exact (@read_line). Qed.
Print Assumptions C26_line.
Theorem C26_fields : forall line, exists ps qs, fields line ps /\ kept ps qs /\
  forall ps', fields line ps' -> ps' = ps.
Proof. exact fields_unique. Qed.
Print Assumptions C26_fields.
Example C26_case : fields "0, 0.5," ["0"; " 0.5"; ""] /\ kept ["0"; " 0.5"; ""] ["0"; " 0.5"].
Proof. exact (conj (split_fields "0, 0.5,") (kept_but_last ["0"; " 0.5"])). Qed.

(** ** C27: the expected property is false; any text may follow the number *)
Theorem C27_rejects_malformed_refuted : exists s, (forall l, ~ numeral s l) /\
  string_to_double (N := Xnum some_frexp) s = Ok (Fin (1/2)%R).
Proof. exact two_numbers_one. Qed.
Print Assumptions C27_rejects_malformed_refuted.
Theorem C27_tail_ignored : forall (N : num) p l (x : car N) c tail, nul_free (p ++ String c tail) ->
  numeral p l -> n_strtod l = (x, false) -> ~ numeral_char c ->
  string_to_double (p ++ String c tail) = Ok x /\ (forall l', ~ numeral (p ++ String c tail) l').
Proof. exact (@tail_accepted). Qed.
Print Assumptions C27_tail_ignored.

(** ** C28 *)
Theorem C28_string_to_long : forall s v, nul_free s ->
  (string_to_long s = Ok v <-> integer_text s v /\ - 2 ^ 63 <= v <= 2 ^ 63 - 1).
Proof. exact string_to_long_exact. Qed.
Print Assumptions C28_string_to_long.
Theorem C28_otherwise_throws : forall s,
  (exists v, string_to_long s = Ok v) \/ (exists w, string_to_long s = Throw (RuntimeError w)).
Proof. exact string_to_long_total. Qed.
Print Assumptions C28_otherwise_throws.
Example C28_case : string_to_long " -1024" = Ok (-1024) /\
  string_to_long "9223372036854775807" = Ok (2 ^ 63 - 1) /\
  forall v, string_to_long "9223372036854775808" <> Ok v.
Proof. exact (conj eq_refl (conj eq_refl (fun v (H : string_to_long "9223372036854775808" = Ok v) => Throw_neq_Ok _ _ H))). Qed.

(** ** C29 *)
Theorem C29_files : forall (N : num) (fs : string -> option string) f,
  (forall contents l1 l2, fs f = Some contents -> first_two_lines contents l1 l2 ->
     (forall b B : list (car N), read_and_check_boundaries_file fs f = Ok (b, B) <->
        read_comma_delimited_doubles l1 = Ok b /\ read_comma_delimited_doubles l2 = Ok B) /\
     ((exists w, @read_and_check_boundaries_file N fs f = Throw (RuntimeError w)) <->
        (exists w, @read_comma_delimited_doubles N l1 = Throw (RuntimeError w)) \/
        (exists w, @read_comma_delimited_doubles N l2 = Throw (RuntimeError w)))) /\
  (fs f = None -> @read_and_check_boundaries_file N fs f =
     Throw (RuntimeError ("Unable to read input file '" ++ f ++ "'"))) /\
  (fs f = Some "" -> @read_and_check_boundaries_file N fs f = Throw IosFailure) /\
  (forall contents l1, fs f = Some contents -> only_one_line contents l1 ->
     ((exists b, @read_comma_delimited_doubles N l1 = Ok b) ->
        @read_and_check_boundaries_file N fs f = Throw IosFailure) /\
     (forall w, @read_comma_delimited_doubles N l1 = Throw (RuntimeError w) ->
        @read_and_check_boundaries_file N fs f = Throw (RuntimeError w))).
Proof. exact (@files_read). Qed.
Print Assumptions C29_files.
Theorem C29_contents : forall contents, contents = "" \/ (exists l1, only_one_line contents l1) \/
  (exists l1 l2, first_two_lines contents l1 l2).
Proof. exact contents_cases. Qed.
Print Assumptions C29_contents.
Theorem C29_rest_ignored : forall (N : num) (fs fs' : string -> option string) f f' l1 l2 rest rest',
  without newline l1 -> without newline l2 ->
  fs f = Some (l1 ++ String newline (l2 ++ String newline rest)) ->
  fs' f' = Some (l1 ++ String newline (l2 ++ String newline rest')) ->
  @read_and_check_boundaries_file N fs f = read_and_check_boundaries_file fs' f'.
Proof. exact (@rest_ignored). Qed.
Print Assumptions C29_rest_ignored.
Example C29_case : read_and_check_boundaries_file (N := Xnum some_frexp) case_fs "bounds.txt" =
  Ok (map Fin case_b, map Fin ones2).
Proof. exact case_read. Qed.
