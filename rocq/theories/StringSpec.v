(** * StringSpec: what the text-reading functions are specified against.

    Written from the C standard (7.22.1.3 strtod, 7.22.1.4 strtol) and from the
    file format of README.md; uses no definition of the model except the type
    [literal], which only names numbers. *)
From Coq Require Import ZArith List Bool Ascii String.
From Verif Require Import Num.
Import ListNotations.
Local Open Scope string_scope.
Local Open Scope Z_scope.

Definition slen (s : string) : Z := Z.of_nat (String.length s).

(** Every byte of [s] satisfies [P]. *)
Definition each (P : ascii -> Prop) (s : string) : Prop := Forall P (list_ascii_of_string s).

(** White space of the "C" locale: space, \t, \n, \v, \f, \r. *)
Definition blank (c : ascii) : Prop :=
  In c [" "; "009"; "010"; "011"; "012"; "013"]%char.

(** Digits, by their place in the alphabet. *)
Definition dec_digit (c : ascii) (d : Z) : Prop :=
  0 <= d /\ String.get (Z.to_nat d) "0123456789" = Some c.
Definition hex_digit (c : ascii) (d : Z) : Prop :=
  0 <= d /\ (String.get (Z.to_nat d) "0123456789abcdef" = Some c \/
             String.get (Z.to_nat d) "0123456789ABCDEF" = Some c).

(** Positional notation. *)
Inductive positional (dig : ascii -> Z -> Prop) (base : Z) : string -> Z -> Prop :=
| pos_nil : positional dig base "" 0
| pos_cons c d s v : dig c d -> positional dig base s v ->
    positional dig base (String c s) (d * base ^ slen s + v).

Inductive sign : string -> bool -> Prop :=
| sign_none : sign "" false
| sign_plus : sign "+" false
| sign_minus : sign "-" true.

(** Equality up to the case of letters: [pat] is written in lower case. *)
Definition upper_of (c : ascii) : ascii :=
  match String.index 0 (String c "") "abcdefghijklmnopqrstuvwxyz" with
  | Some i => match String.get i "ABCDEFGHIJKLMNOPQRSTUVWXYZ" with Some u => u | None => c end
  | None => c
  end.
Inductive same_letters : string -> string -> Prop :=
| sl_nil : same_letters "" ""
| sl_cons p c ps cs : c = p \/ c = upper_of p -> same_letters ps cs ->
    same_letters (String p ps) (String c cs).

(** Digits with an optional point: value ignoring the point, digits after it. *)
Inductive mantissa (dig : ascii -> Z -> Prop) (base : Z) : string -> Z -> Z -> Prop :=
| man_int s v : positional dig base s v -> s <> "" -> mantissa dig base s v 0
| man_point s1 v1 s2 v2 : positional dig base s1 v1 -> positional dig base s2 v2 ->
    s1 ++ s2 <> "" ->
    mantissa dig base (s1 ++ String "." s2) (v1 * base ^ slen s2 + v2) (slen s2).

(** Optional exponent introduced by [mark] (in either case). *)
Inductive exponent (mark : ascii) : string -> Z -> Prop :=
| exp_none : exponent mark "" 0
| exp_some c sg neg s v : c = mark \/ c = upper_of mark -> sign sg neg ->
    positional dec_digit 10 s v -> s <> "" ->
    exponent mark (String c (sg ++ s)) (if neg then - v else v).

(** The characters allowed between the parentheses of "nan(...)". *)
Definition nan_char (c : ascii) : Prop :=
  In c (list_ascii_of_string
          "0123456789abcdefghijklmnopqrstuvwxyzABCDEFGHIJKLMNOPQRSTUVWXYZ_").

(** A number without its sign. *)
Inductive unsigned_numeral (neg : bool) : string -> literal -> Prop :=
| un_dec m v fr e x : mantissa dec_digit 10 m v fr -> exponent "e" e x ->
    unsigned_numeral neg (m ++ e) (LDec neg v (x - fr))
| un_hex z m v fr e x : same_letters "0x" z -> mantissa hex_digit 16 m v fr ->
    exponent "p" e x -> unsigned_numeral neg (z ++ m ++ e) (LHex neg v (x - 4 * fr))
| un_inf w : same_letters "inf" w \/ same_letters "infinity" w ->
    unsigned_numeral neg w (LInf neg)
| un_nan w : same_letters "nan" w -> unsigned_numeral neg w LNan
| un_nan_chars w cs : same_letters "nan" w -> each nan_char cs ->
    unsigned_numeral neg (w ++ "(" ++ cs ++ ")") LNan.

(** The texts strtod reads as numbers: blanks, sign, number. *)
Inductive numeral : string -> literal -> Prop :=
| numeral_intro bl sg neg u l : each blank bl -> sign sg neg -> unsigned_numeral neg u l ->
    numeral (bl ++ sg ++ u) l.

(** "The subject sequence is defined as the longest initial subsequence of the
    input string that is of the expected form." *)
Definition longest_numeral (s p : string) (l : literal) (rest : string) : Prop :=
  s = p ++ rest /\ numeral p l /\
  (forall p' l' rest', s = p' ++ rest' -> numeral p' l' ->
     (String.length p' <= String.length p)%nat).

(** The texts strtol (base 10) reads as integers. *)
Inductive integer_text : string -> Z -> Prop :=
| integer_intro bl sg neg s v : each blank bl -> sign sg neg ->
    positional dec_digit 10 s v -> s <> "" ->
    integer_text (bl ++ sg ++ s) (if neg then - v else v).

(** Joining pieces with a delimiter; a string without a character; how often a
    character occurs. *)
Fixpoint join (d : ascii) (ps : list string) : string :=
  match ps with
  | [] => ""
  | [p] => p
  | p :: r => p ++ String d (join d r)
  end.
Definition without (d : ascii) (s : string) : Prop := each (fun c => c <> d) s.
Definition occurrences (d : ascii) (s : string) : nat :=
  List.count_occ ascii_dec (list_ascii_of_string s) d.

(** [ps] are the comma-separated fields of a line. *)
Definition fields (line : string) (ps : list string) : Prop :=
  ps <> [] /\ Forall (without ",") ps /\ join "," ps = line.

(** What the reader keeps of them: everything but one empty last field. *)
Inductive kept : list string -> list string -> Prop :=
| kept_all ps p : p <> "" -> kept (ps ++ [p]) (ps ++ [p])
| kept_but_last ps : kept (ps ++ [""]) ps.

Definition nul_free (s : string) : Prop := without "000" s.

(** What a C function sees of a std::string: the text before the first NUL. *)
Definition c_text (s t : string) : Prop :=
  nul_free t /\ (s = t \/ exists r, s = t ++ String "000" r).

(** Characters that occur in numerals, blanks excepted. *)
Definition numeral_char (c : ascii) : Prop :=
  In c (list_ascii_of_string
          "0123456789abcdefghijklmnopqrstuvwxyzABCDEFGHIJKLMNOPQRSTUVWXYZ_.()+-").

(** [x] is the number a field stands for: its longest numeral prefix, evaluated
    by the arithmetic, is in range and has value [x]. *)
Definition field_value {N : num} (q : string) (x : car N) : Prop :=
  exists t p l rest, c_text q t /\ longest_numeral t p l rest /\ n_strtod l = (x, false).

(** A newline. *)
Definition newline : ascii := "010".

(** [contents] starts with the two lines [l1] and [l2]; a last line without a
    newline counts if it is not empty. *)
Inductive first_two_lines : string -> string -> string -> Prop :=
| two_closed l1 l2 rest : without newline l1 -> without newline l2 ->
    first_two_lines (l1 ++ String newline (l2 ++ String newline rest)) l1 l2
| two_open l1 l2 : without newline l1 -> without newline l2 -> l2 <> "" ->
    first_two_lines (l1 ++ String newline l2) l1 l2.

(** [contents] has no second line: one line [l1], closed or not, or nothing. *)
Inductive only_one_line : string -> string -> Prop :=
| one_closed l1 : without newline l1 -> only_one_line (l1 ++ String newline "") l1
| one_open l1 : without newline l1 -> l1 <> "" -> only_one_line l1 l1.
