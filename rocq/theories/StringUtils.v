(** * StringUtils: model of src/string_utils.cc and src/read_boundaries_file.cc.

    A C++ [std::string] is a Coq [string] (bytes). *)
From Coq Require Import ZArith List Bool Ascii String.
From Verif Require Import Base Num.
Local Open Scope string_scope.
Local Open Scope Z_scope.

(** ** The C library's strtol and strtod (the "C" locale). *)

(** isspace: space, \t, \n, \v, \f, \r. *)
Definition isspace (c : ascii) : bool :=
  let n := N_of_ascii c in
  ((n =? 32) || ((9 <=? n) && (n <=? 13)))%N.

(** Value of a decimal digit. *)
Definition digit (c : ascii) : option Z :=
  let n := Z.of_N (N_of_ascii c) in
  if (48 <=? n) && (n <=? 57) then Some (n - 48) else None.

(** Value of a hexadecimal digit. *)
Definition hexdigit (c : ascii) : option Z :=
  let n := Z.of_N (N_of_ascii c) in
  if (48 <=? n) && (n <=? 57) then Some (n - 48)
  else if (97 <=? n) && (n <=? 102) then Some (n - 87)
  else if (65 <=? n) && (n <=? 70) then Some (n - 55)
  else None.

(** c_str(): what a C function sees of the string stops at the first NUL. *)
Fixpoint c_str (s : string) : string :=
  match s with
  | "" => ""
  | String c r => if Ascii.eqb c zero then "" else String c (c_str r)
  end.

Fixpoint skip_space (s : string) : string :=
  match s with
  | String c r => if isspace c then skip_space r else s
  | "" => ""
  end.

Definition read_sign (s : string) : bool * string :=
  match s with
  | String c r => if Ascii.eqb c "-" then (true, r)
                  else if Ascii.eqb c "+" then (false, r)
                  else (false, s)
  | "" => (false, "")
  end.

(** Reads a maximal run of digits of the given base:
    value accumulated from [acc], number of digits read, rest. *)
Fixpoint read_digits (dig : ascii -> option Z) (base acc cnt : Z) (s : string)
  : Z * Z * string :=
  match s with
  | String c r => match dig c with
                  | Some d => read_digits dig base (acc * base + d) (cnt + 1) r
                  | None => (acc, cnt, s)
                  end
  | "" => (acc, cnt, "")
  end.

(** strtol(p, &endptr, 10): None when no conversion is possible (endptr = p);
    otherwise the value, whether errno = ERANGE, and the unread rest. *)
Definition LONG_MAX : Z := 2 ^ 63 - 1.
Definition LONG_MIN : Z := - 2 ^ 63.
Definition strtol (s : string) : option (Z * bool * string) :=
  let '(neg, r) := read_sign (skip_space s) in
  let '(v, cnt, rest) := read_digits digit 10 0 0 r in
  if cnt =? 0 then None
  else
    let v := if neg then - v else v in
    if v <? LONG_MIN then Some (LONG_MIN, true, rest)
    else if LONG_MAX <? v then Some (LONG_MAX, true, rest)
    else Some (v, false, rest).

(** Case-insensitive prefix test; Some rest on success. *)
Definition lower (c : ascii) : ascii :=
  let n := N_of_ascii c in
  if ((65 <=? n) && (n <=? 90))%N then ascii_of_N (n + 32) else c.
Fixpoint strip_ci (pat s : string) : option string :=
  match pat, s with
  | "", _ => Some s
  | String p pr, String c r => if Ascii.eqb p (lower c) then strip_ci pr r else None
  | _, _ => None
  end.

(** The optional exponent part after mantissa: marker, optional sign, at least
    one digit; if malformed nothing is consumed. *)
Definition read_exponent (marker : string) (s : string) : Z * string :=
  match strip_ci marker s with
  | Some r =>
      let '(neg, r1) := read_sign r in
      let '(v, cnt, rest) := read_digits digit 10 0 0 r1 in
      if cnt =? 0 then (0, s) else ((if neg then - v else v), rest)
  | None => (0, s)
  end.

(** A mantissa "ddd.ddd" in the given base: value without the point, number of
    digits after the point, total number of digits, rest. *)
Definition read_mantissa (dig : ascii -> option Z) (base : Z) (s : string)
  : Z * Z * Z * string :=
  let '(v, c1, r) := read_digits dig base 0 0 s in
  match r with
  | String c r' =>
      if Ascii.eqb c "." then
        let '(v', c2, r2) := read_digits dig base v 0 r' in
        if (c1 + c2 =? 0) then (0, 0, 0, s) else (v', c2, c1 + c2, r2)
      else (v, 0, c1, r)
  | "" => (v, 0, c1, r)
  end.

Fixpoint skip_nan_chars (s : string) : option string :=
  match s with
  | String c r =>
      if Ascii.eqb c ")" then Some r
      else
        let n := N_of_ascii (lower c) in
        if (((48 <=? n) && (n <=? 57)) || ((97 <=? n) && (n <=? 122)) || (n =? 95))%N
        then skip_nan_chars r else None
  | "" => None
  end.

(** What strtod recognises: None when no conversion is possible. *)
Definition scan_double (s : string) : option (literal * string) :=
  let '(neg, r) := read_sign (skip_space s) in
  match strip_ci "infinity" r with
  | Some rest => Some (LInf neg, rest)
  | None =>
  match strip_ci "inf" r with
  | Some rest => Some (LInf neg, rest)
  | None =>
  match strip_ci "nan" r with
  | Some rest =>
      match rest with
      | String c r' => if Ascii.eqb c "(" then
                         match skip_nan_chars r' with
                         | Some r'' => Some (LNan, r'')
                         | None => Some (LNan, rest)
                         end
                       else Some (LNan, rest)
      | "" => Some (LNan, rest)
      end
  | None =>
      let dec :=
        let '(v, fr, cnt, rest) := read_mantissa digit 10 r in
        if cnt =? 0 then None
        else let '(e, rest) := read_exponent "e" rest in
             Some (LDec neg v (e - fr), rest) in
      match strip_ci "0x" r with
      | Some h =>
          let '(v, fr, cnt, rest) := read_mantissa hexdigit 16 h in
          if cnt =? 0 then dec
          else let '(e, rest) := read_exponent "p" rest in
               Some (LHex neg v (e - 4 * fr), rest)
      | None => dec
      end
  end end end.

Section StringUtils.
Context {N : num}.
Notation T := (car N).

(** src/string_utils.cc:14-35, string_to_long.  strerror(errno) is "Numerical
    result out of range" (glibc).  When no conversion is possible strtol returns
    0 and leaves errno alone. *)
Definition string_to_long (s : string) : outcome Z :=
  match strtol (c_str s) with
  | None => Throw (RuntimeError ("Error converting string to long: " ++ s
                                  ++ String "010" "No digits were found."))
  | Some (value, erange, rest) =>
      if (erange && ((value =? LONG_MAX) || (value =? LONG_MIN))) || (erange && (value =? 0)) then
        Throw (RuntimeError ("Error converting string to long: " ++ s
                              ++ String "010" "Numerical result out of range"))
      else if negb (rest =? "")%string then
        Throw (RuntimeError ("Trailing characters during conversion of string to long:" ++ s
                              ++ String "010" ""))
      else Ok value
  end.

(** src/string_utils.cc:37-58, string_to_double.  The test for trailing
    characters is commented out in the source (lines 53-55). *)
Definition string_to_double (s : string) : outcome T :=
  match scan_double (c_str s) with
  | None => Throw (RuntimeError ("Error converting string to double '" ++ s ++ "'"))
  | Some (lit, _) =>
      let '(value, erange) := n_strtod lit in
      if erange : bool then
        Throw (RuntimeError ("Error converting string to double '" ++ s ++ "'"
                              ++ String "010" "Numerical result out of range"))
      else Ok value
  end.

End StringUtils.

(** src/string_utils.cc:60-75, split.  The accumulator is the current substring
    (from current_substring_start), instead of its start index. *)
Fixpoint split_from (cur s : string) (delimiter : ascii) : list string :=
  match s with
  | "" => [cur]
  | String c r =>
      if Ascii.eqb c delimiter then cur :: split_from "" r delimiter
      else split_from (cur ++ String c "") r delimiter
  end.
Definition split (s : string) (delimiter : ascii) : list string := split_from "" s delimiter.

Section ReadLine.
Context {N : num}.
Notation T := (car N).

(** std::transform with a function that may throw. *)
Fixpoint transform {A B} (f : A -> outcome B) (l : list A) : outcome (list B) :=
  match l with
  | [] => Ok []
  | x :: r => y <- f x ;; ys <- transform f r ;; Ok (y :: ys)
  end.

(** src/string_utils.cc:77-89, read_comma_delimited_doubles. *)
Definition read_comma_delimited_doubles (line : string) : outcome (list T) :=
  let substrings := split line "," in
  let substrings :=
    if (last substrings "x" =? "")%string then removelast substrings else substrings in
  transform string_to_double substrings.

(** ** src/read_boundaries_file.cc *)

(** An ifstream: the unread bytes and the eofbit. *)
Record ifstream : Type := mkIfstream { unread : string; eofbit : bool }.

(** Splits at the first newline: the line, and what follows the newline if there is one. *)
Fixpoint break_line (s : string) : string * option string :=
  match s with
  | "" => ("", None)
  | String c r => if Ascii.eqb c "010" then ("", Some r)
                  else let '(l, rest) := break_line r in (String c l, rest)
  end.

(** getline(f, line) on a stream with exceptions(failbit|badbit): throws when the
    stream is already at end of file, or when it reaches the end of the file
    without having extracted any character. *)
Definition getline (f : ifstream) : outcome (string * ifstream) :=
  if eofbit f then Throw IosFailure
  else match break_line (unread f) with
       | (l, Some rest) => Ok (l, mkIfstream rest false)
       | (l, None) => if (l =? "")%string then Throw IosFailure
                      else Ok (l, mkIfstream "" true)
       end.

(** src/read_boundaries_file.cc:14-22, read_next_line. *)
Definition read_next_line (f : ifstream) : outcome (list T * ifstream) :=
  lf <- getline f ;;
  steps <- read_comma_delimited_doubles (fst lf) ;;
  Ok (steps, snd lf).

(** A file system: contents of the files that can be opened. *)
Definition filesystem : Type := string -> option string.

(** src/read_boundaries_file.cc:24-36, read_and_check_boundaries_file. *)
Definition read_and_check_boundaries_file (fs : filesystem) (filename : string)
  : outcome (list T * list T) :=
  match fs filename with
  | None => Throw (RuntimeError ("Unable to read input file '" ++ filename ++ "'"))
  | Some contents =>
      r1 <- read_next_line (mkIfstream contents false) ;;
      r2 <- read_next_line (snd r1) ;;
      Ok (fst r1, fst r2)
  end.

(** src/string_utils.cc:91-102, vector_to_string. *)
Fixpoint join_comma (l : list string) : string :=
  match l with
  | [] => ""
  | [x] => x
  | x :: r => x ++ ", " ++ join_comma r
  end.
Definition vector_to_string (E : env N) (v : list T) : string :=
  join_comma (map (show_double E) v) ++ String "010" "".

End ReadLine.
