(** * ShowSpec: the text an ostream writes for a double.

    Written from the C++ standard ([facet.num.put.virtuals]: without a floatfield and with the default
    precision, operator<< converts like printf's %.6g) and from the C standard (7.21.6.1: %g, %f and %e). *)
From Coq Require Import ZArith Reals Bool Ascii String.
From Verif Require Import Base Num StringSpec StrtodSpec Binary64 XReal MonteCarlo.
From Flocq Require Import IEEE754.BinarySingleNaN.
From Coq Require Import List.
Import ListNotations.
Local Open Scope string_scope.
Local Open Scope R_scope.

(** [d] is the integer nearest to [x], the even one of two. *)
Definition nearest_integer (x : R) (d : Z) : Prop :=
  Rabs (x - IZR d) <= 1/2 /\ (Rabs (x - IZR d) = 1/2 -> Z.even d = true).

(** %.5e: [v] is rounded to six significant digits, [d] * 10^([X]-5). *)
Inductive six_digits (v : R) : Z -> Z -> Prop :=
| six_within X d : powerRZ 10 X <= Rabs v < powerRZ 10 (X + 1) ->
    nearest_integer (Rabs v * powerRZ 10 (5 - X)) d -> (d < 10 ^ 6)%Z -> six_digits v d X
| six_carried X : powerRZ 10 X <= Rabs v < powerRZ 10 (X + 1) ->
    nearest_integer (Rabs v * powerRZ 10 (5 - X)) (10 ^ 6)%Z -> six_digits v (10 ^ 5)%Z (X + 1).

Local Open Scope Z_scope.

(** A natural number without leading zeros. *)
Definition plain (m : Z) (s : string) : Prop :=
  positional dec_digit 10 s m /\ s <> "" /\ (forall r, s = String "0" r -> r = "").
(** [m] / 10^[k] with [k] digits after the point, from which trailing zeros are removed, and the point
    with them if no digit remains. *)
Inductive fixed_text (m k : Z) : string -> Prop :=
| fixed_int ip : plain (m / 10 ^ k) ip -> m mod 10 ^ k = 0 -> fixed_text m k ip
| fixed_frac ip fp zs : plain (m / 10 ^ k) ip ->
    positional dec_digit 10 (fp ++ zs) (m mod 10 ^ k) -> slen (fp ++ zs) = k ->
    each (fun c => c = "0"%char) zs -> fp <> "" -> (forall s, fp <> s ++ "0") ->
    fixed_text m k (ip ++ String "." fp).
(** "The exponent always contains at least two digits, and only as many more digits as necessary". *)
Inductive exponent_text (X : Z) : string -> Prop :=
| exponent_intro sg s : (0 <= X /\ sg = "+") \/ (X < 0 /\ sg = "-") ->
    positional dec_digit 10 s (Z.abs X) -> slen s = 2 \/ (2 < slen s /\ forall r, s <> String "0" r) ->
    exponent_text X (sg ++ s).
(** "if P > X >= -4, the conversion is with style f and precision P - (X + 1); otherwise, the conversion
    is with style e and precision P - 1", P = 6. *)
Inductive general_text (d X : Z) : string -> Prop :=
| general_f s : -4 <= X < 6 -> fixed_text d (5 - X) s -> general_text d X s
| general_e m e : X < -4 \/ 6 <= X -> fixed_text d 5 m -> exponent_text X e -> general_text d X (m ++ String "e" e).

(** The text of the real number [v]; a negative zero has a sign. *)
Inductive printed (v : R) : string -> Prop :=
| printed_zero s : v = 0%R -> s = "0" \/ s = "-0" -> printed v s
| printed_pos d X s : (0 < v)%R -> six_digits v d X -> general_text d X s -> printed v s
| printed_neg d X s : (v < 0)%R -> six_digits v d X -> general_text d X s -> printed v ("-" ++ s).

(** [w] is the number a text stands for, for a reader such as strtod. *)
Definition text_value (s : string) (w : R) : Prop := exists l, numeral s l /\ literal_value l w.

(** The ostream writes numbers this way; [value] is the real number a double stands for, if any. *)
Definition show_ok {N : num} (value : car N -> R -> Prop) (E : env N) : Prop :=
  forall x v, value x v -> printed v (show_double E x).
Definition real_of_xr {frexp : xr -> Z} (x : car (Xnum frexp)) (v : R) : Prop := (x : xr) = Fin v.
Definition real_of_f64 {L : libm} (x : car (Bnum L)) (v : R) : Prop := is_finite (x : f64) = true /\ v = B2R (x : f64).

(** A program ended with status 0 and its output is one line, which reads as the number [w]. *)
Definition prints (o : outcome (list item * Z)) (w : R) : Prop :=
  exists s, o = Ok ([Text s], 0%Z) /\ text_value s w.
