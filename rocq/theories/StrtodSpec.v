(** * StrtodSpec: what a correctly rounding strtod returns for the numbers in [0,1]. *)
From Flocq Require Import Core.Core IEEE754.BinarySingleNaN.
From Coq Require Import ZArith Reals.
From Verif Require Import Num Binary64.
Local Open Scope R_scope.

(** The real number a literal denotes. *)
Definition literal_value (l : literal) (v : R) : Prop :=
  match l with
  | LDec neg m e => v = (if neg then -1 else 1) * IZR m * powerRZ 10 e
  | LHex neg m e => v = (if neg then -1 else 1) * IZR m * powerRZ 2 e
  | _ => False
  end.
(** Zero, or not subnormal: strtod may report a range error for the other numbers. *)
Definition normal (v : R) : Prop := v = 0 \/ bpow radix2 (-1022) <= v.
(** strtod rounds to nearest, and reports no range error for normal numbers in [0,1]. *)
Definition strtod_correct (L : libm) : Prop := forall l v, literal_value l v -> 0 <= v <= 1 -> normal v ->
  exists x, lm_strtod L l = (x, false) /\ is_finite x = true /\ B2R x = round radix2 (FLT_exp (-1074) 53) ZnearestE v.
