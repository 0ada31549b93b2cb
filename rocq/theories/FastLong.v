(** * FastLong: the 80-bit long double as compiled with -ffast-math.

    src/ecdf1_mns2016.cc:37-49 computes in long double, for which the compiler uses the x87 instructions.  These have no
    contracted multiplication and no mode that replaces subnormal numbers by zero, so that of the transformations described in
    FastMath.v two remain: a sum of several terms is evaluated in any order and grouping, and a quotient may be
    the product with the rounded reciprocal.  A value of type long double is the list of the terms of the sum it stands for. *)
From Coq Require Import ZArith Reals List Bool Permutation.
From Flocq Require Import Core.Core IEEE754.BinarySingleNaN.
From Verif Require Import Base Num Binary64 LongDouble FastMath.
Import List. Import ListNotations.

(** [sums_to l w]: some order of additions computes w for the sum of the numbers in l. *)
Inductive sums_to : list f80 -> f80 -> Prop :=
| st_one : forall x, sums_to [x] x
| st_add : forall l l1 l2 a c, Permutation l (l1 ++ l2) -> sums_to l1 a -> sums_to l2 c ->
    sums_to l (Bplus mode_NE a c).

Definition quotient_of (x y w : f80) : Prop :=
  w = Bdiv mode_NE x y \/ w = Bmult mode_NE x (Bdiv mode_NE (f80_of_Z 1) y).

Record lcompiler : Type := mkLcompiler {
  lc_sum : list f80 -> f80;
  lc_div : f80 -> f80 -> f80;
  lc_sum_ok : forall l, l <> [] -> sums_to l (lc_sum l);
  lc_div_ok : forall x y, quotient_of x y (lc_div x y)
}.

(** long double under the compiler D. *)
Definition FLnum (D : lcompiler) (M : libml) : num := mkNum (list f80)
  (fun z => [f80_of_Z z]) [B754_infinity true]
  (fun x y => x ++ y) (fun x y => x ++ map Bopp y)
  (fun x y => [Bmult mode_NE (lc_sum D x) (lc_sum D y)])
  (fun x y => [lc_div D (lc_sum D x) (lc_sum D y)])
  (map Bopp)
  (fun x y => Bltb (lc_sum D x) (lc_sum D y)) (fun x y => Bleb (lc_sum D x) (lc_sum D y)) (fun x y => Beqb (lc_sum D x) (lc_sum D y))
  (fun x => [lm_expl M (lc_sum D x)]) (fun x => [lm_logl M (lc_sum D x)])
  (fun k => [lm_lgammal M k]) (fun x => [Bsqrt mode_NE (lc_sum D x)])
  (fun x k => [lm_powl M (lc_sum D x) k])
  (fun x => f80_frexp M (lc_sum D x)) (fun x k => [Bldexp mode_NE (lc_sum D x) k])
  (fun x => if is_finite (lc_sum D x) then Some (Btrunc (lc_sum D x)) else None)
  (fun _ => [B754_nan]) (fun _ => ([B754_nan], false)).

(** The conversions apply to evaluated numbers.  The x87 instructions that load and store a double keep subnormal numbers. *)
Definition fast87 (C : compiler) (L : libm) (D : lcompiler) (M : libml) : long_double (Fnum C L) :=
  @mkLD (Fnum C L) (FLnum D M) (fun x => [f80_of_f64 (cp_sum C x)]) (fun y => lit (f64_of_f80 (lc_sum D y))).
