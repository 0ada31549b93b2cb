(** * Binary64: IEEE-754 binary64 arithmetic as a [num].

    Round to nearest, ties to even; one NaN, signed zeros, infinities and
    subnormals, from the Flocq library.  The four operations, sqrt, ldexp and the
    conversions are correctly rounded, as IEEE-754 requires.  exp, log, lgamma, pow
    and strtod are parameters: nothing is assumed about the C library.
    Compiler flags that give up IEEE-754 (-ffast-math) are not modelled. *)
From Flocq Require Import Core.Core IEEE754.BinarySingleNaN.
From Coq Require Import ZArith Bool.
From Verif Require Import Base Num.
Local Open Scope Z_scope.

Definition f64 : Type := binary_float 53 1024.
#[global] Instance prec_ok : Prec_gt_0 53 := eq_refl.
#[global] Instance emax_ok : Prec_lt_emax 53 1024 := eq_refl.

(** The C library functions that IEEE-754 does not determine. *)
Record libm : Type := mkLibm {
  lm_exp : f64 -> f64;
  lm_log : f64 -> f64;
  lm_lgamma : Z -> f64;
  lm_pow : f64 -> Z -> f64;
  lm_frexp_special : f64 -> Z;      (* what frexp stores for an infinity or NaN *)
  lm_strtod : literal -> f64 * bool
}.

Definition b64_of_Z (z : Z) : f64 := binary_normalize 53 1024 prec_ok emax_ok mode_NE z 0 false.
Definition b64_trunc (x : f64) : option Z := if is_finite x then Some (Btrunc x) else None.
Definition b64_frexp (L : libm) (x : f64) : Z :=
  match x with
  | B754_zero _ => 0
  | B754_finite _ _ _ _ => snd (Bfrexp x)
  | _ => lm_frexp_special L x
  end.
(** sign, 11 bits of biased exponent, 52 bits of mantissa *)
Definition b64_of_bits (z : Z) : f64 :=
  let s := Z.testbit z 63 in
  let e := Z.land (Z.shiftr z 52) 2047 in
  let m := Z.land z (2 ^ 52 - 1) in
  if e =? 2047 then if m =? 0 then B754_infinity s else B754_nan
  else
    let m' := if e =? 0 then m else m + 2 ^ 52 in
    let e' := if e =? 0 then -1074 else e - 1075 in
    binary_normalize 53 1024 prec_ok emax_ok mode_NE (cond_Zopp s m') e' s.

Definition Bnum (L : libm) : num := mkNum f64
  b64_of_Z (B754_infinity true)
  (Bplus mode_NE) (Bminus mode_NE) (Bmult mode_NE) (Bdiv mode_NE) Bopp
  Bltb Bleb Beqb
  (lm_exp L) (lm_log L) (lm_lgamma L) (Bsqrt mode_NE) (lm_pow L)
  (b64_frexp L) (Bldexp mode_NE) b64_trunc b64_of_bits (lm_strtod L).
