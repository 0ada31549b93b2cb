(** * LongDouble: the 80-bit [long double] of x86 as a [num], and its conversions from and to double.

    A significand of 64 bits and an exponent of 15 bits; round to nearest, ties to even; one NaN,
    signed zeros, infinities and subnormals, from the Flocq library.  The four operations, sqrt,
    ldexp and the conversions are correctly rounded.  expl, logl, lgammal and powl are
    parameters.  src/ecdf1_mns2016.cc:37-49 is the only place that uses the type; reading bit patterns
    and text as a long double, which no code does, gives NaN here. *)
From Flocq Require Import Core.Core IEEE754.BinarySingleNaN.
From Coq Require Import ZArith Bool.
From Verif Require Import Base Num Binary64.
Local Open Scope Z_scope.

Definition f80 : Type := binary_float 64 16384.
#[global] Instance prec80_ok : Prec_gt_0 64 := eq_refl.
#[global] Instance emax80_ok : Prec_lt_emax 64 16384 := eq_refl.

(** The C library functions for long double. *)
Record libml : Type := mkLibml {
  lm_expl : f80 -> f80;
  lm_logl : f80 -> f80;
  lm_lgammal : Z -> f80;
  lm_powl : f80 -> Z -> f80;
  lm_frexpl_special : f80 -> Z      (* what frexpl stores for an infinity or NaN *)
}.

Definition f80_of_Z (z : Z) : f80 := binary_normalize 64 16384 prec80_ok emax80_ok mode_NE z 0 false.
Definition f80_frexp (M : libml) (x : f80) : Z :=
  match x with
  | B754_zero _ => 0
  | B754_finite _ _ _ _ => snd (Bfrexp x)
  | _ => lm_frexpl_special M x
  end.

Definition Lnum (M : libml) : num := mkNum f80
  f80_of_Z (B754_infinity true)
  (Bplus mode_NE) (Bminus mode_NE) (Bmult mode_NE) (Bdiv mode_NE) Bopp
  Bltb Bleb Beqb
  (lm_expl M) (lm_logl M) (lm_lgammal M) (Bsqrt mode_NE) (lm_powl M)
  (f80_frexp M) (Bldexp mode_NE) (fun x => if is_finite x then Some (Btrunc x) else None)
  (fun _ => B754_nan) (fun _ => (B754_nan, false)).

(** double to long double: exact. *)
Definition f80_of_f64 (x : f64) : f80 :=
  match x with
  | B754_zero s => B754_zero s
  | B754_infinity s => B754_infinity s
  | B754_nan => B754_nan
  | B754_finite s m e _ => binary_normalize 64 16384 prec80_ok emax80_ok mode_NE (cond_Zopp s (Zpos m)) e s
  end.
(** long double to double: rounds. *)
Definition f64_of_f80 (x : f80) : f64 :=
  match x with
  | B754_zero s => B754_zero s
  | B754_infinity s => B754_infinity s
  | B754_nan => B754_nan
  | B754_finite s m e _ => binary_normalize 53 1024 prec_ok emax_ok mode_NE (cond_Zopp s (Zpos m)) e s
  end.

(** The long double of x86 beside the double of [Bnum L]. *)
Definition x87 (L : libm) (M : libml) : long_double (Bnum L) :=
  @mkLD (Bnum L) (Lnum M) f80_of_f64 f64_of_f80.
