(** * XReal: exact real arithmetic with infinities and NaN, as a [num].

    What the program would compute on a machine with unlimited precision.
    Simplification: there is one zero (IEEE has +0 and -0), treated as +0 when
    something is divided by it; strtod never overflows or underflows. *)
From Flocq Require Import Core.Zaux Core.Raux.
From Coq Require Import ZArith Reals List Bool.
From Verif Require Import Base Num.
Local Open Scope R_scope.

Inductive xr : Type := Fin (r : R) | PInf | NInf | NaN.

Definition xneg (x : xr) : xr :=
  match x with Fin r => Fin (- r) | PInf => NInf | NInf => PInf | NaN => NaN end.

Definition xadd (x y : xr) : xr :=
  match x, y with
  | Fin a, Fin b => Fin (a + b)
  | NaN, _ | _, NaN => NaN
  | PInf, NInf | NInf, PInf => NaN
  | PInf, _ | _, PInf => PInf
  | NInf, _ | _, NInf => NInf
  end.

Definition xsub (x y : xr) : xr :=
  match x, y with
  | Fin a, Fin b => Fin (a - b)
  | _, _ => xadd x (xneg y)
  end.

(** sign: negative, zero, positive *)
Definition xsign (x : xr) : option comparison :=
  match x with
  | Fin r => Some (Rcompare r 0)
  | PInf => Some Gt
  | NInf => Some Lt
  | NaN => None
  end.

Definition xinf_mul (x y : xr) : xr :=
  match xsign x, xsign y with
  | Some Gt, Some Gt | Some Lt, Some Lt => PInf
  | Some Gt, Some Lt | Some Lt, Some Gt => NInf
  | _, _ => NaN
  end.

Definition xmul (x y : xr) : xr :=
  match x, y with
  | Fin a, Fin b => Fin (a * b)
  | _, _ => xinf_mul x y
  end.

Definition xdiv (x y : xr) : xr :=
  match x, y with
  | Fin a, Fin b =>
      if Req_bool b 0 then
        match Rcompare a 0 with Gt => PInf | Lt => NInf | Eq => NaN end
      else Fin (a / b)
  | Fin _, PInf | Fin _, NInf => Fin 0
  | PInf, Fin b => if Rlt_bool b 0 then NInf else PInf
  | NInf, Fin b => if Rlt_bool b 0 then PInf else NInf
  | _, _ => NaN
  end.

Definition xlt (x y : xr) : bool :=
  match x, y with
  | NaN, _ | _, NaN => false
  | Fin a, Fin b => Rlt_bool a b
  | NInf, NInf => false
  | NInf, _ => true
  | _, PInf => match x with PInf => false | _ => true end
  | _, _ => false
  end.

Definition xeq (x y : xr) : bool :=
  match x, y with
  | Fin a, Fin b => Req_bool a b
  | PInf, PInf | NInf, NInf => true
  | _, _ => false
  end.

Definition xle (x y : xr) : bool :=
  match x, y with
  | Fin a, Fin b => Rle_bool a b
  | _, _ => xlt x y || xeq x y
  end.

Definition xexp (x : xr) : xr :=
  match x with Fin r => Fin (exp r) | PInf => PInf | NInf => Fin 0 | NaN => NaN end.

Definition xlog (x : xr) : xr :=
  match x with
  | Fin r => match Rcompare r 0 with Gt => Fin (ln r) | Eq => NInf | Lt => NaN end
  | PInf => PInf
  | _ => NaN
  end.

(** lgamma of an integer: log (k-1)!; +inf at the poles. *)
Definition xlgamma (k : Z) : xr :=
  if (k <=? 0)%Z then PInf else Fin (ln (INR (fact (Z.to_nat (k - 1))))).

Definition xsqrt (x : xr) : xr :=
  match x with
  | Fin r => if Rlt_bool r 0 then NaN else Fin (sqrt r)
  | PInf => PInf
  | _ => NaN
  end.

Definition xpow (x : xr) (k : Z) : xr :=
  match x with
  | Fin r => Fin (r ^ Z.to_nat k)
  | PInf => if (k =? 0)%Z then Fin 1 else PInf
  | NInf => if (k =? 0)%Z then Fin 1 else if Z.even k then PInf else NInf
  | NaN => if (k =? 0)%Z then Fin 1 else NaN
  end.

Definition xldexp (x : xr) (e : Z) : xr :=
  match x with Fin r => Fin (r * bpow radix2 e) | _ => x end.

Definition xtrunc (x : xr) : option Z :=
  match x with Fin r => Some (Ztrunc r) | _ => None end.

(** The value of a binary64 bit pattern. *)
Definition xof_bits (z : Z) : xr :=
  let s := Z.testbit z 63 in
  let e := (Z.land (Z.shiftr z 52) 2047)%Z in
  let m := (Z.land z (2 ^ 52 - 1))%Z in
  if (e =? 2047)%Z then (if (m =? 0)%Z then (if s then NInf else PInf) else NaN)
  else
    let v := if (e =? 0)%Z then IZR m * bpow radix2 (-1074)
             else IZR (m + 2 ^ 52) * bpow radix2 (e - 1075) in
    Fin (if s then - v else v).

Definition xstrtod (l : literal) : xr * bool :=
  match l with
  | LDec neg m e => (Fin ((if neg then -1 else 1) * IZR m * powerRZ 10 e), false)
  | LHex neg m e => (Fin ((if neg then -1 else 1) * IZR m * powerRZ 2 e), false)
  | LInf neg => (if neg then NInf else PInf, false)
  | LNan => (NaN, false)
  end.

(** [frexp] is a parameter: the exact theorems hold whatever exponent it reports. *)
Definition Xnum (frexp : xr -> Z) : num :=
  mkNum xr (fun z => Fin (IZR z)) NInf xadd xsub xmul xdiv xneg xlt xle xeq
    xexp xlog xlgamma xsqrt xpow frexp xldexp xtrunc xof_bits xstrtod.

(** long double in exact arithmetic: the same numbers; its frexp is arbitrary too. *)
Definition exact_ld {frexp : xr -> Z} (frexpl : xr -> Z) : long_double (Xnum frexp) :=
  @mkLD (Xnum frexp) (Xnum frexpl) (fun x => x) (fun x => x).
Definition long_double_ok {frexp : xr -> Z} (E : env (Xnum frexp)) : Prop :=
  exists frexpl, long_dbl E = exact_ld frexpl.
