(** * QNum: rational arithmetic, only to *run* the model on small inputs.

    The Poisson formula exp(-l + k*log l - lgamma(k+1)) is not rational.  To keep
    the model executable, a [Qnum] number is either a rational or a formal
    logarithm  "a + k*log(q) - log(f)"  built by the very expression above; [exp]
    drops the factor exp(a) (it cancels in every algorithm, because the weights of
    all segments add up to n and the result is divided by the same factor).
    Runs are tests, not proofs. *)
From Coq Require Import ZArith QArith Qreduction List String.
From Verif Require Import Base Num.
Local Open Scope Z_scope.

Inductive qn : Type :=
| Rat (q : Q)
| Log (q : Q)             (* log of the positive rational q, up to an additive rational *)
| Bad.

Definition qfact (n : Z) : Q := inject_Z (fold_left Z.mul (map Z.of_nat (seq 1 (Z.to_nat n))) 1).

Definition q_add (x y : qn) : qn :=
  match x, y with
  | Rat a, Rat b => Rat (Qred (a + b))
  | Rat _, Log b => Log b
  | Log a, Rat _ => Log a
  | Log a, Log b => Log (Qred (a * b))
  | _, _ => Bad
  end.
Definition q_neg (x : qn) : qn :=
  match x with Rat a => Rat (Qred (- a)) | Log a => Log (Qred (/ a)) | Bad => Bad end.
Definition q_mul (x y : qn) : qn :=
  match x, y with
  | Rat a, Rat b => Rat (Qred (a * b))
  | Rat a, Log b => if (Qden a =? 1)%positive then Log (Qred (Qpower b (Qnum a))) else Bad
  | _, _ => Bad
  end.
Definition q_div (x y : qn) : qn :=
  match x, y with Rat a, Rat b => Rat (Qred (a / b)) | _, _ => Bad end.
Definition q_lt (x y : qn) : bool :=
  match x, y with Rat a, Rat b => negb (Qle_bool b a) | _, _ => false end.
Definition q_le (x y : qn) : bool :=
  match x, y with Rat a, Rat b => Qle_bool a b | _, _ => false end.
Definition q_eq (x y : qn) : bool :=
  match x, y with Rat a, Rat b => Qeq_bool a b | _, _ => false end.

Definition qlog2 (q : Q) : Z :=   (* exponent e with 2^(e-1) <= q < 2^e, q > 0 *)
  let e := Z.log2 (Qnum q) - Z.log2 (Zpos (Qden q)) in
  if Qle_bool (Qpower 2 e) q then e + 1 else e.

Definition Qnum_ : num :=
  mkNum qn
    (fun z => Rat (inject_Z z))
    (Rat (inject_Z (- 10 ^ 30)))
    q_add (fun x y => q_add x (q_neg y)) q_mul q_div q_neg q_lt q_le q_eq
    (fun x => match x with Log q => Rat q | Rat _ => Rat 1%Q | Bad => Bad end)
    (fun x => match x with Rat q => if Qle_bool q 0 then Bad else Log q | _ => Bad end)
    (fun k => if k <=? 0 then Bad else Log (qfact (k - 1)))
    (fun x => match x with Rat q => Rat (inject_Z (Z.sqrt (Qnum q / Zpos (Qden q)))) | _ => Bad end)
    (fun x i => match x with Rat q => Rat (Qred (Qpower q i)) | _ => Bad end)
    (fun x => match x with Rat q => if Qle_bool q 0 then 0 else qlog2 q | _ => 0 end)
    (fun x e => match x with Rat q => Rat (Qred (q * Qpower 2 e)) | _ => Bad end)
    (fun x => match x with Rat q => Some (Z.quot (Qnum q) (Zpos (Qden q))) | _ => None end)
    (fun _ => Bad)
    (fun l => match l with
              | LDec neg m e => (Rat (Qred ((if neg then -1 else 1) * inject_Z m * Qpower 10 e)), false)
              | LHex neg m e => (Rat (Qred ((if neg then -1 else 1) * inject_Z m * Qpower 2 e)), false)
              | _ => (Bad, false)
              end).

(** Insertion sort as the environment's std::sort; no FFT (sizes below 128 never
    reach it); results are rendered as integer millionths. *)
Fixpoint insert_bound (x : bound Qnum_) (l : list (bound Qnum_)) : list (bound Qnum_) :=
  match l with
  | [] => [x]
  | y :: r => if q_lt (location x) (location y) then x :: l else y :: insert_bound x r
  end.
Definition Qenv (assert_live : bool) : env Qnum_ :=
  mkEnv Qnum_ assert_live (fun _ _ => Bad)
    (fun l => fold_right insert_bound [] l)
    (fun _ => []) (fun _ _ => [])
    (fun x => match x with
              | Rat q => show_Z (Qnum (q * 1000000) / Zpos (Qden (q * 1000000)))
              | _ => "nan"%string
              end)
    (@mkLD Qnum_ Qnum_ (fun x => x) (fun x => x)).
