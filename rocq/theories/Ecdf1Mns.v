(** * Ecdf1Mns: model of src/ecdf1_mns2016.cc (printing helpers excluded).

    FLOAT is [long double] in the source (line 14 selects 80 bits): the floating-point
    type [ld] of a [long_double] (Num.v), of which nothing is assumed here. *)
From Coq Require Import ZArith List Bool String.
From Verif Require Import Base Num Common.
Local Open Scope string_scope.
Local Open Scope Z_scope.

Section Ecdf1Mns.
Context {N : num} (E : env N).
Context {F : num}.      (* FLOAT *)
Notation T := (car F).

(** src/ecdf1_mns2016.cc:76-91, class PolynomialTranslatedMonomials:
    sum over i <= degree of mult[i] * (x + add[i])^i. *)
Record ptm : Type := mkPtm {
  degree : Z;
  mult : list T;        (* multiplicative_coefficients *)
  addc : list T         (* additive_coefficients *)
}.

(** src/ecdf1_mns2016.cc:93-101.  memset 0 makes every FLOAT equal to 0. *)
Definition ptm_make (max_degree : Z) : outcome ptm :=
  do cassert (asserts E) (0 <=? max_degree) "max_degree >= 0" ;;
  Ok (mkPtm 0 (vec (max_degree + 1) n0) (vec (max_degree + 1) n0)).

(** The two assertions shared by the accessors (lines 111-112, 118-119, 126-127). *)
Definition check_degree (p : ptm) (d : Z) : outcome unit :=
  do cassert (asserts E) (0 <=? d) "degree >= 0" ;;
  cassert (asserts E) (d <=? degree p) "degree <= this->degree".

(** src/ecdf1_mns2016.cc:109-114. *)
Definition get_multiplicative_coefficient (p : ptm) (d : Z) : outcome T :=
  do check_degree p d ;; rd (mult p) d.

(** src/ecdf1_mns2016.cc:116-122. *)
Definition set_multiplicative_coefficient (p : ptm) (d : Z) (x : T) : outcome ptm :=
  do check_degree p d ;;
  m <- wr (mult p) d x ;; Ok (mkPtm (degree p) m (addc p)).

(** src/ecdf1_mns2016.cc:124-130. *)
Definition set_additive_coefficient (p : ptm) (d : Z) (x : T) : outcome ptm :=
  do check_degree p d ;;
  a <- wr (addc p) d x ;; Ok (mkPtm (degree p) (mult p) a).

(** src/ecdf1_mns2016.cc:132-139. *)
Definition evaluate (p : ptm) (x : T) : outcome T :=
  for_ 0 (degree p + 1) n0 (fun i result =>
    m <- rd (mult p) i ;;
    a <- rd (addc p) i ;;
    Ok (n_add result (n_mul m (n_pow (n_add x a) i)))).

(** src/ecdf1_mns2016.cc:141-151. *)
Definition integrate (p : ptm) : outcome ptm :=
  ma <- for_down (degree p + 1) 1 (mult p, addc p) (fun i ma =>
          let '(m, a) := ma in
          x <- rd m (i - 1) ;;
          m <- wr m i (n_div x (n_of_Z i)) ;;
          y <- rd a (i - 1) ;;
          a <- wr a i y ;;
          Ok (m, a)) ;;
  let '(m, a) := ma in
  a <- wr a 1 n0 ;;
  a <- wr a 0 n0 ;;
  m <- wr m 0 n0 ;;
  Ok (mkPtm (degree p + 1) m a).

(** src/ecdf1_mns2016.cc:153-158. *)
Definition ldexp_all_multiplicative_coefficients (p : ptm) (e : Z) : outcome ptm :=
  m <- for_ 0 (degree p + 1) (mult p) (fun i m =>
         x <- rd m i ;; wr m i (n_ldexp x e)) ;;
  Ok (mkPtm (degree p) m (addc p)).

(** src/ecdf1_mns2016.cc:177-188. *)
Definition maximum_multiplicative_coefficient (p : ptm) : outcome T :=
  do cassert (asserts E) (1 <=? degree p) "p.degree >= 1" ;;
  m0 <- get_multiplicative_coefficient p 0 ;;
  for_ 0 (degree p + 1) m0 (fun i m =>
    x <- get_multiplicative_coefficient p i ;;
    Ok (if n_lt m x then x else m)).

(** src/ecdf1_mns2016.cc:190-195.  The variable is static, so the function is not
    re-entrant: this models calls made one after another. *)
Definition extract_exponent (x : T) : Z := n_frexp x.

(** src/ecdf1_mns2016.cc:202. *)
Definition NUM_ITERATIONS_BETWEEN_EXP_FIXES : Z := 16.

End Ecdf1Mns.
Arguments ptm F : clear implicits.

Section Ecdf1MnsMain.
Context {N : num} (E : env N) (LD : long_double N).
Notation T := (car N).
Notation F := (ld LD).

(** src/ecdf1_mns2016.cc:210-227, one iteration of the loop over i.
    The state is the polynomial and total_exponent_delta.  -b[i] is a double, b[i] and -b[i]
    are converted to FLOAT when passed to the methods. *)
Definition mns_step (b : list T) (i : Z) (s : ptm F * Z) : outcome (ptm F * Z) :=
  let '(p, total_exponent_delta) := s in
  p <- integrate p ;;
  bi <- rd b i ;;
  p <- set_additive_coefficient E p 1 (widen LD (n_neg bi)) ;;
  v <- evaluate p (widen LD bi) ;;
  p <- set_multiplicative_coefficient E p 0 (n_neg v) ;;
  if Z.rem i NUM_ITERATIONS_BETWEEN_EXP_FIXES =? 0 then
    max_coef <- maximum_multiplicative_coefficient E p ;;
    let highest_exponent := extract_exponent max_coef in
    if highest_exponent <? 0 then
      p <- ldexp_all_multiplicative_coefficients p (0 - highest_exponent) ;;
      Ok (p, total_exponent_delta + (0 - highest_exponent))
    else Ok (p, total_exponent_delta)
  else Ok (p, total_exponent_delta).

(** src/ecdf1_mns2016.cc:197-242, ecdf1_mns2016_b, FLOAT being [ld LD].  The result is converted
    to double by the return statement. *)
Definition mns_b (b : list T) : outcome T :=
  let n := size b in
  do check_boundary_vector "b" n b ;;
  p <- ptm_make E (n + 1) ;;
  p <- set_multiplicative_coefficient E p 0 n1 ;;
  s <- for_ 0 n (p, 0) (mns_step b) ;;
  let '(p, total_exponent_delta) := s in
  integral_result <- evaluate p n1 ;;
  let log_integral_result := n_log integral_result in
  Ok (narrow LD (n_exp (n_sub (n_add (n_lgamma (n + 1)) log_integral_result)
                              (n_mul (n_of_Z total_exponent_delta) (n_log (n_of_Z 2)))))).
End Ecdf1MnsMain.

Section Ecdf1MnsApi.
Context {N : num} (E : env N).
Notation T := (car N).

(** src/ecdf1_mns2016.cc:197-242, ecdf1_mns2016_b. *)
Definition ecdf1_mns2016_b (b : list T) : outcome T := mns_b E (long_dbl E) b.

(** src/ecdf1_mns2016.cc:244-255, ecdf1_mns2016_B. *)
Definition ecdf1_mns2016_B (B : list T) : outcome T :=
  let n := size B in
  do check_boundary_vector "B" n B ;;
  steps <- for_ 0 n (vec n n0) (fun i st =>
             x <- rd B (n - 1 - i) ;; wr st i (n_sub n1 x)) ;;
  ecdf1_mns2016_b steps.
End Ecdf1MnsApi.
