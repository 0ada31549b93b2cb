(** * PropsBinary64: property C20, in IEEE-754 binary64 arithmetic.

    [Bnum L] (Binary64.v): round-to-nearest-even binary64 with signed zeros, infinities
    and NaN; [L] supplies exp, log, lgamma, pow and strtod, about which nothing is assumed.
    [accepted64 v] (Binary64Facts.v): finite numbers whose values are non-decreasing
    and lie in [0,1]. *)
From Coquelicot Require Import Coquelicot.
From Flocq Require Import IEEE754.BinarySingleNaN.
From Coq Require Import ZArith Reals List String.
From Verif Require Import Base Num Common Ecdf2 Ecdf1New Ecdf1Mns Binary64 SafeFft Binary64Facts Binary64Main Binary64Cases XEcdf2Main.
Import List. Import ListNotations.
Local Open Scope R_scope.

(** ** C20 *)
Theorem C20_validation_exact : forall (L : libm) name n (v : list f64),
  Forall (fun x => is_nan x = false) v ->
  (@check_boundary_vector (Bnum L) name n v = Ok tt <-> Z.of_nat (length v) = n /\ accepted64 v).
Proof. exact check_iff. Qed.
Print Assumptions C20_validation_exact.

Theorem C20_reflected_accepted : forall v : list f64, accepted64 v ->
  accepted64 (map (fun x => Bminus mode_NE (b64_of_Z 1) x) (rev v)).
Proof. exact reflected64. Qed.
Print Assumptions C20_reflected_accepted.

Theorem C20_ecdf2_returns : forall (L : libm) (E : env (Bnum L)) (b B : list f64) use_fft,
  accepted64 b -> accepted64 B -> length b = length B ->
  (Z.of_nat (length b) <= INT_MAX)%Z -> sort_ok E -> (use_fft = true -> fft_lengths E) ->
  (exists r, @ecdf2 (Bnum L) E b B use_fft = Ok r) \/
  (asserts E = true /\ (exists s, @ecdf2 (Bnum L) E b B use_fft = Abort s) /\
   exists i, (S i < length b)%nat /\ nth (S i) (map B2R B) 0 < nth i (map B2R b) 0).
Proof. exact ecdf2_64_returns. Qed.
Print Assumptions C20_ecdf2_returns.

Theorem C20_ecdf1_new_returns : forall (L : libm) (E : env (Bnum L)) (v : list f64),
  accepted64 v -> (1 <= Z.of_nat (length v) <= INT_MAX)%Z -> fft_lengths E ->
  (length v = 1%nat -> asserts E = false) ->
  (exists r, @ecdf1_new_B (Bnum L) E v = Ok r) /\ (exists r, @ecdf1_new_b (Bnum L) E v = Ok r).
Proof. exact new64_returns. Qed.
Print Assumptions C20_ecdf1_new_returns.

Theorem C20_ecdf1_new_one_aborts : forall (L : libm) (E : env (Bnum L)) (x : f64),
  accepted64 [x] -> asserts E = true -> exists s, @ecdf1_new_B (Bnum L) E [x] = Abort s.
Proof. exact new_one_abort. Qed.
Print Assumptions C20_ecdf1_new_one_aborts.

Theorem C20_ecdf1_mns2016_returns : forall (L : libm) (E : env (Bnum L)) (v : list f64), accepted64 v ->
  (exists r, @ecdf1_mns2016_b (Bnum L) E v = Ok r) /\ (exists r, @ecdf1_mns2016_B (Bnum L) E v = Ok r).
Proof. exact mns64_returns. Qed.
Print Assumptions C20_ecdf1_mns2016_returns.

(** b = (-0.0, 0.1, 0.5), B = (0.1, 0.5, 1.0), where 0.1 is not exactly 1/10. *)
Example C20_case : forall L a,
  (accepted64 case64_b /\ accepted64 case64_B) /\ ~ bad_pair (map B2R case64_b) (map B2R case64_B) /\
  sort_ok (env64 L a) /\ fft_lengths (env64 L a).
Proof.
  exact (fun L a => conj case64_accepted (conj case64_good (conj (env64_sort L a) (env64_lengths L a)))).
Qed.
