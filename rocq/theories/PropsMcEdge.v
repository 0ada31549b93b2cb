(** * PropsMcEdge: properties C45-C48, C51-C53, the Monte-Carlo program and its generator
      at the edges.

    McSpec.v has the specification ([draws]); [state_ok] and [masked] are in
    TinyMTFacts.v; [MAT1] and [MAT2] (TinyMTPeriod.v) are the parameters the
    authors of TinyMT publish for this generator; [is_real x u] (TinyMTBinary64.v):
    the double x is finite and its value is u. *)
From Coquelicot Require Import Coquelicot.
From Flocq Require Import Core.Core IEEE754.BinarySingleNaN.
From Coq Require Import ZArith Reals List Bool String.
From Verif Require Import Base Num XReal Binary64 TinyMT MonteCarlo StringUtils.
From Verif Require Import Spec StringSpec CliSpec McSpec McFacts TinyMTFacts TinyMTPeriod McEdge McMore Cases TextMore TinyMTVisits TinyMTBinary64 TinyMTSeeds.
Import List. Import ListNotations.
Local Open Scope string_scope.

(** ** C45 *)
Theorem C45_period : forall r seed i j, word 64 (tmat r) -> word 64 seed -> mat1 r = MAT1 -> mat2 r = MAT2 ->
  (masked (Nat.iter i tinymt64_next_state (tinymt64_init r seed)) = masked (Nat.iter j tinymt64_next_state (tinymt64_init r seed)) <->
   (2 ^ 127 - 1 | Z.of_nat i - Z.of_nat j)%Z).
Proof. exact period_init. Qed.
Print Assumptions C45_period.
Theorem C45_unset_parameters_refuted : exists p : nat, (0 < p)%nat /\ (Z.of_nat p < 2 ^ 116)%Z /\
  forall r seed, mat1 r = 0%Z -> mat2 r = 0%Z -> word 64 (tmat r) -> word 64 seed ->
    masked (Nat.iter p tinymt64_next_state (tinymt64_init r seed)) = masked (tinymt64_init r seed).
Proof. exact zero_parameters_init. Qed.
Print Assumptions C45_unset_parameters_refuted.
Theorem C45_short_cycle_refuted : exists r, state_ok r /\ masked r <> (0, 0)%Z /\
  masked (Nat.iter 5 tinymt64_next_state r) = masked r.
Proof. exact (ex_intro _ stuck stuck_period). Qed.
Print Assumptions C45_short_cycle_refuted.
Example C45_case : exists r seed, word 64 (tmat r) /\ word 64 seed /\ mat1 r = MAT1 /\ mat2 r = MAT2.
Proof. exact (ex_intro _ zero_state (ex_intro _ 1%Z (conj (proj2 (proj2 (proj2 (proj2 zero_state_ok)))) (conj (conj Z.le_0_1 eq_refl) (conj eq_refl eq_refl))))). Qed.

Local Open Scope R_scope.
(** ** C46: the expected property is false *)
Theorem C46_sample_refuted : forall frexp, exists r r1, state_ok r /\ masked r <> (0, 0)%Z /\
  random_ecdf (N := Xnum frexp) 1 r = ([NaN], r1) /\
  forall b B, does_random_ecdf_cross (N := Xnum frexp) [b] [B] 1 r = Ok (false, r1).
Proof. exact nan_sample. Qed.
Print Assumptions C46_sample_refuted.
Theorem C46_every_seed_refuted : forall frexp r seed, word 64 (tmat r) -> word 64 seed -> mat1 r = MAT1 -> mat2 r = MAT2 ->
  exists i : nat, (Z.of_nat i < 2 ^ 127 - 1)%Z /\
    let q := Nat.iter i tinymt64_next_state (tinymt64_init r seed) in
    fst (@tinymt64_generate_double01 (Xnum frexp) q) = Fin 0 /\
    exists r1, random_ecdf (N := Xnum frexp) 1 q = ([NaN], r1) /\
      forall b B, does_random_ecdf_cross (N := Xnum frexp) [b] [B] 1 q = Ok (false, r1).
Proof. exact every_seed_nan. Qed.
Print Assumptions C46_every_seed_refuted.
Theorem C46_what_a_zero_does : forall frexp us vs r r1,
  Forall (fun u => 0 < u < 1) us -> Forall (fun u => 0 <= u < 1) vs ->
  draws (N := Xnum frexp) r (map Fin (us ++ 0 :: vs)) r1 ->
  random_ecdf (N := Xnum frexp) (List.length us + List.length vs) r =
    (repeat (Fin 0) (List.length us) ++ repeat NaN (List.length vs), r1)%list.
Proof. exact (@sample_with_zero). Qed.
Print Assumptions C46_what_a_zero_does.
Theorem C46_never_crosses : forall frexp vs r r1 (b B : list (car (Xnum frexp))), vs <> [] -> Forall (fun u => 0 <= u < 1) vs ->
  draws (N := Xnum frexp) r (map Fin (0 :: vs)) r1 ->
  (List.length B <= List.length vs)%nat -> (b = [] \/ (List.length vs <= List.length b)%nat) ->
  does_random_ecdf_cross (N := Xnum frexp) b B (List.length vs) r = Ok (false, r1).
Proof. exact (@zero_first_never_crosses). Qed.
Print Assumptions C46_never_crosses.
Example C46_case : exists u r1, 0 < u < 1 /\ draws (N := Xnum some_frexp) zero_state (map Fin [0; u]) r1.
Proof. exact zero_state_draws. Qed.

Local Open Scope Z_scope.
(** ** C47: the expected property is false *)
Theorem C47_no_simulations_refuted : forall frexp (E : env (Xnum frexp)) fuel uninit now fs prog command f nsim contents (b B : list (car (Xnum frexp))),
  nul_free nsim -> integer_text nsim 0 -> fs f = Some contents -> file_holds contents b B ->
  (b = [] \/ size B <= size b) ->
  command = "ecdf" \/ (command = "poisson" /\ Z.max (size b) (size B) <= 2147) ->
  mc_main E fuel uninit now fs [prog; command; f; nsim] = Ok ([Text (show_double E NaN)], 0).
Proof. exact (@no_simulations_nan). Qed.
Print Assumptions C47_no_simulations_refuted.
Example C47_case : nul_free "0" /\ integer_text "0" 0 /\ case_fs "bounds.txt" = Some case_text /\
  file_holds (N := Xnum some_frexp) case_text (map Fin case_b) (map Fin ones2).
Proof. exact case_zero. Qed.

(** ** C48: the expected property is false *)
Theorem C48_no_boundaries_refuted : forall frexp (E : env (Xnum frexp)) fuel uninit now fs prog f nsim num contents,
  nul_free nsim -> integer_text nsim num -> 1 <= num <= 2 ^ 63 - 1 -> fs f = Some contents -> file_holds (N := Xnum frexp) contents [] [] ->
  (1 <= fuel)%nat ->
  mc_main E fuel uninit now fs [prog; "ecdf"; f; nsim] = Undef "address of an element outside a vector".
Proof. exact (@both_empty_undefined). Qed.
Print Assumptions C48_no_boundaries_refuted.
Example C48_case : (nul_free "1000" /\ integer_text "1000" 1000) /\ file_holds (N := Xnum some_frexp) two_empty_lines [] [].
Proof. exact (conj case_integer case_two_empty_lines). Qed.

(** ** C51 *)
Theorem C51_every_state : forall r seed s0 s1, word 64 (tmat r) -> word 64 seed -> mat1 r = MAT1 -> mat2 r = MAT2 ->
  word 63 s0 -> word 64 s1 -> (s0, s1) <> (0, 0) ->
  exists i : nat, Z.of_nat i < 2 ^ 127 - 1 /\ masked (Nat.iter i tinymt64_next_state (tinymt64_init r seed)) = (s0, s1).
Proof. exact seed_visits_every. Qed.
Print Assumptions C51_every_state.
Example C51_case : exists r seed, word 64 (tmat r) /\ word 64 seed /\ mat1 r = MAT1 /\ mat2 r = MAT2.
Proof. exact C45_case. Qed.

(** ** C52: the range documented for tinymt64_generate_double is false in binary64 *)
Local Open Scope R_scope.
Theorem C52_ranges : forall L frexp r, state_ok r ->
  (exists u, fst (@tinymt64_generate_double01 (Xnum frexp) r) = Fin u /\ is_real (fst (@tinymt64_generate_double01 (Bnum L) r)) u /\ 0 <= u < 1) /\
  (exists u, fst (@tinymt64_generate_double12 (Xnum frexp) r) = Fin u /\ is_real (fst (@tinymt64_generate_double12 (Bnum L) r)) u /\ 1 <= u < 2) /\
  (exists u, fst (@tinymt64_generate_doubleOC (Xnum frexp) r) = Fin u /\ is_real (fst (@tinymt64_generate_doubleOC (Bnum L) r)) u /\ 0 < u <= 1) /\
  (exists u, fst (@tinymt64_generate_doubleOO (Xnum frexp) r) = Fin u /\ is_real (fst (@tinymt64_generate_doubleOO (Bnum L) r)) u /\ 0 < u < 1).
Proof. exact (@outputs64). Qed.
Print Assumptions C52_ranges.
Theorem C52_double_exact : forall frexp r, state_ok r ->
  exists u, fst (@tinymt64_generate_double (Xnum frexp) r) = Fin u /\ 0 <= u < 1 /\
    u = IZR (fst (tinymt64_generate_uint64 r)) / IZR (2 ^ 64).
Proof. exact (@double_exact). Qed.
Print Assumptions C52_double_exact.
Theorem C52_double : forall L r, state_ok r ->
  let x := fst (@tinymt64_generate_double (Bnum L) r) in
  is_finite x = true /\ 0 <= B2R x <= 1 /\
  (B2R x = 1 <-> (2 ^ 64 - 2 ^ 10 <= fst (tinymt64_generate_uint64 r))%Z).
Proof. exact (@double64). Qed.
Print Assumptions C52_double.
Theorem C52_double_below_1_refuted : forall L r seed, word 64 (tmat r) -> word 64 seed -> mat1 r = MAT1 -> mat2 r = MAT2 ->
  exists i : nat, (Z.of_nat i < 2 ^ 127 - 1)%Z /\
    let x := fst (@tinymt64_generate_double (Bnum L) (Nat.iter i tinymt64_next_state (tinymt64_init r seed))) in
    is_finite x = true /\ B2R x = 1.
Proof. exact (@every_seed_one). Qed.
Print Assumptions C52_double_below_1_refuted.
Example C52_case : state_ok zero_state.
Proof. exact zero_state_ok. Qed.

(** ** C53 *)
Local Open Scope Z_scope.
Theorem C53_few_seeds_share_a_state : forall r seeds c, word 32 (mat1 r) -> word 32 (mat2 r) -> word 64 (tmat r) ->
  NoDup seeds -> Forall (word 64) seeds -> Forall (fun s => masked (tinymt64_init r s) = c) seeds ->
  (List.length seeds <= 4)%nat /\ (c <> (84, 77) -> (List.length seeds <= 2)%nat).
Proof. exact few_seeds. Qed.
Print Assumptions C53_few_seeds_share_a_state.
Theorem C53_few_clock_values_share_a_state : forall r k clocks c, word 32 (mat1 r) -> word 32 (mat2 r) -> word 64 (tmat r) ->
  NoDup clocks -> Forall (fun t => 0 <= t < 2 ^ 63) clocks -> Forall (fun t => masked (rng_make r (t + k)) = c) clocks ->
  (List.length clocks <= 4)%nat.
Proof. exact few_clocks. Qed.
Print Assumptions C53_few_clock_values_share_a_state.
Example C53_case : word 32 (mat1 collapse) /\ word 32 (mat2 collapse) /\ word 64 (tmat collapse) /\
  NoDup [11345121226684766726] /\ Forall (word 64) [11345121226684766726] /\
  Forall (fun s => masked (tinymt64_init collapse s) = (84, 77)) [11345121226684766726].
Proof. exact collapse_case. Qed.
