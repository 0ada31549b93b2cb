(** * TinyMTVisits: with the published parameters the generator visits every state,
      from every seed, and what follows for its edge values. *)
From Coquelicot Require Import Coquelicot.
From Flocq Require Import Core.Core IEEE754.BinarySingleNaN.
From Coq Require Import ZArith Reals List Bool Lia Lra FinFun.
From Verif Require Import Base Num XReal Binary64 TinyMT MonteCarlo.
From Verif Require Import McSpec McFacts TinyMTFacts TinyMTPeriod McMore McEdge Binary64Facts.
Import List. Import ListNotations.
Local Open Scope Z_scope.

(** ** Every state is visited *)
Lemma visits_aux r s0 s1 (K : Z) : state_ok r -> masked r <> (0, 0) -> 0 <= K ->
  (forall i j, masked (Nat.iter i tinymt64_next_state r) = masked (Nat.iter j tinymt64_next_state r) <-> (K | Z.of_nat i - Z.of_nat j)) ->
  (forall s, word 63 (fst s) -> word 64 (snd s) -> s <> (0, 0) -> 1 <= code s <= K) ->
  word 63 s0 -> word 64 s1 -> (s0, s1) <> (0, 0) ->
  exists i : nat, Z.of_nat i < K /\ masked (Nat.iter i tinymt64_next_state r) = (s0, s1).
Proof.
  intros Ok NZ HK P R W0 W1 NS.
  destruct (nat_of K HK) as (M & HM).
  set (f := fun i => Z.to_nat (code (masked (Nat.iter i tinymt64_next_state r)))).
  assert (W : forall i, word 63 (fst (masked (Nat.iter i tinymt64_next_state r))) /\ word 64 (snd (masked (Nat.iter i tinymt64_next_state r)))).
  { intros i. apply masked_word, iter_ok, Ok. }
  assert (C : forall i, 1 <= code (masked (Nat.iter i tinymt64_next_state r)) <= K).
  { intros i. apply R; try apply W. apply iter_nonzero; assumption. }
  assert (I0 : forall x y, 1 <= x -> 1 <= y -> Z.to_nat x = Z.to_nat y -> x = y) by (clear; intros; lia).
  assert (ND : NoDup (map f (seq 0 M))).
  { assert (G : forall k a, (a + k <= M)%nat -> NoDup (map f (seq a k))).
    { induction k as [|k IH]; intros a Ha; [constructor|]. cbn [seq map]. constructor; [|apply IH; clear - Ha; lia].
      intros H. apply in_map_iff in H as (j & E & Hj). apply in_seq in Hj. unfold f in E.
      apply I0 in E; [|apply C|apply C].
      apply code_inj in E; try apply W.
      apply P in E. clear - E Ha Hj HM. apply Z.divide_pos_le in E; lia. }
    apply G. apply Nat.le_refl. }
  assert (I : incl (map f (seq 0 M)) (seq 1 M)).
  { intros z H. apply in_map_iff in H as (j & <- & Hj). apply in_seq. unfold f.
    pose proof (C j) as Cj. revert Cj. generalize (code (masked (Nat.iter j tinymt64_next_state r))). clear - HM. intros; lia. }
  assert (I' : incl (seq 1 M) (map f (seq 0 M))).
  { apply NoDup_length_incl; [exact ND|rewrite map_length, !seq_length; apply Nat.le_refl|exact I]. }
  pose proof (R (s0, s1) W0 W1 NS) as HR.
  assert (Hin : In (Z.to_nat (code (s0, s1))) (seq 1 M)).
  { apply in_seq. revert HR. generalize (code (s0, s1)). clear - HM. intros; lia. }
  apply I', in_map_iff in Hin as (i & E & Hi). exists i. apply in_seq in Hi. split; [clear - Hi HM; lia|].
  unfold f in E. apply I0 in E; [|apply C|apply HR].
  apply code_inj in E; [exact E|apply W|apply W|exact W0|exact W1].
Qed.
Lemma code_range s : word 63 (fst s) -> word 64 (snd s) -> s <> (0, 0) -> 1 <= code s <= 2 ^ 127 - 1.
Proof.
  intros A B C. destruct (code_word s A B) as (D & F). split; [|apply Z.lt_le_pred in F; exact F].
  destruct (Z.eq_dec (code s) 0) as [E|NE]; [|clear - D NE; lia]. exfalso. apply C. apply code_zero; assumption.
Qed.
Theorem visits_every r s0 s1 : state_ok r -> mat1 r = MAT1 -> mat2 r = MAT2 -> masked r <> (0, 0) ->
  word 63 s0 -> word 64 s1 -> (s0, s1) <> (0, 0) ->
  exists i : nat, Z.of_nat i < 2 ^ 127 - 1 /\ masked (Nat.iter i tinymt64_next_state r) = (s0, s1).
Proof.
  intros Ok P1 P2 NZ. apply visits_aux; [exact Ok|exact NZ|discriminate| |exact code_range].
  intros i j. apply period_between; assumption.
Qed.

Theorem seed_visits_every r seed s0 s1 : word 64 (tmat r) -> word 64 seed -> mat1 r = MAT1 -> mat2 r = MAT2 ->
  word 63 s0 -> word 64 s1 -> (s0, s1) <> (0, 0) ->
  exists i : nat, Z.of_nat i < 2 ^ 127 - 1 /\ masked (Nat.iter i tinymt64_next_state (tinymt64_init r seed)) = (s0, s1).
Proof.
  intros Ht Hs P1 P2.
  destruct (init_ok r seed) as (O & NZ); [rewrite P1; split; [discriminate|reflexivity]|rewrite P2; split; [discriminate|reflexivity]|exact Ht|exact Hs|].
  destruct (init_parameters r seed) as (E1 & E2). apply visits_every; [exact O|rewrite E1; exact P1|rewrite E2; exact P2|exact NZ].
Qed.

(** The next state depends on the masked state only. *)
Lemma next_masked a b : masked a = masked b -> parameters a = parameters b -> tinymt64_next_state a = tinymt64_next_state b.
Proof.
  intros M P. unfold masked in M. unfold parameters in P.
  pose proof (f_equal fst M) as M0. pose proof (f_equal snd M) as M1. cbn [fst snd] in M0, M1.
  pose proof (f_equal (fun p => fst (fst p)) P) as P1. pose proof (f_equal (fun p => snd (fst p)) P) as P2.
  pose proof (f_equal snd P) as P3. cbn [fst snd] in P1, P2, P3.
  unfold tinymt64_next_state. rewrite M0, M1, P1, P2, P3. reflexivity.
Qed.

(** From every seed the generator comes to a state that behaves like [mkTinymt s0 s1 ...]. *)
Lemma reaches r seed s0 s1 : word 64 (tmat r) -> word 64 seed -> mat1 r = MAT1 -> mat2 r = MAT2 ->
  word 63 s0 -> word 64 s1 -> (s0, s1) <> (0, 0) ->
  exists i t, Z.of_nat i < 2 ^ 127 - 1 /\ word 64 t /\
    let q := Nat.iter i tinymt64_next_state (tinymt64_init r seed) in
    state_ok q /\ tinymt64_next_state q = tinymt64_next_state (mkTinymt s0 s1 MAT1 MAT2 t).
Proof.
  intros Ht Hs P1 P2 W0 W1 NS. destruct (seed_visits_every r seed s0 s1 Ht Hs P1 P2 W0 W1 NS) as (i & Hi & E).
  destruct (init_ok r seed) as (O & NZ); [rewrite P1; split; [discriminate|reflexivity]|rewrite P2; split; [discriminate|reflexivity]|exact Ht|exact Hs|].
  destruct (init_parameters r seed) as (E1 & E2). pose proof (iter_ok _ i O) as Oi.
  revert E O Oi E1 E2. generalize (tinymt64_init r seed). intros q0 E O Oi E1 E2.
  exists i, (tmat q0). split; [exact Hi|]. split; [apply O|]. cbv zeta. split; [exact Oi|].
  apply next_masked.
  - rewrite E. unfold masked. cbn [status0 status1]. f_equal.
    change TINYMT64_MASK with (Z.ones 63). rewrite Z.land_ones by lia. symmetry. apply Z.mod_small. exact W0.
  - rewrite parameters_iter. unfold parameters. cbn [mat1 mat2 tmat]. rewrite E1, E2, P1, P2. reflexivity.
Qed.

(** ** The uniform 0 *)
Lemma zero_after t : tinymt64_temper (tinymt64_next_state (mkTinymt 2557411419939131393 2 MAT1 MAT2 t)) = 0.
Proof. unfold tinymt64_temper. replace (tmat (tinymt64_next_state (mkTinymt 2557411419939131393 2 MAT1 MAT2 t))) with t by reflexivity.
  replace (status0 (tinymt64_next_state (mkTinymt 2557411419939131393 2 MAT1 MAT2 t))) with 2 by (symmetry; vm_compute; reflexivity).
  replace (status1 (tinymt64_next_state (mkTinymt 2557411419939131393 2 MAT1 MAT2 t))) with 18446744073709551614 by (symmetry; vm_compute; reflexivity).
  reflexivity.
Qed.
Local Open Scope R_scope.
Lemma every_seed_nan frexp r seed : word 64 (tmat r) -> word 64 seed -> mat1 r = MAT1 -> mat2 r = MAT2 ->
  exists i : nat, (Z.of_nat i < 2 ^ 127 - 1)%Z /\
    let q := Nat.iter i tinymt64_next_state (tinymt64_init r seed) in
    fst (@tinymt64_generate_double01 (Xnum frexp) q) = Fin 0 /\
    exists r1, random_ecdf (N := Xnum frexp) 1 q = ([NaN], r1) /\
      forall b B, does_random_ecdf_cross (N := Xnum frexp) [b] [B] 1 q = Ok (false, r1).
Proof.
  intros Ht Hs P1 P2.
  destruct (reaches r seed 2557411419939131393 2 Ht Hs P1 P2) as (i & t & Hi & _ & O & E);
    [split; [discriminate|reflexivity]|split; [discriminate|reflexivity]|discriminate|].
  exists i. split; [exact Hi|]. cbv zeta. cbv zeta in O, E.
  set (q := Nat.iter i tinymt64_next_state (tinymt64_init r seed)) in *. clearbody q.
  pose proof (next_ok _ O) as O1. pose proof (draw_value (frexp := frexp) q O) as D0. rewrite E in D0. rewrite zero_after in D0.
  replace (IZR (Z.shiftr 0 12) / IZR (2 ^ 52)) with 0 in D0 by (change (Z.shiftr 0 12) with 0%Z; unfold Rdiv; ring). rewrite <- E in D0.
  pose proof (draw_value (frexp := frexp) _ O1) as D1.
  set (u := IZR (Z.shiftr (tinymt64_temper (tinymt64_next_state (tinymt64_next_state q))) 12) / IZR (2 ^ 52)) in *.
  assert (U : 0 <= u < 1). { apply unit_fraction, word_shiftr; try lia. apply temper_word, next_ok. exact O1. }
  clearbody u.
  assert (D : draws (N := Xnum frexp) q (map Fin [0; u]) (tinymt64_next_state (tinymt64_next_state q))).
  { cbn [map]. econstructor; [exact D0|econstructor; [exact D1|constructor]]. }
  assert (F : Forall (fun u => 0 <= u < 1) [u]) by (constructor; [exact U|constructor]).
  split; [rewrite D0; reflexivity|].
  exists (tinymt64_next_state (tinymt64_next_state q)). split.
  - exact (sample_with_zero (frexp := frexp) [] [u] q _ (Forall_nil _) F D).
  - intros b B. apply (zero_first_never_crosses (frexp := frexp) [u] q _ [b] [B]); [discriminate|exact F|exact D|simpl; lia|right; simpl; lia].
Qed.
