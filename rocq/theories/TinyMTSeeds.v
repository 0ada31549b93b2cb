(** * TinyMTSeeds: at most four seeds share a state. *)
From Coq Require Import ZArith List Bool Lia.
From Verif Require Import Base Num TinyMT MonteCarlo.
From Verif Require Import TinyMTFacts.
Import List. Import ListNotations.
Local Open Scope Z_scope.

Definition words (r : tinymt) : Z * Z := (status0 r, status1 r).
Lemma lxor_inj a b c : Z.lxor a c = Z.lxor b c -> a = b.
Proof.
  intros H. apply (f_equal (fun x => Z.lxor x c)) in H.
  rewrite !Z.lxor_assoc, !Z.lxor_nilpotent, !Z.lxor_0_r in H. exact H.
Qed.

(** A mixing round changes one word by a function of the other. *)
Lemma round_injective i a b : words (init_round i a) = words (init_round i b) -> words a = words b.
Proof.
  unfold words, init_round, set_status, get_status. replace (Z.odd (i - 1)) with (negb (Z.odd i)).
  2: { replace (i - 1) with (Z.pred i) by lia. rewrite Z.odd_pred, <- Z.negb_odd. reflexivity. }
  destruct (Z.odd i); cbn [negb status0 status1]; intros H; injection H as H0 H1.
  - rewrite H0 in H1. apply lxor_inj in H1. congruence.
  - rewrite H1 in H0. apply lxor_inj in H0. congruence.
Qed.
Lemma rounds_injective l : forall a b, words (fold_left (fun r i => init_round i r) l a) = words (fold_left (fun r i => init_round i r) l b) ->
  words a = words b.
Proof.
  induction l as [|i l IH]; intros a b H; [exact H|]. cbn [fold_left] in H. apply IH in H. apply (round_injective i). exact H.
Qed.

(** tinymt64_init before period_certification. *)
Definition mixed (r : tinymt) (seed : Z) : tinymt :=
  fold_left (fun r i => init_round i r) [1; 2; 3; 4; 5; 6; 7]
    (mkTinymt (Z.lxor seed (u64 (Z.shiftl (mat1 r) 32))) (Z.lxor (mat2 r) (tmat r)) (mat1 r) (mat2 r) (tmat r)).
Lemma init_mixed r seed : tinymt64_init r seed = period_certification (mixed r seed).
Proof. unfold mixed. reflexivity. Qed.
Lemma mixed_injective r s s' : words (mixed r s) = words (mixed r s') -> s = s'.
Proof.
  unfold mixed. generalize [1; 2; 3; 4; 5; 6; 7]. intros l H. apply rounds_injective in H. unfold words in H. cbn [status0 status1] in H.
  pose proof (f_equal fst H) as H0. cbn [fst] in H0. apply lxor_inj in H0. exact H0.
Qed.
Lemma round_words i r : word 64 (status0 r) -> word 64 (status1 r) -> word 64 (status0 (init_round i r)) /\ word 64 (status1 (init_round i r)).
Proof.
  intros H0 H1. unfold init_round, set_status, get_status.
  destruct (Z.odd i), (Z.odd (i - 1)); cbn [status0 status1]; split; try assumption; apply word_lxor; try assumption; try apply word_u64; lia.
Qed.
Lemma rounds_words l : forall r, word 64 (status0 r) -> word 64 (status1 r) ->
  word 64 (status0 (fold_left (fun r i => init_round i r) l r)) /\ word 64 (status1 (fold_left (fun r i => init_round i r) l r)).
Proof.
  induction l as [|i l IH]; intros r H0 H1; [split; assumption|]. cbn [fold_left]. destruct (round_words i r H0 H1). apply IH; assumption.
Qed.
Lemma mixed_words r s : word 32 (mat1 r) -> word 32 (mat2 r) -> word 64 (tmat r) -> word 64 s ->
  word 64 (status0 (mixed r s)) /\ word 64 (status1 (mixed r s)).
Proof.
  intros H1 H2 H3 H. unfold mixed. generalize [1; 2; 3; 4; 5; 6; 7]. intros l. apply rounds_words; cbn [status0 status1]; apply word_lxor; try lia; try assumption; [apply word_u64|].
  apply (word_le 32); [lia|exact H2].
Qed.

(** The 64-bit words whose lower 63 bits are c. *)
Lemma top_bit x : word 64 x -> x = Z.land x TINYMT64_MASK \/ x = Z.land x TINYMT64_MASK + 2 ^ 63.
Proof.
  intros (A & B). change TINYMT64_MASK with (Z.ones 63). rewrite Z.land_ones by lia.
  pose proof (Z.div_mod x (2 ^ 63) ltac:(lia)) as D. pose proof (Z.div_pos x (2 ^ 63) A ltac:(lia)).
  assert (x / 2 ^ 63 < 2) by (apply Z.div_lt_upper_bound; lia).
  assert (C : x / 2 ^ 63 = 0 \/ x / 2 ^ 63 = 1) by lia. destruct C as [C|C]; rewrite C in D; lia.
Qed.

Lemma certified_from q c : word 64 (status0 q) -> masked (period_certification q) = c ->
  In (words q) [c; (fst c + 2 ^ 63, snd c)] \/ (c = (84, 77) /\ In (words q) [(0, 0); (2 ^ 63, 0)]).
Proof.
  intros W E. destruct (top_bit _ W) as [T|T]; unfold period_certification in E.
  - destruct (Z.eqb_spec (Z.land (status0 q) TINYMT64_MASK) 0) as [Z0|Z0]; [destruct (Z.eqb_spec (status1 q) 0) as [Z1|Z1]|]; cbn [andb] in E.
    + right. split; [symmetry; exact E|]. left. unfold words. rewrite T, Z0, Z1. reflexivity.
    + left. left. rewrite <- E. unfold words, masked. f_equal. symmetry. exact T.
    + left. left. rewrite <- E. unfold words, masked. f_equal. symmetry. exact T.
  - destruct (Z.eqb_spec (Z.land (status0 q) TINYMT64_MASK) 0) as [Z0|Z0]; [destruct (Z.eqb_spec (status1 q) 0) as [Z1|Z1]|]; cbn [andb] in E.
    + right. split; [symmetry; exact E|]. right. left. unfold words. rewrite T, Z0, Z1. reflexivity.
    + left. right. left. rewrite <- E. unfold words, masked. cbn [fst snd]. f_equal. symmetry. exact T.
    + left. right. left. rewrite <- E. unfold words, masked. cbn [fst snd]. f_equal. symmetry. exact T.
Qed.

Theorem few_seeds r seeds c : word 32 (mat1 r) -> word 32 (mat2 r) -> word 64 (tmat r) ->
  NoDup seeds -> Forall (word 64) seeds -> Forall (fun s => masked (tinymt64_init r s) = c) seeds ->
  (List.length seeds <= 4)%nat /\ (c <> (84, 77) -> (List.length seeds <= 2)%nat).
Proof.
  intros H1 H2 H3 ND FW FE. rewrite Forall_forall in FW, FE.
  assert (NDm : NoDup (map (fun s => words (mixed r s)) seeds)).
  { clear - ND. induction ND as [|s l NI ND IH]; [constructor|]. cbn [map]. constructor; [|exact IH].
    intros H. apply in_map_iff in H as (s' & E & Hs'). apply mixed_injective in E. subst s'. contradiction. }
  assert (F : forall s, In s seeds -> In (words (mixed r s)) [c; (fst c + 2 ^ 63, snd c)] \/
    (c = (84, 77) /\ In (words (mixed r s)) [(0, 0); (2 ^ 63, 0)])).
  { intros s Hs. apply certified_from; [apply (mixed_words r s H1 H2 H3 (FW s Hs))|]. rewrite <- init_mixed. apply FE. exact Hs. }
  rewrite <- (map_length (fun s => words (mixed r s)) seeds). split.
  - apply (NoDup_incl_length NDm (l' := [c; (fst c + 2 ^ 63, snd c); (0, 0); (2 ^ 63, 0)])).
    intros x Hx. apply in_map_iff in Hx as (s & <- & Hs). destruct (F s Hs) as [A|(_ & A)].
    + apply (in_or_app [c; (fst c + 2 ^ 63, snd c)] [(0, 0); (2 ^ 63, 0)]). left. exact A.
    + apply (in_or_app [c; (fst c + 2 ^ 63, snd c)] [(0, 0); (2 ^ 63, 0)]). right. exact A.
  - intros NC. apply (NoDup_incl_length NDm (l' := [c; (fst c + 2 ^ 63, snd c)])).
    intros x Hx. apply in_map_iff in Hx as (s & <- & Hs). destruct (F s Hs) as [A|(A & _)]; [exact A|contradiction].
Qed.

Lemma rng_make_init r s : rng_make r s = tinymt64_init r (u64 s).
Proof. unfold rng_make. reflexivity. Qed.
(** crossprob_mc: the seed is the clock plus a number that depends on n. *)
Theorem few_clocks r k clocks c : word 32 (mat1 r) -> word 32 (mat2 r) -> word 64 (tmat r) ->
  NoDup clocks -> Forall (fun t => 0 <= t < 2 ^ 63) clocks -> Forall (fun t => masked (rng_make r (t + k)) = c) clocks ->
  (List.length clocks <= 4)%nat.
Proof.
  intros H1 H2 H3 ND FW FE. rewrite <- (map_length (fun t => u64 (t + k)) clocks).
  apply (few_seeds r (map (fun t => u64 (t + k)) clocks) c H1 H2 H3).
  - clear - ND FW. induction ND as [|t l NI ND IH]; [constructor|]. inversion FW as [|? ? Ht FW']; subst. cbn [map].
    constructor; [|apply IH; exact FW']. intros H. apply in_map_iff in H as (t' & E & Ht').
    rewrite Forall_forall in FW'. specialize (FW' t' Ht'). assert (t' = t); [|subst; contradiction].
    unfold u64 in E. apply (f_equal (fun z => (z - k) mod 2 ^ 64)) in E. rewrite !Zminus_mod_idemp_l in E.
    replace (t' + k - k) with t' in E by ring. replace (t + k - k) with t in E by ring.
    rewrite !Z.mod_small in E by lia. exact E.
  - apply Forall_forall. intros x Hx. apply in_map_iff in Hx as (t & <- & _). apply word_u64.
  - apply Forall_forall. intros x Hx. apply in_map_iff in Hx as (t & <- & Ht). rewrite Forall_forall in FE. specialize (FE t Ht). cbv beta in FE. rewrite rng_make_init in FE. exact FE.
Qed.

(** A seed whose mixed state is 0 and is replaced by (84, 77). *)
Definition collapse : tinymt := mkTinymt 0 0 0xfa051f40 0xffd0fff4 10898512467500265326.
Lemma collapse_case : word 32 (mat1 collapse) /\ word 32 (mat2 collapse) /\ word 64 (tmat collapse) /\
  NoDup [11345121226684766726] /\ Forall (word 64) [11345121226684766726] /\
  Forall (fun s => masked (tinymt64_init collapse s) = (84, 77)) [11345121226684766726].
Proof.
  repeat match goal with |- _ /\ _ => split end; try (split; vm_compute; congruence).
  - constructor; [intros []|constructor].
  - constructor; [split; vm_compute; congruence|constructor].
  - constructor; [vm_compute; reflexivity|constructor].
Qed.
