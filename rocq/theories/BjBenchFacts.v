(** * BjBenchFacts: what the measurements of benchmarks/exactbj.py leave in the pickle file. *)
From Coquelicot Require Import Coquelicot.
From Flocq Require Import Core.Raux.
From Coq Require Import ZArith Reals List Bool Lia Lra String.
From Verif Require Import Base Num XReal Common Ecdf2 Ecdf1New Ecdf1Mns Cli XCommon XFft XMns Spec SpecFacts Events XEcdf1NewMain ExactFacts ExactMore ProbSums NewMath.
From Verif Require Import GofSpec GofKs GofBeta ExactBj BjFacts BjBench.
Import List. Import ListNotations.
Local Open Scope Z_scope.

(** ** Lists *)
Lemma set_map {A} (f : nat -> A) (x : A) : forall len k i, (i < len)%nat ->
  set_item (map f (seq k len)) i x = Value (map (fun j => if Nat.eqb j (k + i) then x else f j) (seq k len)).
Proof.
  induction len as [|len IH]; intros k i Hi; [lia|]. cbn [seq map]. destruct i as [|i]; cbn [set_item].
  - rewrite Nat.add_0_r, Nat.eqb_refl. do 2 f_equal. apply map_ext_in. intros j Hj. apply in_seq in Hj.
    destruct (Nat.eqb_spec j k); [lia|reflexivity].
  - rewrite IH by lia. cbn [sbind]. destruct (Nat.eqb_spec k (k + S i)); [lia|]. replace (S k + i)%nat with (k + S i)%nat by lia. reflexivity.
Qed.
Lemma get_map {A} (f : nat -> A) len i : (i < len)%nat -> get_item (map f (seq 0 len)) i = Value (f i).
Proof.
  intros Hi. unfold get_item. rewrite (nth_error_nth' _ (f i)) by (rewrite map_length, seq_length; exact Hi).
  rewrite (nth_indep _ (f i) (f 0%nat)) by (rewrite map_length, seq_length; exact Hi). rewrite map_nth, seq_nth by exact Hi. reflexivity.
Qed.
Lemma repeat_map {A} (x : A) len : repeat x len = map (fun _ => x) (seq 0 len).
Proof. generalize 0%nat. induction len as [|len IH]; intros k; cbn; [reflexivity|]. f_equal. apply IH. Qed.

Lemma skipn_nth {A} (d : A) (l : list A) : forall k, (k < List.length l)%nat -> skipn k l = nth k l d :: skipn (S k) l.
Proof. induction l as [|x l IH]; intros [|k] Hk; cbn [List.length] in Hk; try lia; [reflexivity|]. apply (IH k). lia. Qed.

Definition column_of {N : num} (a : algorithm) (c : columns (N := N)) : column :=
  match a with KS2001 => c_ks2001 c | MNS2016 => c_mns2016 c | MN2017 => c_mn2017 c | NEW => c_new c end.

Section Any.
Context {N : num} (E : env N) (betaincinv : Z -> Z -> car N -> car N).
Notation T := (car N).

(** The least of the first r times of entry j *)
Fixpoint best (e : nat -> nat -> Z) (r j : nat) : option Z :=
  match r with O => None | S r => min_time (best e r j) (e r j) end.
Lemma best_least e r j : (1 <= r)%nat -> exists m, best e r j = Some m /\ (exists k, (k < r)%nat /\ m = e k j) /\ forall k, (k < r)%nat -> m <= e k j.
Proof.
  induction r as [|r IH]; intros Hr; [lia|]. cbn [best]. destruct (Nat.eq_dec r 0) as [->|Hz].
  - exists (e 0%nat j). split; [reflexivity|]. split; [exists 0%nat; auto|]. intros k Hk. replace k with 0%nat by lia. lia.
  - destruct IH as (m & -> & (k0 & Hk0 & E0) & Hm); [lia|]. cbn [min_time].
    destruct (Z.ltb_spec (e r j) m).
    + exists (e r j). split; [reflexivity|]. split; [exists r; auto|]. intros k Hk. destruct (Nat.eq_dec k r) as [->|]; [lia|]. specialize (Hm k ltac:(lia)). lia.
    + exists m. split; [reflexivity|]. split; [exists k0; split; [lia|exact E0]|]. intros k Hk. destruct (Nat.eq_dec k r) as [->|]; [lia|]. apply Hm. lia.
Qed.

(** The column of an algorithm after r whole repetitions and k entries of the next *)
Definition after (e : nat -> nat -> Z) (enabled : nat -> bool) (value : nat -> T) (len r k : nat) : column :=
  mkColumn (map (fun j => if enabled j then best e (if (j <? k)%nat then S r else r) j else None) (seq 0 len))
           (map (fun j => if enabled j && ((j <? k)%nat || (1 <=? r)%nat) then Some (value j) else None) (seq 0 len)).
Lemma after_empty e en v len : after e en v len 0 0 = empty_column len.
Proof.
  unfold after, empty_column. rewrite !repeat_map. f_equal; apply map_ext; intros j; cbn; destruct (en j); reflexivity.
Qed.
Lemma after_whole e en v len r k : (forall j, (k <= j)%nat -> en j = false) -> after e en v len r k = after e en v len (S r) 0.
Proof.
  intros H. unfold after. f_equal; apply map_ext; intros j; destruct (Nat.ltb_spec j k).
  - reflexivity.
  - rewrite H by assumption. reflexivity.
  - destruct (en j); reflexivity.
  - rewrite H by assumption. reflexivity.
Qed.
Lemma ltb_S j k : (j <? S k)%nat = ((j <? k)%nat || (j =? k)%nat)%bool.
Proof. destruct (Nat.ltb_spec j (S k)); destruct (Nat.ltb_spec j k); destruct (Nat.eqb_spec j k); cbn; auto; lia. Qed.
Lemma after_skip e en v len r k : en k = false -> after e en v len r k = after e en v len r (S k).
Proof.
  intros H. unfold after. f_equal; apply map_ext; intros j; rewrite ltb_S; destruct (Nat.eqb_spec j k) as [->|]; rewrite ?orb_false_r, ?H; reflexivity.
Qed.
Lemma measure_after e en v len r k a n bounds q : (k < len)%nat -> en k = true -> run E a n bounds = Ok q -> n_sub n1 q = v k ->
  measure E (e r k) a k n bounds (after e en v len r k) = Value (after e en v len r (S k)).
Proof.
  intros Hk He Hq Hv. unfold measure, call. rewrite Hq. cbn [py_call sbind]. unfold after at 1 2 3. cbn [results timings].
  rewrite set_map by exact Hk. cbn [sbind]. rewrite get_map by exact Hk. cbn [sbind]. rewrite set_map by exact Hk. cbn [sbind].
  rewrite He, Nat.ltb_irrefl. unfold after. do 2 f_equal; apply map_ext; intros j; rewrite ltb_S; cbn [Nat.add];
    destruct (Nat.eqb_spec j k) as [->|]; rewrite ?orb_false_r, ?He, ?Nat.ltb_irrefl, ?Hv; reflexivity.
Qed.

Context (elapsed : nat -> algorithm -> nat -> Z) (max_ks max_mns : Z) (l : list (nat * T)) (len : nat).
Definition size_of (j : nat) : nat := fst (nth j l (0%nat, n0)).
Definition run_of (a : algorithm) (j : nat) : outcome T :=
  run E a (size_of j) (Mn_plus_bounds betaincinv (size_of j) (snd (nth j l (0%nat, n0)))).
(** line 172 and line 177; the entries past the end of l are never reached *)
Definition enabled (a : algorithm) (j : nat) : bool :=
  (j <? List.length l)%nat && match a with KS2001 => Z.of_nat (size_of j) <=? max_ks | MNS2016 => Z.of_nat (size_of j) <=? max_mns | _ => true end.
Context (value : algorithm -> nat -> T).
Hypothesis Hlen : (List.length l <= len)%nat.
Hypothesis Hrun : forall a j, (j < List.length l)%nat -> enabled a j = true -> exists q, run_of a j = Ok q /\ n_sub n1 q = value a j.

Notation col r k a := (after (fun r j => elapsed r a j) (enabled a) (value a) len r k).
Definition all_after (r k : nat) : columns := mkColumns (col r k KS2001) (col r k MNS2016) (col r k MN2017) (col r k NEW).

Lemma measure_or_not a r k : (k < List.length l)%nat ->
  (if enabled a k then measure E (elapsed r a k) a k (size_of k) (Mn_plus_bounds betaincinv (size_of k) (snd (nth k l (0%nat, n0)))) (col r k a)
   else Value (col r k a)) = Value (col r (S k) a).
Proof.
  intros Hk. destruct (enabled a k) eqn:He.
  - destruct (Hrun a k Hk He) as (q & Hq & Hv). exact (measure_after (fun r j => elapsed r a j) (enabled a) (value a) len r k a _ _ q (Nat.lt_le_trans _ _ _ Hk Hlen) He Hq Hv).
  - f_equal. apply after_skip. exact He.
Qed.
Lemma entry_after r k : (k < List.length l)%nat ->
  bench_entry E betaincinv elapsed max_ks max_mns r k (size_of k) (snd (nth k l (0%nat, n0))) (all_after r k) = Value (all_after r (S k)).
Proof.
  intros Hk. assert (Ek : (k <? List.length l)%nat = true) by (apply Nat.ltb_lt; exact Hk). unfold bench_entry, all_after. cbn [c_ks2001 c_mns2016 c_mn2017 c_new].
  pose proof (measure_or_not KS2001 r k Hk) as H1. replace (enabled KS2001 k) with (Z.of_nat (size_of k) <=? max_ks) in H1 by (unfold enabled; rewrite Ek; reflexivity). rewrite H1. cbn [sbind].
  pose proof (measure_or_not MNS2016 r k Hk) as H2. replace (enabled MNS2016 k) with (Z.of_nat (size_of k) <=? max_mns) in H2 by (unfold enabled; rewrite Ek; reflexivity). rewrite H2. cbn [sbind].
  pose proof (measure_or_not MN2017 r k Hk) as H3. replace (enabled MN2017 k) with true in H3 by (unfold enabled; rewrite Ek; reflexivity). cbv iota in H3. rewrite H3. cbn [sbind].
  pose proof (measure_or_not NEW r k Hk) as H4. replace (enabled NEW k) with true in H4 by (unfold enabled; rewrite Ek; reflexivity). cbv iota in H4. rewrite H4. reflexivity.
Qed.
Lemma entries_after r : forall m k saved, (k + m = List.length l)%nat ->
  bench_entries E betaincinv elapsed max_ks max_mns r k (skipn k l) (all_after r k) saved =
  Value (all_after r (List.length l), if (m =? 0)%nat then saved else Some (all_after r (List.length l))).
Proof.
  induction m as [|m IH]; intros k saved Hk.
  - replace k with (List.length l) by lia. rewrite skipn_all. reflexivity.
  - rewrite (skipn_nth (0%nat, n0)) by lia. pose proof (entry_after r k ltac:(lia)) as HE. unfold size_of in HE.
    destruct (nth k l (0%nat, n0)) as [n th] eqn:En. cbn [fst snd] in HE. cbn [bench_entries]. rewrite HE. cbn [sbind].
    rewrite IH by lia. destruct (Nat.eqb_spec m 0) as [Em|Em]; [|reflexivity]. replace (S k) with (List.length l) by lia. reflexivity.
Qed.
Lemma reps_after : l <> [] -> forall m r saved, bench_reps E betaincinv elapsed max_ks max_mns m r l (all_after r 0) saved =
  Value (if (m =? 0)%nat then saved else Some (all_after (r + m) 0)).
Proof.
  intros Hl. assert (HL : List.length l <> 0%nat) by (destruct l; [congruence|discriminate]).
  assert (HW : forall r, all_after r (List.length l) = all_after (S r) 0) by (intros r; unfold all_after; f_equal; apply after_whole; intros j Hj; unfold enabled; destruct (Nat.ltb_spec j (List.length l)); try lia; reflexivity).
  induction m as [|m IH]; intros r saved; [reflexivity|]. cbn [bench_reps].
  pose proof (entries_after r (List.length l) 0 saved eq_refl) as HE. cbn [skipn] in HE. rewrite HE. cbn [sbind fst snd].
  destruct (Nat.eqb_spec (List.length l) 0); [congruence|]. rewrite !HW, IH. replace (r + S m)%nat with (S r + m)%nat by lia.
  destruct (Nat.eqb_spec m 0) as [Em|Em]; [rewrite Em, Nat.add_0_r; reflexivity|reflexivity].
Qed.

(** What is saved in the end *)
Theorem timings_saved (num_reps : nat) : l <> [] -> (1 <= num_reps)%nat ->
  exists c, timings_Mn_plus E betaincinv elapsed max_ks max_mns num_reps len l = Value (Some c) /\
  forall a, List.length (results (column_of a c)) = len /\ List.length (timings (column_of a c)) = len /\
   forall j, (j < len)%nat ->
    if enabled a j then nth_error (results (column_of a c)) j = Some (Some (value a j)) /\
      exists m, nth_error (timings (column_of a c)) j = Some (Some m) /\ (exists r, (r < num_reps)%nat /\ m = elapsed r a j) /\ forall r, (r < num_reps)%nat -> m <= elapsed r a j
    else nth_error (results (column_of a c)) j = Some None /\ nth_error (timings (column_of a c)) j = Some None.
Proof.
  intros Hl Hr. exists (all_after num_reps 0). split.
  - unfold timings_Mn_plus. replace (mkColumns _ _ _ _) with (all_after 0 0) by (unfold all_after; rewrite !after_empty; reflexivity).
    rewrite reps_after by exact Hl. destruct (Nat.eqb_spec num_reps 0); [lia|reflexivity].
  - intros a. assert (HC : column_of a (all_after num_reps 0) = col num_reps 0 a) by (destruct a; reflexivity). rewrite HC. unfold after. cbn [results timings].
    rewrite !map_length, seq_length. split; [reflexivity|]. split; [reflexivity|]. intros j Hj.
    assert (HN : forall A (f : nat -> A), nth_error (map f (seq 0 len)) j = Some (f j)).
    { intros A f. pose proof (get_map f len j Hj) as G. unfold get_item in G. destruct (nth_error _ j); [injection G as ->; reflexivity|discriminate]. }
    rewrite !HN. destruct (enabled a j) eqn:He.
    + destruct num_reps as [|m]; [lia|]. cbn. split; [reflexivity|].
      destruct (best_least (fun r j => elapsed r a j) (S m) j ltac:(lia)) as (t & Ht & H1 & H2). exists t. split; [f_equal; exact Ht|]. split; assumption.
    + split; reflexivity.
Qed.
End Any.

(** ** The large-scale measurements: NEW and MN2017 at one threshold *)
Section Large.
Context {N : num} (E : env N) (betaincinv : Z -> Z -> car N -> car N).
Notation T := (car N).
Context (elapsed : algorithm -> nat -> Z) (threshold : T) (n_range : list nat) (value : algorithm -> nat -> T).
Hypothesis Hrun : forall a j, (a = NEW \/ a = MN2017) -> (j < List.length n_range)%nat -> exists q,
  run E a (nth j n_range 0%nat) (Mn_plus_bounds betaincinv (nth j n_range 0%nat) threshold) = Ok q /\ n_sub n1 q = value a j.
Notation col k a := (after (N := N) (fun _ j => elapsed a j) (fun _ => true) (value a) (List.length n_range) 0 k).
Lemma large_after : forall m k saved, (k + m = List.length n_range)%nat ->
  largescale_entries E betaincinv elapsed threshold k (skipn k n_range) (col k MN2017) (col k NEW) saved =
  Value (if (m =? 0)%nat then saved else Some (col (List.length n_range) MN2017, col (List.length n_range) NEW)).
Proof.
  induction m as [|m IH]; intros k saved Hk.
  - replace k with (List.length n_range) by lia. rewrite skipn_all. reflexivity.
  - rewrite (skipn_nth 0%nat) by lia. cbn [largescale_entries].
    destruct (Hrun NEW k (or_introl eq_refl) ltac:(lia)) as (q & Hq & Hv).
    rewrite (measure_after E (fun _ j => elapsed NEW j) (fun _ => true) (value NEW) (List.length n_range) 0 k NEW _ _ q ltac:(lia) eq_refl Hq Hv). cbn [sbind].
    destruct (Hrun MN2017 k (or_intror eq_refl) ltac:(lia)) as (q' & Hq' & Hv').
    rewrite (measure_after E (fun _ j => elapsed MN2017 j) (fun _ => true) (value MN2017) (List.length n_range) 0 k MN2017 _ _ q' ltac:(lia) eq_refl Hq' Hv'). cbn [sbind].
    rewrite IH by lia. destruct (Nat.eqb_spec m 0) as [Em|Em]; [|reflexivity]. replace (S k) with (List.length n_range) by lia. reflexivity.
Qed.
Theorem largescale_saved : n_range <> [] -> exists mn new,
  timings_Mn_plus_largescale E betaincinv elapsed threshold n_range = Value (Some (mn, new)) /\
  forall a c, (a = MN2017 /\ c = mn) \/ (a = NEW /\ c = new) -> List.length (results c) = List.length n_range /\ List.length (timings c) = List.length n_range /\
   forall j, (j < List.length n_range)%nat -> nth_error (results c) j = Some (Some (value a j)) /\ nth_error (timings c) j = Some (Some (elapsed a j)).
Proof.
  intros Hl. assert (HL : List.length n_range <> 0%nat) by (destruct n_range; [congruence|discriminate]).
  exists (col (List.length n_range) MN2017), (col (List.length n_range) NEW). split.
  - unfold timings_Mn_plus_largescale.
    rewrite <- (after_empty (fun _ j => elapsed NEW j) (fun _ => true) (value NEW) (List.length n_range)) at 2.
    rewrite <- (after_empty (fun _ j => elapsed MN2017 j) (fun _ => true) (value MN2017) (List.length n_range)).
    pose proof (large_after (List.length n_range) 0 None eq_refl) as HE. cbn [skipn] in HE. rewrite HE.
    destruct (Nat.eqb_spec (List.length n_range) 0); [congruence|reflexivity].
  - intros a c Hc. assert (HC : c = col (List.length n_range) a) by (destruct Hc as [(-> & ->)|(-> & ->)]; reflexivity). rewrite HC. unfold after. cbn [results timings].
    rewrite !map_length, seq_length. split; [reflexivity|]. split; [reflexivity|]. intros j Hj.
    assert (HN : forall A (f : nat -> A), nth_error (map f (seq 0 (List.length n_range))) j = Some (f j)).
    { intros A f. pose proof (get_map f (List.length n_range) j Hj) as G. unfold get_item in G. destruct (nth_error _ j); [injection G as ->; reflexivity|discriminate]. }
    rewrite !HN. destruct (Nat.ltb_spec j (List.length n_range)); [|lia]. split; reflexivity.
Qed.
End Large.

(** ** Exact arithmetic: all four report the probability *)
Section Exact.
Local Open Scope R_scope.
Context {frexp : xr -> Z} (E : env (Xnum frexp)) (betaincinv : Z -> Z -> xr -> xr).
Notation XN := (Xnum frexp).
Lemma run_exact a n v : betaincinv_ok betaincinv -> 0 <= v <= 1 -> sort_ok E -> fft_ok E -> long_double_ok E ->
  (1 <= n)%nat -> (Z.of_nat n <= INT_MAX)%Z -> (asserts E = true -> (2 <= n)%nat) ->
  forall p, is_prob n (fun l => exists m, Mn_plus_is l m /\ m < v) p ->
  exists q, run E a n (Mn_plus_bounds (N := XN) betaincinv n (Fin v)) = Ok q /\ n_sub n1 q = Fin p.
Proof.
  intros HB Hv HS HF HL Hn Hm Ha p Hp. destruct (bounds_exact (frexp := frexp) betaincinv n v HB Hv) as (b & Eb & Ht). rewrite Eb.
  pose proof (thresholds_valid n v b Ht) as Vb. assert (Lb : List.length b = n) by apply Ht.
  assert (HQ : forall q, is_prob n (noncrossing_b b) q -> n_sub (n := XN) n1 (Fin q) = Fin p).
  { intros q Hq. assert (Hp' : is_prob n (fun l => exists m, Mn_plus_is l m /\ m < v) (1 - q)).
    { apply (is_prob_ext n (fun l => ~ noncrossing_b b l)); [|apply is_prob_not; exact Hq].
      intros l Hl HR. symmetry. apply (below_event n v b l); auto. }
    rewrite (is_prob_unique _ _ _ _ Hp Hp'). reflexivity. }
  assert (H2 : forall f, exists q, ecdf2 E (map Fin b) (repeat n1 n) f = Ok q /\ n_sub n1 q = Fin p).
  { intros f. destruct (ecdf2_exact E b (repeat 1 n) f) as (q & Hq & Er).
    - exact Vb.
    - apply valid_repeat. lra.
    - rewrite repeat_length. exact Lb.
    - exact HS.
    - intros _. exact HF.
    - intros _. apply no_gap_ones; assumption.
    - exists (Fin q). split; [|apply HQ; rewrite <- Lb in Hq |- *; apply prob_ones; exact Hq].
      assert (HM : map Fin (repeat 1 n) = repeat (Fin 1) n) by (clear; induction n as [|n IH]; cbn [repeat map]; [reflexivity|]; f_equal; exact IH).
      rewrite HM in Er. exact Er. }
  destruct a; cbn [run].
  - apply H2.
  - destruct (mns_b_total E b Vb HL) as (q & Hq & Er). rewrite Lb in Hq. exists (Fin q). split; [exact Er|]. apply HQ. exact Hq.
  - apply H2.
  - destruct (new_b_total E b Vb HF) as (q & Hq & Er); rewrite ?Lb; auto. rewrite Lb in Hq. exists (Fin q). split; [exact Er|]. apply HQ. exact Hq.
Qed.

(** Which algorithms are run on n points: lines 172 and 177 *)
Definition measured (max_ks max_mns : Z) (a : algorithm) (n : nat) : Prop :=
  match a with KS2001 => (Z.of_nat n <= max_ks)%Z | MNS2016 => (Z.of_nat n <= max_mns)%Z | _ => True end.

Theorem bench_exact (elapsed : nat -> algorithm -> nat -> Z) (max_ks max_mns : Z) (num_reps len : nat) (l : list (nat * R)) :
  betaincinv_ok betaincinv -> sort_ok E -> fft_ok E -> long_double_ok E -> l <> [] -> (List.length l <= len)%nat -> (1 <= num_reps)%nat ->
  Forall (fun e => 0 <= snd e <= 1 /\ (1 <= fst e)%nat /\ (Z.of_nat (fst e) <= INT_MAX)%Z /\ (asserts E = true -> (2 <= fst e)%nat)) l ->
  exists c, timings_Mn_plus (N := XN) E betaincinv elapsed max_ks max_mns num_reps len (map (fun e => (fst e, Fin (snd e))) l) = Value (Some c) /\
  (forall a, List.length (results (column_of a c)) = len /\ List.length (timings (column_of a c)) = len /\
     forall j, (List.length l <= j < len)%nat -> nth_error (results (column_of a c)) j = Some None /\ nth_error (timings (column_of a c)) j = Some None) /\
  forall a j n v, nth_error l j = Some (n, v) ->
    (measured max_ks max_mns a n -> (exists p, is_prob n (fun s => exists m, Mn_plus_is s m /\ m < v) p /\ nth_error (results (column_of a c)) j = Some (Some (Fin p))) /\
      exists t, nth_error (timings (column_of a c)) j = Some (Some t) /\ (exists r, (r < num_reps)%nat /\ t = elapsed r a j) /\ forall r, (r < num_reps)%nat -> (t <= elapsed r a j)%Z) /\
    (~ measured max_ks max_mns a n -> nth_error (results (column_of a c)) j = Some None /\ nth_error (timings (column_of a c)) j = Some None).
Proof.
  intros HB HS HF HL Hl Hlen Hr HA. set (l' := map (fun e => (fst e, Fin (snd e))) l).
  assert (HP : forall n v, (1 <= n)%nat -> (Z.of_nat n <= INT_MAX)%Z -> (asserts E = true -> (2 <= n)%nat) -> 0 <= v <= 1 ->
    exists p, is_prob n (fun s => exists m, Mn_plus_is s m /\ m < v) p).
  { intros n v H1 H2 H3 H4. destruct (distribution_exact E betaincinv n v HB H4 HF H1 H2 H3) as (p & Hp & _). exists p. exact Hp. }
  assert (HV : exists value : nat -> R, forall j n v, nth_error l j = Some (n, v) -> is_prob n (fun s => exists m, Mn_plus_is s m /\ m < v) (value j)).
  { clear Hl Hlen l'. induction l as [|[n v] l IH]; [exists (fun _ => 0); intros [|j] ? ? ?; discriminate|].
    inversion HA as [|? ? (H1 & H2 & H3 & H4) HA' E1]; subst. destruct (IH HA') as (f & Hf). destruct (HP n v H2 H3 H4 H1) as (p & Hp).
    exists (fun j => match j with O => p | S j => f j end). intros [|j] n' v' Hj; cbn in Hj; [injection Hj as <- <-; exact Hp|apply Hf; exact Hj]. }
  destruct HV as (value & HV).
  assert (HLl : List.length l' = List.length l) by apply map_length.
  assert (HE : forall j n v, nth_error l j = Some (n, v) -> @nth (nat * car XN) j l' (0%nat, n0) = (n, Fin v)).
  { intros j n v Hj. apply (nth_error_nth l' j). unfold l'. rewrite nth_error_map, Hj. reflexivity. }
  destruct (timings_saved (N := XN) E betaincinv elapsed max_ks max_mns l' len (fun _ j => Fin (value j))) with (num_reps := num_reps) as (c & Hc & HR).
  - exact (eq_ind_r (fun m => (m <= len)%nat) Hlen HLl).
  - intros a j Hj _. assert (Hj' : (j < List.length l)%nat) by (rewrite <- HLl; exact Hj). destruct (nth_error l j) as [[n v]|] eqn:Ej; [|apply nth_error_None in Ej; lia].
    unfold run_of, size_of. rewrite (HE j n v Ej). cbn [fst snd].
    rewrite Forall_forall in HA. destruct (HA (n, v) (nth_error_In _ _ Ej)) as (H1 & H2 & H3 & H4). cbn [fst snd] in *.
    apply (run_exact a n v HB H1 HS HF HL H2 H3 H4 (value j)). exact (HV j n v Ej).
  - unfold l'. destruct l; [congruence|discriminate].
  - exact Hr.
  - exists c. split; [exact Hc|]. split.
    { intros a. destruct (HR a) as (L1 & L2 & HX). split; [exact L1|]. split; [exact L2|]. intros j (Hj1 & Hj2). specialize (HX j Hj2). unfold enabled in HX.
      assert (En : (j <? @List.length (nat * car XN) l')%nat = false) by (apply Nat.ltb_ge; exact (eq_ind_r (fun m => (m <= j)%nat) Hj1 HLl)). rewrite En in HX. exact HX. }
    intros a j n v Hj. destruct (HR a) as (_ & _ & HX).
    assert (Hjl : (j < List.length l)%nat) by (apply nth_error_Some; congruence). specialize (HX j (Nat.lt_le_trans _ _ _ Hjl Hlen)).
    assert (HM : enabled (N := XN) max_ks max_mns l' a j = true <-> measured max_ks max_mns a n).
    { unfold enabled, measured, size_of. assert (En : (j <? @List.length (nat * car XN) l')%nat = true) by (apply Nat.ltb_lt; exact (eq_ind_r (fun m => (j < m)%nat) Hjl HLl)). rewrite En.
      rewrite (HE j n v Hj). cbn [fst andb]. destruct a; try (split; auto; fail); apply Z.leb_le. }
    destruct (enabled (N := XN) max_ks max_mns l' a j).
    + destruct HX as (HX & HT). split; [|intros Hn; exfalso; apply Hn, HM; reflexivity]. intros _. split; [|exact HT]. exists (value j). split; [apply HV; exact Hj|exact HX].
    + split; [intros Hy; apply HM in Hy; discriminate|]. intros _. exact HX.
Qed.

(** The large-scale measurements *)
Theorem largescale_exact (elapsed : algorithm -> nat -> Z) (v : R) (n_range : list nat) :
  betaincinv_ok betaincinv -> sort_ok E -> fft_ok E -> long_double_ok E -> n_range <> [] -> 0 <= v <= 1 ->
  Forall (fun n => (1 <= n)%nat /\ (Z.of_nat n <= INT_MAX)%Z /\ (asserts E = true -> (2 <= n)%nat)) n_range ->
  exists mn new, timings_Mn_plus_largescale (N := XN) E betaincinv elapsed (Fin v) n_range = Value (Some (mn, new)) /\
  forall j n, nth_error n_range j = Some n -> exists p, is_prob n (fun s => exists m, Mn_plus_is s m /\ m < v) p /\
    nth_error (results mn) j = Some (Some (Fin p)) /\ nth_error (timings mn) j = Some (Some (elapsed MN2017 j)) /\
    nth_error (results new) j = Some (Some (Fin p)) /\ nth_error (timings new) j = Some (Some (elapsed NEW j)).
Proof.
  intros HB HS HF HL Hl Hv HA.
  assert (HV : exists value : nat -> R, forall j n, nth_error n_range j = Some n -> is_prob n (fun s => exists m, Mn_plus_is s m /\ m < v) (value j)).
  { clear Hl. induction n_range as [|n l IH]; [exists (fun _ => 0); intros [|j] ? ?; discriminate|].
    inversion HA as [|? ? (H2 & H3 & H4) HA' E1]; subst. destruct (IH HA') as (f & Hf). destruct (distribution_exact E betaincinv n v HB Hv HF H2 H3 H4) as (p & Hp & _).
    exists (fun j => match j with O => p | S j => f j end). intros [|j] n' Hj; cbn in Hj; [injection Hj as <-; exact Hp|apply Hf; exact Hj]. }
  destruct HV as (value & HV).
  destruct (largescale_saved (N := XN) E betaincinv elapsed (Fin v) n_range (fun _ j => Fin (value j))) as (mn & new & Hc & HR).
  - intros a j _ Hj. destruct (nth_error n_range j) as [n|] eqn:Ej; [|apply nth_error_None in Ej; lia].
    rewrite (nth_error_nth _ _ 0%nat Ej). rewrite Forall_forall in HA. destruct (HA n (nth_error_In _ _ Ej)) as (H2 & H3 & H4).
    exact (run_exact a n v HB Hv HS HF HL H2 H3 H4 (value j) (HV j n Ej)).
  - exact Hl.
  - exists mn, new. split; [exact Hc|]. intros j n Hj. exists (value j). split; [apply HV; exact Hj|].
    assert (Hjl : (j < List.length n_range)%nat) by (apply nth_error_Some; congruence).
    destruct (HR MN2017 mn (or_introl (conj eq_refl eq_refl))) as (_ & _ & H1). destruct (H1 j Hjl) as (A1 & A2).
    destruct (HR NEW new (or_intror (conj eq_refl eq_refl))) as (_ & _ & H2). destruct (H2 j Hjl) as (B1 & B2). auto.
Qed.
End Exact.
