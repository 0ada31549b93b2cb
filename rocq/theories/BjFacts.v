(** * BjFacts: the Berk-Jones statistic and its distribution, exact arithmetic. *)
From Coquelicot Require Import Coquelicot.
From Flocq Require Import Core.Raux.
From Coq Require Import ZArith Reals List Bool Lia Lra Permutation Sorted Factorial String.
From Verif Require Import Base Num XReal Common Ecdf2 Ecdf1New Cli XCommon XFft Spec SpecFacts Events XEcdf1NewMain ExactFacts ExactMore ProbSums GofSpec GofKs GofBeta ExactBj.
Import List. Import ListNotations.
Local Open Scope R_scope.

(** What scipy.special promises, in exact arithmetic. *)
Definition betainc_ok (f : Z -> Z -> xr -> xr) : Prop := forall a b x, (1 <= a)%nat -> (1 <= b)%nat -> 0 <= x <= 1 ->
  f (Z.of_nat a) (Z.of_nat b) (Fin x) = Fin (beta_cdf a b x).
Definition betaincinv_ok (f : Z -> Z -> xr -> xr) : Prop := forall a b v, (1 <= a)%nat -> (1 <= b)%nat -> 0 <= v <= 1 ->
  exists x, 0 <= x <= 1 /\ f (Z.of_nat a) (Z.of_nat b) (Fin v) = Fin x /\ beta_cdf a b x = v.

Lemma arange_seq k : forall a, arange (Z.of_nat a) k = map Z.of_nat (seq a k).
Proof. induction k as [|k IH]; intros a; simpl; auto. f_equal. rewrite <- IH. f_equal. lia. Qed.

(** ** The least of finitely many numbers *)
Lemma least_exists (f : nat -> R) n : (1 <= n)%nat -> exists m, (exists i, (i < n)%nat /\ m = f i) /\ forall i, (i < n)%nat -> m <= f i.
Proof.
  induction n as [|[|n] IH]; intros H; [lia| |].
  - exists (f 0%nat). split; [exists 0%nat; auto|]. intros i Hi. assert (i = 0)%nat as -> by lia. lra.
  - destruct IH as (m & (i & Hi & ->) & Hm); [lia|]. destruct (Rle_or_lt (f i) (f (S n))).
    + exists (f i). split; [exists i; split; auto|]. intros j Hj. destruct (Nat.eq_dec j (S n)) as [->|]; auto. apply Hm. lia.
    + exists (f (S n)). split; [exists (S n); split; auto|]. intros j Hj. destruct (Nat.eq_dec j (S n)) as [->|]; [lra|].
      specialize (Hm j ltac:(lia)). lra.
Qed.
Lemma Mn_plus_exists l : l <> [] -> exists m, Mn_plus_is l m.
Proof.
  intros H. pose proof (rsort_perm l) as HP. pose proof (Permutation_length HP) as HL.
  destruct (least_exists (fun i => beta_cdf (S i) (List.length (rsort l) - i) (nth i (rsort l) 0)) (List.length (rsort l))) as (m & Hm).
  { destruct l; [congruence|]. simpl in HL. simpl. lia. }
  exists m, (rsort l). split; auto. split; [apply StronglySorted_Sorted, rsort_sorted|]. exact Hm.
Qed.
Lemma Mn_plus_unique l m m' : Mn_plus_is l m -> Mn_plus_is l m' -> m = m'.
Proof.
  intros (o & HP & HS & (i & Hi & E) & H) (o' & HP' & HS' & (i' & Hi' & E') & H').
  assert (o = o').
  { apply sorted_perm_unique; [apply Sorted_strong|apply Sorted_strong|]; auto.
    eapply perm_trans; [apply Permutation_sym; exact HP|exact HP']. }
  subst o'. specialize (H i' Hi'). specialize (H' i Hi). lra.
Qed.

(** ** The boundaries *)
Definition thresholds (n : nat) (v : R) (b : list R) : Prop := List.length b = n /\
  forall i, (i < n)%nat -> 0 <= nth i b 0 <= 1 /\ utail n (S i) (nth i b 0) = v.

Lemma thresholds_valid n v b : thresholds n v b -> valid_boundary b.
Proof.
  intros (HL & H). split.
  - assert (HA : forall i, (S i < n)%nat -> nth i b 0 <= nth (S i) b 0).
    { intros i Hi. destruct (H i ltac:(lia)) as (R1 & E1). destruct (H (S i) Hi) as (R2 & E2).
      destruct (Rle_or_lt (nth i b 0) (nth (S i) b 0)) as [|Hg]; auto. exfalso.
      pose proof (utail_strict n (S i) (nth (S i) b 0) (nth i b 0) Hi ltac:(lra) Hg ltac:(lra)).
      pose proof (utail_decreasing n (S i) (nth i b 0) R1). lra. }
    clear H. subst n. induction b as [|x b IH]; constructor.
    + apply IH. intros i Hi. exact (HA (S i) ltac:(simpl; lia)).
    + destruct b as [|y b]; constructor. exact (HA 0%nat ltac:(simpl; lia)).
  - apply Forall_nth. intros i d Hi. rewrite (nth_indep b d 0) by auto. apply H. lia.
Qed.

Lemma below_event n v b l : thresholds n v b -> (1 <= n)%nat -> List.length l = n -> Forall (fun x => 0 <= x <= 1) l ->
  ((exists m, Mn_plus_is l m /\ m < v) <-> ~ noncrossing_b b l).
Proof.
  intros (HL & H) Hn Hl HR. split.
  - intros (m & (o & HP & HS & (i & Hi & ->) & _) & Hv) (o' & HP' & HS' & HF).
    assert (o = o').
    { apply sorted_perm_unique; [apply Sorted_strong|apply Sorted_strong|]; auto.
      eapply perm_trans; [apply Permutation_sym; exact HP|exact HP']. }
    subst o'. pose proof (Permutation_length HP) as HLo. apply Forall2_nth in HF. destruct HF as (_ & HF).
    specialize (HF i ltac:(lia)). replace (List.length o) with n in Hv by lia. rewrite beta_is_utail in Hv by lia.
    destruct (H i ltac:(lia)) as (R1 & E1). rewrite <- E1 in Hv.
    assert (Ro : 0 <= nth i o 0 <= 1).
    { assert (In (nth i o 0) l) by (apply (Permutation_in _ (Permutation_sym HP)), nth_In; lia). rewrite Forall_forall in HR. auto. }
    apply utail_inj_lt in Hv; auto; [|lia]. lra.
  - intros HN. destruct (Mn_plus_exists l) as (m & Hm); [intros ->; simpl in Hl; lia|]. exists m. split; auto.
    destruct (Rlt_or_le m v) as [|Hv]; auto. exfalso. apply HN.
    destruct Hm as (o & HP & HS & _ & Hall). pose proof (Permutation_length HP) as HLo.
    exists o. split; auto. split; auto. apply Forall2_nth. split; [lia|]. intros i Hi.
    specialize (Hall i ltac:(lia)). replace (List.length o) with n in Hall by lia. rewrite beta_is_utail in Hall by lia.
    destruct (H i ltac:(lia)) as (R1 & E1). destruct (Rle_or_lt (nth i b 0) (nth i o 0)) as [|Hg]; auto. exfalso.
    assert (Ro : 0 <= nth i o 0 <= 1).
    { assert (In (nth i o 0) l) by (apply (Permutation_in _ (Permutation_sym HP)), nth_In; lia). rewrite Forall_forall in HR. auto. }
    pose proof (utail_strict n i (nth i o 0) (nth i b 0) ltac:(lia) (proj1 Ro) Hg ltac:(lra)). lra.
Qed.

Section Exact.
Context {frexp : xr -> Z} (E : env (Xnum frexp)).
Notation XN := (Xnum frexp).
Context (betainc betaincinv : Z -> Z -> xr -> xr).

Lemma bounds_exact n v : betaincinv_ok betaincinv -> 0 <= v <= 1 ->
  exists b, Mn_plus_bounds (N := XN) betaincinv n (Fin v) = map Fin b /\ thresholds n v b.
Proof.
  intros HB Hv. unfold Mn_plus_bounds. change 1%Z with (Z.of_nat 1). rewrite arange_seq, map_map.
  assert (HX : forall k, (k <= n)%nat -> exists b, map (fun x => betaincinv (Z.of_nat x) (Z.of_nat n - Z.of_nat x + Z.of_nat 1) (Fin v)) (seq (S (n - k)) k) = map Fin b /\
    List.length b = k /\ forall i, (i < k)%nat -> 0 <= nth i b 0 <= 1 /\ utail n (S (n - k + i)) (nth i b 0) = v).
  { induction k as [|k IH]; intros Hk.
    - exists []. split; auto. split; auto. intros; lia.
    - destruct IH as (b & E1 & L & H); [lia|]. cbn [seq map].
      replace (Z.of_nat n - Z.of_nat (S (n - S k)) + Z.of_nat 1)%Z with (Z.of_nat (n - (n - S k))) by lia.
      destruct (HB (S (n - S k)) (n - (n - S k))%nat v ltac:(lia) ltac:(lia) Hv) as (x & Hx & -> & Ex).
      exists (x :: b). split; [|split].
      + simpl. f_equal. rewrite <- E1. replace (S (S (n - S k))) with (S (n - k)) by lia. reflexivity.
      + simpl. lia.
      + intros [|i] Hi; simpl nth.
        * split; auto. rewrite Nat.add_0_r, <- beta_is_utail by lia. exact Ex.
        * replace (S (n - S k + S i)) with (S (n - k + i)) by lia. apply H. lia. }
  destruct (HX n (Nat.le_refl n)) as (b & E1 & L & H). rewrite Nat.sub_diag in *. exists b.
  split; [exact E1|]. split; auto.
Qed.

Theorem distribution_exact n v : betaincinv_ok betaincinv -> 0 <= v <= 1 -> fft_ok E ->
  (1 <= n)%nat -> (Z.of_nat n <= INT_MAX)%Z -> (asserts E = true -> (2 <= n)%nat) ->
  exists p, is_prob n (fun l => exists m, Mn_plus_is l m /\ m < v) p /\
    Mn_plus_distribution (N := XN) E betaincinv n (Fin v) = Value (Fin p).
Proof.
  intros HB Hv HF Hn Hm Ha. destruct (bounds_exact n v HB Hv) as (b & Eb & Ht). pose proof (thresholds_valid n v b Ht) as Vb.
  assert (HL : List.length b = n) by apply Ht.
  destruct (new_b_total E b) as (q & Hq & Hr); auto; rewrite ?HL; auto.
  exists (1 - q). split.
  - apply (is_prob_ext n (fun l => ~ noncrossing_b b l)); [|rewrite HL in Hq; apply is_prob_not; exact Hq].
    intros l Hl HR. symmetry. apply (below_event n v b l); auto.
  - unfold Mn_plus_distribution. rewrite Eb. rewrite Hr. reflexivity.
Qed.

(** ** The statistic *)
Lemma np_sort_exact l : exists o, np_sort (N := XN) (map Fin l) = map Fin o /\ Permutation l o /\ StronglySorted Rle o.
Proof.
  induction l as [|x l (o & E1 & HP & HS)]; [exists []; repeat constructor|].
  assert (HI : forall o, StronglySorted Rle o -> exists o', np_insert (N := XN) (Fin x) (map Fin o) = map Fin o' /\
    Permutation (x :: o) o' /\ StronglySorted Rle o').
  { clear. induction 1 as [|y o HS (o' & E1 & HP & HS') HF]; [exists [x]; repeat constructor|].
    cbn [map np_insert]. change (@n_lt XN (Fin y) (Fin x)) with (Rlt_bool y x). destruct (Rlt_bool_spec y x).
    - exists (y :: o'). rewrite E1. split; [reflexivity|]. split.
      + eapply perm_trans; [apply perm_swap|]. constructor. exact HP.
      + constructor; auto. apply (Permutation_Forall HP). constructor; [lra|exact HF].
    - exists (x :: y :: o). split; [reflexivity|]. split; [apply Permutation_refl|].
      constructor; [constructor; auto|]. constructor; auto. eapply Forall_impl; [|exact HF]. simpl. intros; lra. }
  cbn [map np_sort]. rewrite E1. destruct (HI o HS) as (o' & E2 & HP' & HS'). exists o'. split; auto. split; auto.
  eapply perm_trans; [|exact HP']. constructor. exact HP.
Qed.

Lemma np_min_exact l : forall x, exists m, np_min (N := XN) (Fin x) (map Fin l) = Fin m /\ In m (x :: l) /\ Forall (Rle m) (x :: l).
Proof.
  induction l as [|y l IH]; intros x.
  - exists x. split; [reflexivity|]. split; [left; reflexivity|]. repeat constructor; lra.
  - cbn [map np_min]. destruct (IH y) as (m & -> & Hin & HF). unfold np_min2.
    change (@n_eq XN (Fin x) (Fin x)) with (Req_bool x x). rewrite Req_bool_true by reflexivity. cbn [negb].
    change (@n_lt XN (Fin x) (Fin m)) with (Rlt_bool x m). destruct (Rlt_bool_spec x m).
    + exists x. split; auto. split; [left; auto|]. constructor; [lra|]. eapply Forall_impl; [|exact HF]. simpl; intros; lra.
    + exists m. split; auto. split; [right; auto|]. constructor; auto.
Qed.

Lemma p_values n : forall (o : list R) k, betainc_ok betainc -> Forall (fun x => 0 <= x <= 1) o -> (k + List.length o = n)%nat ->
  map (fun ix : Z * xr => _uniform_order_statistic_cdf (N := XN) betainc (fst ix) (Z.of_nat n) (snd ix))
      (combine (arange (Z.of_nat (S k)) (List.length o)) (map Fin o)) =
  map Fin (map (fun i => beta_cdf (S (k + i)) (n - (k + i)) (nth i o 0)) (seq 0 (List.length o))).
Proof.
  induction o as [|x o IH]; intros k HB HR HL; [reflexivity|]. apply Forall_cons_iff in HR. destruct HR as (Hx & HR').
  cbn [List.length] in HL. cbn [List.length arange map combine fst snd seq nth]. f_equal.
  - unfold _uniform_order_statistic_cdf. rewrite Nat.add_0_r.
    replace (Z.of_nat n - Z.of_nat (S k) + 1)%Z with (Z.of_nat (n - k)) by lia.
    apply HB; try lia; auto.
  - replace (Z.of_nat (S k) + 1)%Z with (Z.of_nat (S (S k))) by lia.
    rewrite <- seq_shift, map_map.
    etransitivity; [apply (IH (S k)); auto; lia|]. rewrite !map_map. apply map_ext. intros i. cbn [nth].
    replace (k + S i)%nat with (S k + i)%nat by lia. reflexivity.
Qed.

Theorem statistic_exact (l : list R) : betainc_ok betainc -> l <> [] -> Forall (fun x => 0 <= x <= 1) l ->
  exists m, Mn_plus_is l m /\ Mn_plus_statistic (N := XN) betainc (map Fin l) = Value (Fin m).
Proof.
  intros HB Hne HR. unfold Mn_plus_statistic.
  assert (HA : forallb (fun x : xr => @n_le XN n0 x && @n_le XN x n1) (map Fin l) = true).
  { rewrite forallb_forall. intros x Hx. apply in_map_iff in Hx. destruct Hx as (r & <- & Hr). rewrite Forall_forall in HR.
    specialize (HR r Hr). change (Rle_bool 0 r && Rle_bool r 1 = true). rewrite !Rle_bool_true by lra. reflexivity. }
  match goal with |- context [forallb ?f ?l] => replace (forallb f l) with true by (symmetry; exact HA) end. cbn [negb].
  destruct (np_sort_exact l) as (o & E1 & HP & HS). rewrite map_length. pose proof (Permutation_length HP) as HL.
  rewrite E1, HL. change 1%Z with (Z.of_nat 1).
  pose proof (p_values (List.length o) o 0 HB (Permutation_Forall HP HR) eq_refl) as HV.
  match goal with |- context [match ?x with [] => _ | _ => _ end] => replace x with (map Fin (map (fun i => beta_cdf (S (0 + i)) (List.length o - (0 + i)) (nth i o 0)) (seq 0 (List.length o)))) by (symmetry; exact HV) end.
  destruct o as [|x o]; [simpl in HL; destruct l; [congruence|discriminate]|].
  cbn [List.length seq map]. set (v0 := beta_cdf _ _ _). set (vs := map _ (seq 1 _)).
  destruct (np_min_exact vs v0) as (m & Em & Hin & HF). exists m. split; [|rewrite Em; reflexivity].
  exists (x :: o). split; auto. split; [apply StronglySorted_Sorted; exact HS|].
  assert (Hvs : v0 :: vs = map (fun i => beta_cdf (S i) (List.length (x :: o) - i) (nth i (x :: o) 0)) (seq 0 (List.length (x :: o)))) by reflexivity.
  rewrite Hvs in Hin, HF. split.
  - apply in_map_iff in Hin. destruct Hin as (i & <- & Hi). apply in_seq in Hi. exists i. split; [lia|reflexivity].
  - intros i Hi. rewrite Forall_forall in HF. apply HF. apply in_map_iff. exists i. split; auto. apply in_seq. lia.
Qed.

(** The two functions fit together. *)
Theorem distribution_of_statistic n v : betainc_ok betainc -> betaincinv_ok betaincinv -> 0 <= v <= 1 -> fft_ok E ->
  (1 <= n)%nat -> (Z.of_nat n <= INT_MAX)%Z -> (asserts E = true -> (2 <= n)%nat) ->
  exists p, is_prob n (fun l => exists m, Mn_plus_statistic (N := XN) betainc (map Fin l) = Value (Fin m) /\ m < v) p /\
    Mn_plus_distribution (N := XN) E betaincinv n (Fin v) = Value (Fin p).
Proof.
  intros HB HB' Hv HF Hn Hm Ha. destruct (distribution_exact n v) as (p & Hp & Hr); auto. exists p. split; auto.
  eapply is_prob_ext; [|exact Hp]. intros l Hl HR. simpl.
  destruct (statistic_exact l HB) as (m & Hs & Es); auto; [intros ->; simpl in Hl; lia|]. split.
  - intros (m' & Hm' & Hlt). exists m. split; auto. rewrite (Mn_plus_unique l m m'); auto.
  - intros (m' & Hm' & Hlt). exists m. rewrite Es in Hm'. injection Hm' as ->. auto.
Qed.

(** Samples outside [0,1] and the empty sample. *)
Theorem statistic_rejects (l : list R) : ~ Forall (fun x => 0 <= x <= 1) l ->
  Mn_plus_statistic (N := XN) betainc (map Fin l) = Exception "AssertionError".
Proof.
  intros HR. unfold Mn_plus_statistic.
  assert (HA : forallb (fun x : xr => @n_le XN n0 x && @n_le XN x n1) (map Fin l) = false).
  { apply not_true_is_false. intros HT. apply HR. rewrite forallb_forall in HT. apply Forall_forall. intros x Hx.
    specialize (HT (Fin x) (in_map _ _ _ Hx)). change (Rle_bool 0 x && Rle_bool x 1 = true) in HT.
    apply andb_true_iff in HT. rewrite !Rle_bool_iff in HT. lra. }
  match goal with |- context [forallb ?f ?l] => replace (forallb f l) with false by (symmetry; exact HA) end. reflexivity.
Qed.
End Exact.

(** ** The promises can be kept *)
Definition betainc_exact (a b : Z) (x : xr) : xr :=
  match x with Fin x => Fin (beta_cdf (Z.to_nat a) (Z.to_nat b) x) | _ => NaN end.
Definition betaincinv_exact (a b : Z) (v : xr) : xr :=
  match v with
  | Fin v =>
      let i := (Z.to_nat a - 1)%nat in let n := (i + Z.to_nat b)%nat in
      match lt_dec i n with
      | left H => match Rle_dec 0 v with
          | left H0 => match Rle_dec v 1 with left H1 => Fin (proj1_sig (utail_inverse n i v H (conj H0 H1))) | right _ => NaN end
          | right _ => NaN end
      | right _ => NaN
      end
  | _ => NaN
  end.
Lemma betainc_exact_ok : betainc_ok betainc_exact.
Proof. intros a b x Ha Hb Hx. unfold betainc_exact. rewrite !Nat2Z.id. reflexivity. Qed.
Lemma betaincinv_exact_ok : betaincinv_ok betaincinv_exact.
Proof.
  intros a b v Ha Hb Hv. unfold betaincinv_exact. rewrite !Nat2Z.id.
  destruct (lt_dec (a - 1) (a - 1 + b)) as [H|]; [|lia]. destruct (Rle_dec 0 v) as [H0|]; [|lra]. destruct (Rle_dec v 1) as [H1|]; [|lra].
  destruct (utail_inverse (a - 1 + b) (a - 1) v H (conj H0 H1)) as (x & Hx & Ex). exists x. split; auto. split; [reflexivity|].
  rewrite <- Ex, <- beta_is_utail by lia. f_equal; lia.
Qed.
