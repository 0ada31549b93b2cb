(** * BjBench64: the measurements of benchmarks/exactbj.py in binary64. *)
From Coquelicot Require Import Coquelicot.
From Flocq Require Import Core.Core IEEE754.BinarySingleNaN.
From Coq Require Import ZArith Reals List Bool Lia Lra String.
From Verif Require Import Base Num Ecdf2 Ecdf1New Ecdf1Mns Binary64 LongDouble LdRound Spec SpecFacts ExactFacts XEcdf2Main Binary64Facts Binary64Main Binary64Cases B64Round.
From Verif Require Import AccPmf AccFft AccMain AccCases AccNewFinal AccMnsEval AccMns AccMnsMain AccMnsCase AgreeB64 XReal XFft XMns Common Cases ExactEnv ExactBj BjFacts BjMain BjCase BjBench BjBenchFacts.
Import List. Import ListNotations.
Local Open Scope R_scope.

(** The complement 1.0 - q of a number near a probability *)
Lemma complement (q : f64) p d : is_finite q = true -> 0 <= p <= 1 -> d <= 1 -> Rabs (B2R q - p) <= d ->
  is_finite (Bminus mode_NE (b64_of_Z 1) q) = true /\ Rabs (B2R (Bminus mode_NE (b64_of_Z 1) q) - (1 - p)) <= d + bpow radix2 (-51).
Proof.
  intros Fq Hp Hd Hq. destruct (of_Z_ok 1 ltac:(lia)) as (F1 & V1).
  assert (D0 : Rabs (1 - B2R q) <= 2) by (apply Rabs_le_inv in Hq; apply Rabs_le; lra).
  destruct (minus_err (b64_of_Z 1) q F1 Fq) as (Fm & Hm).
  { rewrite V1. eapply Rle_trans; [exact D0|]. apply (bpow_le radix2 1 60). lia. }
  split; [exact Fm|]. rewrite V1 in Hm. unfold u64 in Hm.
  replace (bpow radix2 (-51)) with (bpow radix2 (-53) * 4) by (change (-51)%Z with (-53 + 2)%Z; rewrite bpow_plus; cbn; lra).
  pose proof (bpow_gt_0 radix2 (-53)). apply Rabs_le_inv in Hq.
  assert (Hm' : Rabs (B2R (Bminus mode_NE (b64_of_Z 1) q) - (1 - B2R q)) <= bpow radix2 (-53) * 2).
  { eapply Rle_trans; [exact Hm|]. apply Rmult_le_compat_l; [lra|exact D0]. }
  apply Rabs_le_inv in Hm'. apply Rabs_le. lra.
Qed.
Lemma small51 : bpow radix2 (-51) <= 1 / 1000000000000.
Proof. change (bpow radix2 (-51)) with (/ 2251799813685248). lra. Qed.
Lemma complement_nan : Bminus mode_NE (b64_of_Z 1) (B754_nan : f64) = B754_nan.
Proof. reflexivity. Qed.

(** What an algorithm reports for a sample size and a threshold of which the probability is 1 - p. *)
Definition reported (a : algorithm) (p : R) (s : f64) : Prop :=
  match a with
  | MNS2016 => s = B754_nan /\ p <= 1 / 100000000000 \/ is_finite s = true /\ Rabs (B2R s - (1 - p)) <= 1 / 10000000000
  | _ => is_finite s = true /\ Rabs (B2R s - (1 - p)) <= 2 / 10000
  end.

Section Bench64.
Context (L : libm) (M : libml) (E : env (Bnum L)) (betaincinv : Z -> Z -> f64 -> f64).
Notation BN := (Bnum L).
Hypothesis HL : libm_accurate L (bpow radix2 (-52)).
Hypothesis HF : fft_accurate E (bpow radix2 (-47)).
Hypothesis HS : sort_ok E.
Hypothesis HM : libml_accurate M (bpow radix2 (-63)).
Hypothesis HMS : libml_special M.
Hypothesis HLD : long_dbl E = x87 L M.

Lemma run_64 (b : list f64) : accepted64 b -> (2 <= List.length b <= 1000)%nat ->
  exists p, is_prob (List.length b) (noncrossing_b (map B2R b)) p /\
  forall a, exists q : f64, @run BN E a (List.length b) b = Ok q /\ reported a p (Bminus mode_NE (b64_of_Z 1) q).
Proof using HL HF HS HM HMS HLD.
  intros Hb Hn. set (n := List.length b) in *. destruct one_ok as (F1 & V1).
  destruct (new_b_accurate_1000 L E b HL HF Hb ltac:(lia) ltac:(lia)) as (p & r3 & P & R3 & G3 & D3). exists p. split; [exact P|].
  pose proof (is_prob_range _ _ _ P) as Rp. pose proof small51 as S51.
  assert (H2 : forall f, exists q : f64, @ecdf2 BN E b (repeat one64 n) f = Ok q /\ is_finite (Bminus mode_NE (b64_of_Z 1) q) = true /\ Rabs (B2R (Bminus mode_NE (b64_of_Z 1) q) - (1 - p)) <= 2 / 10000).
  { intros f. assert (HB : accepted64 (repeat one64 n)) by (apply repeat_accepted; [exact F1|rewrite V1; lra]).
    assert (LB : List.length b = List.length (repeat one64 n)) by (rewrite repeat_length; reflexivity).
    assert (HA : asserts E = true -> forall i, (S i < List.length b)%nat -> nth i (map B2R b) 0 <= nth (S i) (map B2R (repeat one64 n)) 0).
    { intros _ i Hi. rewrite map_rep, V1. rewrite (nth_indep (repeat 1 n) 0 1) by (rewrite repeat_length; exact Hi). rewrite nth_repeat.
      destruct Hb as (_ & _ & Hb). rewrite Forall_forall in Hb. apply Hb, nth_In. rewrite map_length. exact (Nat.lt_trans _ _ _ (Nat.lt_succ_diag_r i) Hi). }
    destruct (ecdf2_1000 L E HL HF HS b (repeat one64 n) f Hb HB LB ltac:(lia) HA) as (p1 & r1 & P1 & R1 & G1 & D1).
    rewrite map_rep, V1 in P1.
    assert (P' : is_noncrossing_probability (map B2R b) (repeat 1 n) p).
    { replace n with (List.length (map B2R b)) by apply map_length. apply prob_ones. rewrite map_length. exact P. }
    rewrite (is_prob_unique _ _ _ _ (proj2 P1) (proj2 P')) in D1. exists r1. split; [exact R1|].
    destruct (complement r1 p (1 / 10000) G1 Rp ltac:(lra) D1) as (C1 & C2). split; [exact C1|]. lra. }
  intros a. destruct a.
  - destruct (H2 false) as (q & Hq & HR). exists q. split; [exact Hq|exact HR].
  - destruct (mns_b_1000 L M E HM HMS HLD b Hb ltac:(lia)) as (p4 & r4 & P4 & R4 & D4).
    rewrite (is_prob_unique _ _ _ _ P4 P) in D4. exists r4. split; [exact R4|]. cbn [reported].
    destruct D4 as [(-> & D4)|(F4 & D4)]; [left; split; [reflexivity|exact D4]|right].
    destruct (complement r4 p (1 / 100000000000) F4 Rp ltac:(lra) D4) as (C1 & C2). split; [exact C1|]. lra.
  - destruct (H2 true) as (q & Hq & HR). exists q. split; [exact Hq|exact HR].
  - exists r3. split; [exact R3|]. cbn [reported]. destruct (complement r3 p (1 / 10000) G3 Rp ltac:(lra) D3) as (C1 & C2). split; [exact C1|]. lra.
Qed.

Theorem bench_64 (elapsed : nat -> algorithm -> nat -> Z) (max_ks max_mns : Z) (num_reps len : nat) (l : list (nat * f64)) :
  l <> [] -> (List.length l <= len)%nat -> (1 <= num_reps)%nat ->
  Forall (fun e => (2 <= fst e <= 1000)%nat /\ bounds_accepted L betaincinv (fst e) /\ is_finite (snd e) = true /\ 0 < B2R (snd e) <= 1) l ->
  exists c, @timings_Mn_plus BN E betaincinv elapsed max_ks max_mns num_reps len l = Value (Some c) /\
  (forall a, List.length (results (column_of a c)) = len /\ List.length (timings (column_of a c)) = len /\
     forall j, (List.length l <= j < len)%nat -> nth_error (results (column_of a c)) j = Some None /\ nth_error (timings (column_of a c)) j = Some None) /\
  forall j n x, nth_error l j = Some (n, x) -> exists p, is_prob n (noncrossing_b (map B2R (@Mn_plus_bounds BN betaincinv n x))) p /\
   forall a,
    (measured max_ks max_mns a n -> (exists s, nth_error (results (column_of a c)) j = Some (Some s) /\ reported a p s) /\
      exists t, nth_error (timings (column_of a c)) j = Some (Some t) /\ (exists r, (r < num_reps)%nat /\ t = elapsed r a j) /\ forall r, (r < num_reps)%nat -> (t <= elapsed r a j)%Z) /\
    (~ measured max_ks max_mns a n -> nth_error (results (column_of a c)) j = Some None /\ nth_error (timings (column_of a c)) j = Some None).
Proof using HL HF HS HM HMS HLD.
  intros Hl Hlen Hr HA.
  assert (HE : forall n x, (2 <= n <= 1000)%nat -> bounds_accepted L betaincinv n -> is_finite x = true -> 0 < B2R x <= 1 ->
    exists p, is_prob n (noncrossing_b (map B2R (@Mn_plus_bounds BN betaincinv n x))) p /\ exists s : algorithm -> f64,
    forall a, exists q : f64, @run BN E a n (@Mn_plus_bounds BN betaincinv n x) = Ok q /\ Bminus mode_NE (b64_of_Z 1) q = s a /\ reported a p (s a)).
  { intros n x Hn HB Fx Hx. pose proof (bounds_length (N := BN) betaincinv n x) as HLn. destruct (run_64 (@Mn_plus_bounds BN betaincinv n x) (HB x Fx Hx)) as (p & Hp & HR).
    { split; [exact (eq_ind_r (fun m => (2 <= m)%nat) (proj1 Hn) HLn)|exact (eq_ind_r (fun m => (m <= 1000)%nat) (proj2 Hn) HLn)]. }
    exists p. split; [exact (eq_ind _ (fun m => is_prob m _ p) Hp _ HLn)|].
    assert (HR' : forall a, exists q : f64, @run BN E a n (@Mn_plus_bounds BN betaincinv n x) = Ok q /\ reported a p (Bminus mode_NE (b64_of_Z 1) q)).
    { intros a. destruct (HR a) as (q & Hq & Hs). exists q. split; [exact (eq_ind _ (fun m => @run BN E a m _ = Ok q) Hq _ HLn)|exact Hs]. }
    destruct (HR' KS2001) as (q1 & A1 & B1). destruct (HR' MNS2016) as (q2 & A2 & B2). destruct (HR' MN2017) as (q3 & A3 & B3). destruct (HR' NEW) as (q4 & A4 & B4).
    exists (fun a => Bminus mode_NE (b64_of_Z 1) (match a with KS2001 => q1 | MNS2016 => q2 | MN2017 => q3 | NEW => q4 end)).
    intros a. exists (match a with KS2001 => q1 | MNS2016 => q2 | MN2017 => q3 | NEW => q4 end). destruct a; auto. }
  assert (HV : exists value : algorithm -> nat -> f64, forall j n x, nth_error l j = Some (n, x) ->
    exists p, is_prob n (noncrossing_b (map B2R (@Mn_plus_bounds BN betaincinv n x))) p /\
    forall a, exists q : f64, @run BN E a n (@Mn_plus_bounds BN betaincinv n x) = Ok q /\ Bminus mode_NE (b64_of_Z 1) q = value a j /\ reported a p (value a j)).
  { clear Hl Hlen. induction l as [|[n x] l' IH]; [exists (fun _ _ => B754_nan); intros [|j] ? ? ?; discriminate|].
    inversion HA as [|? ? (H1 & H2 & H3 & H4) HA' E1]; subst. destruct (IH HA') as (f & Hf). destruct (HE n x H1 H2 H3 H4) as (p & Hp & s & Hs).
    exists (fun a j => match j with O => s a | S j => f a j end). intros [|j] n' x' Hj; cbn [nth_error] in Hj; [injection Hj as <- <-; exists p; auto|apply Hf; exact Hj]. }
  destruct HV as (value & HV).
  destruct (timings_saved (N := BN) E betaincinv elapsed max_ks max_mns l len value) with (num_reps := num_reps) as (c & Hc & HR).
  - exact Hlen.
  - intros a j Hj _. destruct (nth_error l j) as [[n x]|] eqn:Ej; [|apply nth_error_None in Ej; exfalso; exact (Nat.lt_irrefl _ (Nat.lt_le_trans _ _ _ Hj Ej))].
    unfold run_of, size_of. assert (EN : @nth (nat * car BN) j l (0%nat, n0) = (n, x)) by exact (nth_error_nth l j _ Ej). rewrite EN. cbn [fst snd].
    destruct (HV j n x Ej) as (p & _ & HQ). destruct (HQ a) as (q & Q1 & Q2 & _). exists q. split; [exact Q1|exact Q2].
  - exact Hl.
  - exact Hr.
  - exists c. split; [exact Hc|]. split.
    { intros a. destruct (HR a) as (L1 & L2 & HX). split; [exact L1|]. split; [exact L2|]. intros j (Hj1 & Hj2). specialize (HX j Hj2). unfold enabled in HX.
      assert (En : (j <? @List.length (nat * car BN) l)%nat = false) by (apply Nat.ltb_ge; exact Hj1). rewrite En in HX. exact HX. }
    intros j n x Hj. destruct (HV j n x Hj) as (p & Hp & HQ). exists p. split; [exact Hp|].
    intros a. destruct (HR a) as (_ & _ & HX).
    assert (Hjl : (j < List.length l)%nat) by (apply nth_error_Some; congruence). specialize (HX j (Nat.lt_le_trans _ _ _ Hjl Hlen)).
    assert (EM : enabled (N := BN) max_ks max_mns l a j = true <-> measured max_ks max_mns a n).
    { unfold enabled, measured, size_of. assert (EN : @nth (nat * car BN) j l (0%nat, n0) = (n, x)) by exact (nth_error_nth l j _ Hj). rewrite EN. cbn [fst].
      assert (En : (j <? @List.length (nat * car BN) l)%nat = true) by (apply Nat.ltb_lt; exact Hjl). rewrite En. cbn [andb]. destruct a; try (split; auto; fail); apply Z.leb_le. }
    destruct (enabled (N := BN) max_ks max_mns l a j).
    + destruct HX as (HX & HT). split; [|intros Hn; exfalso; apply Hn, EM; reflexivity]. intros _. split; [|exact HT].
      exists (value a j). split; [exact HX|]. destruct (HQ a) as (q & _ & _ & Q3). exact Q3.
    + split; [intros Hy; apply EM in Hy; discriminate|]. intros _. exact HX.
Qed.
End Bench64.

(** ** Cases: two entries, MNS2016 run on the first only, three repetitions *)
Lemma case64_entries : Forall (fun e : nat * f64 => (2 <= fst e <= 1000)%nat /\ bounds_accepted cr_libm betaincinv_cr (fst e) /\ is_finite (snd e) = true /\ 0 < B2R (snd e) <= 1)
  [(2%nat, f_half); (50%nat, f_half)].
Proof.
  pose proof v_half as V. assert (HX : is_finite f_half = true /\ 0 < B2R f_half <= 1) by (split; [reflexivity|rewrite V; lra]).
  apply Forall_cons; [|apply Forall_cons; [|apply Forall_nil]]; cbn [fst snd]; (split; [lia|]); (split; [apply bounds_cr_accepted|exact HX]).
Qed.
Lemma case_exact_entries : Forall (fun e : nat * R => 0 <= snd e <= 1 /\ (1 <= fst e)%nat /\ (Z.of_nat (fst e) <= INT_MAX)%Z /\ (asserts (some_env true) = true -> (2 <= fst e)%nat))
  [(2%nat, 1 / 2); (50%nat, 1 / 4)].
Proof.
  apply Forall_cons; [|apply Forall_cons; [|apply Forall_nil]]; cbn [fst snd]; (split; [lra|]); (split; [lia|]); (split; [vm_compute; discriminate|]); intros _; lia.
Qed.
Lemma case_exact : betaincinv_ok betaincinv_exact /\ sort_ok (some_env true) /\ fft_ok (some_env true) /\ long_double_ok (some_env true) /\
  Forall (fun e : nat * R => 0 <= snd e <= 1 /\ (1 <= fst e)%nat /\ (Z.of_nat (fst e) <= INT_MAX)%Z /\ (asserts (some_env true) = true -> (2 <= fst e)%nat))
    [(2%nat, 1 / 2); (50%nat, 1 / 4)] /\
  measured 100 10 MNS2016 2 /\ ~ measured 100 10 MNS2016 50.
Proof.
  split; [exact betaincinv_exact_ok|]. split; [apply exact_env_sort|]. split; [apply exact_env_fft|]. split; [apply exact_env_ld|].
  split; [exact case_exact_entries|]. cbn. lia.
Qed.
Lemma case_bench64 : Forall (fun e : nat * f64 => (2 <= fst e <= 1000)%nat /\ bounds_accepted cr_libm betaincinv_cr (fst e) /\
    is_finite (snd e) = true /\ 0 < B2R (snd e) <= 1) [(2%nat, f_half); (50%nat, f_half)] /\
  libm_accurate cr_libm (bpow radix2 (-52)) /\ fft_accurate (cr80_env true) (bpow radix2 (-47)) /\ sort_ok (cr80_env true) /\
  libml_accurate cr_libml (bpow radix2 (-63)) /\ libml_special cr_libml /\ long_dbl (cr80_env true) = x87 cr_libm cr_libml.
Proof.
  destruct agree_case as (H1 & H2 & H3 & H4 & H5 & H6 & _). split; [exact case64_entries|]. auto 8.
Qed.
