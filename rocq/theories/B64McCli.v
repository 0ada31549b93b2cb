(** * B64McCli: the crossprob_mc program in binary64, from the file to the printed number, and its rows of the test suite. *)
From Coquelicot Require Import Coquelicot.
From Flocq Require Import Core.Core IEEE754.BinarySingleNaN.
From Coq Require Import ZArith Reals List Bool Lia Lra String Permutation Sorted.
From Verif Require Import Base Num XReal TinyMT StringUtils MonteCarlo Cli Hoare Spec SpecFacts StringSpec StringFacts CliSpec CliFacts McSpec McFacts McProbSpec McLoop McMore McEstimate McProbCases.
From Verif Require Import StrtodSpec Binary64 Binary64Facts B64Round AccPmf AccCli AccCliCase TinyMTFacts ShowSpec ShowFacts ShowMore ShowCli ShowCases TestSpec TestProb TestCli TestMc TestCase Cases.
From Verif Require Import McB64Spec McB64 McB64Est McB64Pois McB64PCase FastCli FastSuite FastMcCli FastMcCase.
Import List. Import ListNotations.
Local Open Scope R_scope.
Local Open Scope string_scope.

Lemma printed_near (v t : R) s : printed v s -> 0 <= t <= 1 -> Rabs (v - (1 - t)) <= bpow radix2 (-50) ->
  (exists w, text_value s w /\ Rabs (w - (1 - t)) <= 5 / 10000000 + bpow radix2 (-50)) /\ (t = 0 -> s = "1").
Proof.
  intros P Ht Ew. pose proof tiny50 as T. apply Rabs_le_inv in Ew as Ew'.
  assert (H1 : 1 - 5 / 10000000 <= v -> s = "1") by (intros Hv; apply (printed_one v); [lra|exact P]).
  split; [|intros ->; apply H1; lra].
  destruct (Rle_lt_dec v 1) as [Hv|Hv].
  - destruct (printed_reads v s P) as (w & HW & _ & HB & _). exists w. split; [exact HW|].
    assert (HB' : Rabs (w - v) <= 5 / 10000000) by (apply HB, Rabs_le; lra).
    replace (w - (1 - t)) with ((w - v) + (v - (1 - t))) by ring. eapply Rle_trans; [apply Rabs_triang|]. lra.
  - specialize (H1 ltac:(lra)). pose proof (show6_ok 1) as P1. rewrite (printed_one 1 _ ltac:(lra) P1) in P1.
    destruct (printed_reads 1 _ P1) as (w & HW & _ & HB & _). exists w. split; [rewrite H1; exact HW|].
    assert (HB' : Rabs (w - 1) <= 5 / 10000000) by (apply HB; rewrite Rabs_pos_eq; lra).
    replace (w - (1 - t)) with ((w - 1) + t) by ring. eapply Rle_trans; [apply Rabs_triang|]. rewrite (Rabs_pos_eq t) by lra. lra.
Qed.

Section B64.
Context (L : libm) (E : env (Bnum L)).
Notation BN := (Bnum L).
Hypothesis HS : show_ok real_of_f64 E.

Lemma sub_one64 (q : f64) t : is_finite q = true -> 0 <= t <= 1 -> Rabs (B2R q - t) <= bpow radix2 (-52) ->
  let w := (@n_sub BN n1 q : f64) in is_finite w = true /\ Rabs (B2R w - (1 - t)) <= bpow radix2 (-50).
Proof.
  intros Fq Ht Hq w. destruct one_ok as [F1 V1]. pose proof u64_pos as Up. pose proof u64_small as Us.
  assert (U52 : bpow radix2 (-52) = 2 * u64) by (unfold u64; change 2 with (bpow radix2 1); rewrite <- bpow_plus; reflexivity).
  assert (U50 : bpow radix2 (-50) = 8 * u64) by (unfold u64; change 8 with (bpow radix2 3); rewrite <- bpow_plus; reflexivity).
  assert (Et : eta64 <= / 16 * u64).
  { unfold u64, eta64. change (/ 16) with (bpow radix2 (-4)). rewrite <- bpow_plus. apply bpow_le. lia. }
  apply Rabs_le_inv in Hq as Hq'.
  assert (B60 : 2 <= bpow radix2 60) by (change 2 with (bpow radix2 1); apply bpow_le; lia).
  assert (HA : Rabs (1 - B2R q) <= 2) by (apply Rabs_le; lra).
  destruct (minus_err (b64_of_Z 1) q F1 Fq) as [FS ES]; [rewrite V1; lra|]. rewrite V1 in ES.
  change (Bminus mode_NE (b64_of_Z 1) q) with w in *. split; [exact FS|].
  assert (u64 * Rabs (1 - B2R q) <= u64 * 2) by (apply Rmult_le_compat_l; lra).
  replace (B2R w - (1 - t)) with ((B2R w - (1 - B2R q)) - (B2R q - t)) by ring.
  eapply Rle_trans; [apply Rabs_triang|]. rewrite Rabs_Ropp. lra.
Qed.
Lemma prints64 (q : f64) t o : is_finite q = true -> 0 <= t <= 1 -> Rabs (B2R q - t) <= bpow radix2 (-52) ->
  o = Ok ([Text (@show_double BN E (@n_sub BN n1 q))], 0%Z) ->
  exists w, prints o w /\ Rabs (w - (1 - t)) <= 5 / 10000000 + bpow radix2 (-50) /\ (t = 0 -> o = Ok ([Text "1"], 0%Z)).
Proof.
  intros Fq Ht Hq ->. destruct (sub_one64 q t Fq Ht Hq) as [Fw Ew].
  pose proof (HS (@n_sub BN n1 q) _ (conj Fw eq_refl)) as P.
  destruct (printed_near _ t _ P Ht Ew) as ((w & HW & HB) & H0). exists w. split; [eexists; split; [reflexivity|exact HW]|].
  split; [exact HB|]. intros Z0. rewrite (H0 Z0). reflexivity.
Qed.

Context (eps : R) (frexp : xr -> Z) (fs : filesystem) (prog f contents nsim : string) (num : nat) (uninit : tinymt) (now : Z).
Hypothesis HT : strtod_correct L.
Hypothesis HL : libm_accurate L eps.
Hypothesis HF : fs f = Some contents.
Hypothesis HN : nul_free nsim.
Hypothesis HI : integer_text nsim (Z.of_nat num).
Hypothesis Hnum : (1 <= num)%nat.
Hypothesis Hmax : (Z.of_nat num <= INT_MAX)%Z.
Hypothesis W1 : word 32 (mat1 uninit).
Hypothesis W2 : word 32 (mat2 uninit).
Hypothesis W3 : word 64 (tmat uninit).

Lemma max_size64 (b B : list f64) n : n = Nat.max (List.length b) (List.length B) ->
  Z.max (@size (car BN) b) (@size (car BN) B) = Z.of_nat n.
Proof. intros ->. unfold size. change (car BN) with f64. lia. Qed.

Theorem mc_ecdf64 (b B : list R) us r1 : 0 <= eps <= / 8 ->
  let n := Nat.max (List.length b) (List.length B) in let d := sample_error eps n + bpow radix2 (-53) in
  file_holds (N := Xnum frexp) contents (map Fin b) (map Fin B) -> valid_boundary b -> valid_boundary B -> Forall normal b -> Forall normal B ->
  (1 <= n)%nat -> b = [] \/ (List.length B <= List.length b)%nat -> INR (S n) <= 2 ^ 40 -> eps + 2 * INR (S n) * bpow radix2 (-53) <= / 8 ->
  Forall (fun u => 0 < u < 1) us -> List.length us = (num * S n)%nat ->
  draws (N := Xnum frexp) (rng_make uninit (now + Z.of_nat n * 2 ^ 20)) (map Fin us) r1 ->
  exists cs, List.length cs = num /\
    sandwiched (S n) (ecdf_inside (raised d b) (lowered d B)) (ecdf_inside (lowered d b) (raised d B)) cs us /\
    forall fuel, (num <= fuel)%nat -> exists w, prints (@mc_main BN E fuel uninit now fs [prog; "ecdf"; f; nsim]) w /\
      Rabs (w - (1 - IZR (crossings cs) / INR num)) <= 5 / 10000000 + bpow radix2 (-50) /\
      (crossings cs = 0%Z -> @mc_main BN E fuel uninit now fs [prog; "ecdf"; f; nsim] = Ok ([Text "1"], 0%Z)).
Proof.
  intros He n d Hh Hb HB Pb PB Hn Hs Hbig Herr Fu Lu D.
  destruct (file64 L frexp HT contents b B Hb HB Pb PB Hh) as (b6 & B6 & Hh6 & A1 & A2 & E1 & E2).
  assert (L1 : List.length b6 = List.length b) by (pose proof (f_equal (@List.length R) E1) as HH; rewrite !map_length in HH; exact HH).
  assert (L2 : List.length B6 = List.length B) by (pose proof (f_equal (@List.length R) E2) as HH; rewrite !map_length in HH; exact HH).
  assert (F1 : Forall (fun x : f64 => is_finite x = true) b6) by (eapply Forall_impl; [|apply A1]; intros x Hx; apply Hx).
  assert (F2 : Forall (fun x : f64 => is_finite x = true) B6) by (eapply Forall_impl; [|apply A2]; intros x Hx; apply Hx).
  destruct (@estimate_program64 L eps HL He frexp b6 B6 us n num uninit now r1 W1 W2 W3 Hn Hbig Herr F1 F2) as (cs & Lc & HSW & q & Fq & Eq & Hq); auto.
  { unfold n. lia. }
  { destruct Hs as [->|Hs]; [left; destruct b6; [reflexivity|discriminate]|right; unfold n; lia]. }
  exists cs. split; [exact Lc|]. split.
  - unfold inner, outer in HSW. rewrite E1, E2 in HSW.
    eapply sandwiched_weaken; [| |exact HSW]; intros us'; apply moved_more; (split; [first [apply Hb|apply HB]|assumption]).
  - intros fuel Hf. destruct (mc_run E fuel uninit now fs prog "ecdf" f nsim (Z.of_nat num) contents b6 B6 HN HI) as (R & _); auto.
    { unfold INT_MAX in Hmax. lia. }
    assert (Hm : Z.max (@size (car BN) b6) (@size (car BN) B6) = Z.of_nat n) by (apply max_size64; unfold n; rewrite L1, L2; reflexivity).
    specialize (R eq_refl q). rewrite Hm in R. specialize (R (Hq fuel Hf)).
    destruct (prints64 q (IZR (crossings cs) / INR num) _ Fq (frequency_range cs num Hnum Lc) Eq R) as (w & Hw & Bw & Z0).
    exists w. split; [exact Hw|]. split; [exact Bw|]. intros Hc. apply Z0. rewrite Hc. unfold Rdiv. apply Rmult_0_l.
Qed.

Theorem mc_poisson64 (b B : list f64) us r1 : 0 <= eps <= / 16 ->
  file_holds (N := BN) contents b B -> b <> [] -> (List.length B <= List.length b <= 2147)%nat ->
  Forall (fun x : f64 => is_finite x = true) b -> Forall (fun x : f64 => is_finite x = true) B ->
  walk_error eps (List.length b) <= / 8 ->
  Forall (fun u => 0 < u < 1) us -> List.length us = (num * S (List.length b))%nat ->
  let n := Z.of_nat (List.length b) in
  draws (N := Xnum frexp) (rng_make uninit (now + n * 1000000)) (map Fin us) r1 ->
  clear_simulations (/ IZR n) (2 * walk_error eps (List.length b)) (map B2R b) (map B2R B) num us ->
  exists cs, List.length cs = num /\ poisson_outcomes (/ IZR n) (map B2R b) (map B2R B) cs us /\
    forall fuel, (num <= fuel)%nat -> exists w, prints (@mc_main BN E fuel uninit now fs [prog; "poisson"; f; nsim]) w /\
      Rabs (w - (1 - IZR (crossings cs) / INR num)) <= 5 / 10000000 + bpow radix2 (-50).
Proof.
  intros He Hh NE Hs Ub UB Herr Fu Lu n D HC.
  assert (Hn1 : (1 <= List.length b)%nat) by (destruct b; [congruence|simpl; lia]).
  assert (Hbig : INR (S (List.length b)) <= 2 ^ 40).
  { apply Rle_trans with (INR 2149); [apply le_INR; lia|]. rewrite INR_IZR_INZ. simpl Z.of_nat. lra. }
  destruct (@poisson_estimate64 L eps HL He frexp b B us n num uninit now r1 W1 W2 W3 NE) as (cs & Lc & HO & q & Fq & Eq & Hq); auto; try (unfold n; lia).
  exists cs. split; [exact Lc|]. split; [exact HO|].
  intros fuel Hf. destruct (mc_run E fuel uninit now fs prog "poisson" f nsim (Z.of_nat num) contents b B HN HI) as (_ & R & _); auto.
  { unfold INT_MAX in Hmax. lia. }
  assert (Hm : Z.max (@size (car BN) b) (@size (car BN) B) = n) by (unfold n; apply max_size64; lia).
  specialize (R eq_refl q). rewrite Hm in R. specialize (R (Hq fuel Hf)).
  destruct (prints64 q (IZR (crossings cs) / INR num) _ Fq (frequency_range cs num Hnum Lc) Eq R) as (w & Hw & Bw & _).
  exists w. split; assumption.
Qed.
(** Boundaries that no sample can cross: all values of b are 0 and all values of B are 1. *)
Lemma never_crosses64 (b B : list f64) us n r r1 : 0 <= eps <= / 8 -> (1 <= n)%nat -> List.length us = S n -> INR (S n) <= 2 ^ 40 ->
  eps + 2 * INR (S n) * u64 <= / 8 -> Forall (fun u => 0 < u < 1) us -> state_ok r ->
  Forall (fun x : f64 => is_finite x = true) b -> Forall (fun x : f64 => is_finite x = true) B ->
  Forall (fun t => t <= 0) (map B2R b) -> Forall (fun t => 1 <= t) (map B2R B) ->
  (List.length B <= n)%nat -> b = [] \/ (n <= List.length b)%nat ->
  draws (N := Xnum frexp) r (map Fin us) r1 -> does_random_ecdf_cross (N := BN) b B n r = Ok (false, r1).
Proof.
  intros He Hn Hlen Hbig HA F Hr Fb FB Zb OB HB Hb D.
  destruct (@draws64 L frexp us r r1 Hr D) as (vs & Dv & <- & Fv).
  assert (F' : Forall (fun u : f64 => is_finite u = true /\ 0 < B2R u < 1) vs).
  { rewrite Forall_map in F. rewrite Forall_forall in *. auto. }
  rewrite map_length in Hlen.
  destruct (sample64 L eps HL He vs n r r1 Hn Hlen Hbig HA F' Dv) as (xs & Ex & H2 & _).
  assert (Lx : List.length xs = n).
  { pose proof (Forall2_len _ _ _ H2) as H. rewrite ordered_sample_length, map_length in H. lia. }
  assert (Fx : Forall (fun x : f64 => is_finite x = true) xs /\ Forall (fun t => 0 <= t <= 1) (map B2R xs)).
  { clear -H2. induction H2 as [|x X xs Xs (H & H' & _) H2 [IH IH']]; (split; [constructor|cbn [map]; constructor]); auto. }
  destruct Fx as (Fx & Rx).
  destruct (cross_spec64 L (frexp := frexp) xs b B Fx Fb FB) as (c & Ec & Sc).
  assert (c = false) as ->.
  { apply Sc. unfold stays_inside. assert (Lm : List.length (map B2R xs) = n) by (rewrite map_length; exact Lx). rewrite Lm. split; [rewrite map_length; exact HB|]. rewrite Forall_forall in Zb, OB, Rx. split.
    - intros i Hi. assert (Hi' : (i < n)%nat) by (rewrite map_length in Hi; exact (Nat.lt_le_trans _ _ _ Hi HB)).
      assert (H1 : 0 <= nth i (map B2R xs) 0 <= 1) by (apply Rx, nth_In; rewrite Lm; exact Hi').
      assert (H3 : 1 <= nth i (map B2R B) 0) by (apply OB, nth_In; exact Hi). lra.
    - destruct Hb as [->|Hb]; [left; reflexivity|right]. split; [rewrite map_length; exact Hb|].
      intros i Hi. assert (H1 : 0 <= nth i (map B2R xs) 0 <= 1) by (apply Rx, nth_In; rewrite Lm; lia).
      assert (H3 : nth i (map B2R b) 0 <= 0) by (apply Zb, nth_In; rewrite map_length; exact (Nat.lt_le_trans _ _ _ Hi Hb)). lra. }
  unfold does_random_ecdf_cross. rewrite Ex. unfold addr, size. cbn [car Bnum].
  destruct xs as [|x0 xs]; [simpl in Lx; lia|].
  change (Z.of_nat (List.length (x0 :: xs))) with (Z.of_nat (S (List.length xs))) in Ec |- *.
  rewrite Ec. destruct (0 <=? Z.of_nat (S (List.length xs)))%Z; reflexivity.
Qed.

Theorem mc_trivial64 (b B : list R) us r1 : 0 <= eps <= / 8 ->
  let n := Nat.max (List.length b) (List.length B) in
  file_holds (N := Xnum frexp) contents (map Fin b) (map Fin B) -> Forall (fun t => t = 0) b -> Forall (fun t => t = 1) B ->
  (1 <= n)%nat -> b = [] \/ (List.length B <= List.length b)%nat -> INR (S n) <= 2 ^ 40 -> eps + 2 * INR (S n) * bpow radix2 (-53) <= / 8 ->
  Forall (fun u => 0 < u < 1) us -> List.length us = (num * S n)%nat ->
  draws (N := Xnum frexp) (rng_make uninit (now + Z.of_nat n * 2 ^ 20)) (map Fin us) r1 ->
  forall fuel, (num <= fuel)%nat -> @mc_main BN E fuel uninit now fs [prog; "ecdf"; f; nsim] = Ok ([Text "1"], 0%Z).
Proof.
  intros He n Hh Zb OB Hn Hs Hbig Herr Fu Lu D fuel Hf.
  assert (V : forall c v, 0 <= c <= 1 -> Forall (fun t => t = c) v -> valid_boundary v).
  { intros c v Hc Hv. split; [|eapply Forall_impl; [|exact Hv]; intros ? ->; exact Hc].
    induction Hv as [|x v Hx Hv IH]; [constructor|]. constructor; [exact IH|]. destruct Hv; constructor; lra. }
  assert (M0 : Forall normal b) by (eapply Forall_impl; [|exact Zb]; intros ? ->; left; reflexivity).
  assert (M1 : Forall normal B).
  { eapply Forall_impl; [|exact OB]; intros ? ->; right. change 1 with (bpow radix2 0). apply bpow_le. lia. }
  destruct (file64 L frexp HT contents b B (V 0 b ltac:(lra) Zb) (V 1 B ltac:(lra) OB) M0 M1 Hh) as (b6 & B6 & Hh6 & A1 & A2 & E1 & E2).
  assert (L1 : List.length b6 = List.length b) by (pose proof (f_equal (@List.length R) E1) as HH; rewrite !map_length in HH; exact HH).
  assert (L2 : List.length B6 = List.length B) by (pose proof (f_equal (@List.length R) E2) as HH; rewrite !map_length in HH; exact HH).
  assert (F1 : Forall (fun x : f64 => is_finite x = true) b6) by (eapply Forall_impl; [|apply A1]; intros x Hx; apply Hx).
  assert (F2 : Forall (fun x : f64 => is_finite x = true) B6) by (eapply Forall_impl; [|apply A2]; intros x Hx; apply Hx).
  assert (R1 : rnd 1 = 1) by (apply (bpow_format 0); lia).
  assert (Z6 : Forall (fun t => t <= 0) (map B2R b6)).
  { rewrite E1, Forall_map. eapply Forall_impl; [|exact Zb]. intros ? ->. rewrite rnd_0. lra. }
  assert (O6 : Forall (fun t => 1 <= t) (map B2R B6)).
  { rewrite E2, Forall_map. eapply Forall_impl; [|exact OB]. intros ? ->. rewrite R1. lra. }
  assert (HB : (List.length B6 <= n)%nat) by (unfold n; lia).
  assert (Hb : b6 = [] \/ (n <= List.length b6)%nat) by (destruct Hs as [->|Hs]; [left; destruct b6; [reflexivity|discriminate]|right; unfold n; lia]).
  assert (Hr : state_ok (rng_make uninit (now + Z.of_nat n * 2 ^ 20))).
  { unfold rng_make. apply init_ok; auto. unfold TinyMT.u64, word. apply Z.mod_pos_bound. reflexivity. }
  assert (SI : forall k us r, Forall (fun u => 0 < u < 1) us -> state_ok r -> List.length us = (k * S n)%nat -> draws (N := Xnum frexp) r (map Fin us) r1 ->
    simulations (does_random_ecdf_cross (N := BN) b6 B6 n) r (repeat false k)).
  { clear Lu D Fu Hr us. induction k as [|k IH]; intros us r F Hr Lu D; [constructor|].
    cbn [Nat.mul] in Lu.
    rewrite <- (firstn_skipn (S n) us), map_app in D. destruct (draws_split _ _ _ _ D) as (r2 & D1 & D2).
    cbn [repeat]. econstructor.
    - apply (never_crosses64 b6 B6 (firstn (S n) us) n r r2); auto; [apply firstn_length_le; lia|apply Forall_firstn_R; exact F].
    - apply (IH (skipn (S n) us) r2); auto; [apply Forall_skipn_R; exact F|exact (draws_ok _ _ _ Hr D1)|rewrite skipn_length; lia]. }
  specialize (SI num us _ Fu Hr Lu D).
  destruct (ecdf_estimate (N := BN) uninit now (Z.of_nat n) b6 B6 (Z.of_nat num)) as (cs & Lc & S' & R).
  { lia. } { unfold size. cbn [car Bnum]. lia. }
  { destruct Hb as [->|Hb]; [left; reflexivity|right]. unfold size. cbn [car Bnum]. lia. }
  { lia. }
  rewrite Nat2Z.id in S', R. assert (Ec : cs = repeat false num) by (eapply simulations_det; eauto; rewrite repeat_length; lia). subst cs.
  assert (C0 : crossings (repeat false num) = 0%Z).
  { clear. unfold crossings. induction num as [|k IH]; [reflexivity|exact IH]. }
  destruct (mc_run E fuel uninit now fs prog "ecdf" f nsim (Z.of_nat num) contents b6 B6 HN HI) as (Q & _); auto.
  { unfold INT_MAX in Hmax. lia. }
  assert (Hm : Z.max (@size (car BN) b6) (@size (car BN) B6) = Z.of_nat n) by (apply max_size64; unfold n; rewrite L1, L2; reflexivity).
  specialize (Q eq_refl). rewrite Hm in Q. specialize (Q _ (R fuel Hf)).
  destruct (frequency_div64 (crossings (repeat false num)) (Z.of_nat num)) as (Fq & Eq); [rewrite C0; lia|lia|].
  replace (IZR (crossings (repeat false num)) / IZR (Z.of_nat num)) with 0 in Eq by (rewrite C0; unfold Rdiv; ring).
  destruct (prints64 _ 0 _ Fq ltac:(lra) Eq Q) as (w & _ & _ & H0). exact (H0 eq_refl).
Qed.
End B64.

(** ** The test suite *)
Section Tests.
Context (L : libm) (E : env (Bnum L)) (eps : R) (frexp : xr -> Z) (fs : filesystem) (prog : string) (uninit : tinymt) (now : Z).
Hypothesis HT : strtod_correct L.
Hypothesis HS : show_ok real_of_f64 E.
Hypothesis HF : forall t, In t test_files -> fs (name t) = Some (text t).
Hypothesis HL : libm_accurate L eps.
Hypothesis He : 0 <= eps <= bpow radix2 (-30).
Hypothesis W1 : word 32 (mat1 uninit).
Hypothesis W2 : word 32 (mat2 uninit).
Hypothesis W3 : word 64 (tmat uninit).

Definition test_error64 (n : nat) : R := sample_error eps n + bpow radix2 (-53).
Lemma small_n64 n : (n <= 10)%nat -> INR (S n) <= 2 ^ 40 /\ eps + 2 * INR (S n) * bpow radix2 (-53) <= / 8 /\ 0 <= eps <= / 8 /\ 0 <= test_error64 n <= 1 / 10 ^ 7.
Proof.
  intros Hn. assert (HN : 0 <= INR (S n) <= 11).
  { split; [apply pos_INR|]. apply Rle_trans with (INR 11); [apply le_INR; lia|simpl; lra]. }
  assert (E30 : eps <= / 1073741824) by (apply He).
  assert (E53 : 0 < bpow radix2 (-53) <= / 4503599627370496).
  { split; [apply bpow_gt_0|]. change (/ 4503599627370496) with (bpow radix2 (-52)). apply bpow_le. lia. }
  assert (P : 0 <= 2 * INR (S n) * bpow radix2 (-53) <= 22 * / 4503599627370496).
  { split; [apply Rmult_le_pos; lra|]. apply Rmult_le_compat; lra. }
  split; [lra|]. split; [lra|]. split; [lra|]. unfold test_error64, sample_error. change u64 with (bpow radix2 (-53)). lra.
Qed.

Lemma mc_test64 t nsim (num : nat) us r1 : nul_free nsim -> integer_text nsim (Z.of_nat num) -> (1 <= num)%nat -> (Z.of_nat num <= INT_MAX)%Z ->
  In t test_files -> (1 <= sample_size t <= 10)%nat -> lower t = [] \/ (List.length (upper t) <= List.length (lower t))%nat ->
  Forall (fun u => 0 < u < 1) us -> List.length us = (num * S (sample_size t))%nat ->
  draws (N := Xnum frexp) (rng_make uninit (now + Z.of_nat (sample_size t) * 2 ^ 20)) (map Fin us) r1 ->
  let d := test_error64 (sample_size t) in
  exists cs, List.length cs = num /\
    sandwiched (S (sample_size t)) (ecdf_inside (raised d (lower t)) (lowered d (upper t))) (ecdf_inside (lowered d (lower t)) (raised d (upper t))) cs us /\
    forall fuel, (num <= fuel)%nat -> exists w, prints (@mc_main (Bnum L) E fuel uninit now fs [prog; "ecdf"; name t; nsim]) w /\
      Rabs (w - (1 - IZR (crossings cs) / INR num)) <= 5 / 10000000 + bpow radix2 (-50) /\
      (crossings cs = 0%Z -> @mc_main (Bnum L) E fuel uninit now fs [prog; "ecdf"; name t; nsim] = Ok ([Text "1"], 0%Z)).
Proof.
  intros HN HI H1 H2 Ht Hs Hl F LU D d. destruct (fine_all t Ht) as (V1 & V2 & _). destruct (plain_all t Ht) as (P1 & P2).
  destruct (small_n64 (sample_size t) ltac:(lia)) as (S1 & S2 & S3 & _).
  pose proof (holds_all frexp t Ht) as HH. unfold holds in HH.
  exact (mc_ecdf64 L E HS eps frexp fs prog (name t) (text t) nsim num uninit now HT HL (HF t Ht) HN HI H1 H2 W1 W2 W3
    (lower t) (upper t) us r1 S3 HH V1 V2 (plain_normal _ P1) (plain_normal _ P2) (proj1 Hs) Hl S1 S2 F LU D).
Qed.

Theorem mc_suite64 t v us r1 : In (t, v) mc_suite -> Forall (fun u => 0 < u < 1) us -> List.length us = (million * S (sample_size t))%nat ->
  draws (N := Xnum frexp) (rng_make uninit (now + Z.of_nat (sample_size t) * 2 ^ 20)) (map Fin us) r1 ->
  ~ (exists x, simulated (test_error64 (sample_size t)) million t us x /\ x < v - 995/100000) ->
  ~ (exists x, simulated (test_error64 (sample_size t)) million t us x /\ v + 995/100000 < x) ->
  forall fuel, (million <= fuel)%nat -> exists w, prints (@mc_main (Bnum L) E fuel uninit now fs [prog; "ecdf"; name t; "1000000"]) w /\ Rabs (w - v) < EPSILON.
Proof.
  intros H F LU D N1 N2 fuel Hf. destruct (mc_files t v H) as (H1 & _). destruct (mc_size t v H) as (Hs & Hl).
  assert (ZM : Z.of_nat million = 1000000%Z) by (unfold million; rewrite Z2Nat.id by lia; reflexivity).
  destruct (mc_test64 t "1000000" million us r1) as (cs & Lc & SW & R); auto.
  - apply million_text.
  - rewrite ZM. apply million_text.
  - unfold million; lia.
  - rewrite ZM. unfold INT_MAX. lia.
  - destruct (R fuel Hf) as (w & HW & HB & _). exists w. split; [exact HW|].
    set (x := 1 - IZR (crossings cs) / INR million) in *.
    assert (HX : simulated (test_error64 (sample_size t)) million t us x) by (exists cs; auto).
    assert (A : v - 995/100000 <= x) by (apply Rnot_lt_le; intros Hx; apply N1; exists x; auto).
    assert (B : x <= v + 995/100000) by (apply Rnot_lt_le; intros Hx; apply N2; exists x; auto).
    pose proof tiny50. apply Rabs_le_inv in HB. unfold EPSILON. apply Rabs_def1; lra.
Qed.
Theorem mc_ones64 t us r1 : In t mc_ones -> Forall (fun u => 0 < u < 1) us -> List.length us = (1000 * S (sample_size t))%nat ->
  draws (N := Xnum frexp) (rng_make uninit (now + Z.of_nat (sample_size t) * 2 ^ 20)) (map Fin us) r1 ->
  forall fuel, (1000 <= fuel)%nat -> @mc_main (Bnum L) E fuel uninit now fs [prog; "ecdf"; name t; "1000"] = Ok ([Text "1"], 0%Z).
Proof.
  intros H F LU D fuel Hf. assert (Ht : t = bounds_0 \/ t = bounds__1) by (destruct H as [<-|[<-|[]]]; auto).
  assert (HI : In t test_files) by (destruct Ht as [->| ->]; member).
  pose proof (holds_all frexp t HI) as HH. unfold holds in HH.
  assert (SS : sample_size t = 3%nat) by (destruct Ht as [->| ->]; reflexivity).
  destruct (small_n64 (sample_size t) ltac:(lia)) as (S1 & S2 & S3 & _).
  apply (mc_trivial64 L E HS eps frexp fs prog (name t) (text t) "1000" 1000 uninit now HT HL (HF t HI) (proj1 case_integer) (proj2 case_integer)
    ltac:(lia) ltac:(unfold INT_MAX; lia) W1 W2 W3 (lower t) (upper t) us r1); auto.
  - destruct Ht as [->| ->]; cbn [lower bounds_0 bounds__1]; repeat constructor.
  - destruct Ht as [->| ->]; cbn [upper bounds_0 bounds__1]; repeat constructor.
  - fold (sample_size t). lia.
  - destruct Ht as [->| ->]; [right; simpl; lia|left; reflexivity].
Qed.
End Tests.
