(** * FastMcCli: the crossprob_mc program as compiled with -ffast-math, and its rows of the test suite. *)
From Coquelicot Require Import Coquelicot.
From Flocq Require Import Core.Core IEEE754.BinarySingleNaN.
From Coq Require Import ZArith Reals List Bool Lia Lra String Permutation Sorted.
From Verif Require Import Base Num XReal TinyMT StringUtils MonteCarlo Cli Hoare Spec SpecFacts StringSpec StringFacts CliSpec CliFacts McSpec McProbSpec McLoop McMore McEstimate.
From Verif Require Import StrtodSpec Binary64 Binary64Facts B64Round AccPmf AccCli AccCliCase TinyMTFacts ShowSpec ShowFacts ShowMore ShowCli TestSpec TestProb TestCli TestMc.
From Verif Require Import McB64Spec McB64 McB64Est FastMath FastInst FastMain FastFft FastFftMain FastNewLower FastCli McFast McFastEst McFastPois McFastCase FastSuite.
Import List. Import ListNotations.
Local Open Scope R_scope.
Local Open Scope string_scope.

(** ** Moving boundaries *)
Lemma stays_mono (b b' B B' x : list R) : List.length b' = List.length b -> List.length B' = List.length B ->
  (forall i, (i < List.length b)%nat -> nth i b' 0 <= nth i b 0) -> (forall i, (i < List.length B)%nat -> nth i B 0 <= nth i B' 0) ->
  stays_inside b B x -> stays_inside b' B' x.
Proof.
  intros Lb LB Hb HB (H1 & H2 & H3). split; [lia|]. split.
  - intros i Hi. rewrite LB in Hi. eapply Rle_trans; [apply H2, Hi|apply HB, Hi].
  - destruct H3 as [->|[H3 H4]]; [left; destruct b'; [reflexivity|discriminate]|right]. split; [lia|].
    intros i Hi. eapply Rle_trans; [apply Hb; lia|apply H4, Hi].
Qed.
Lemma sandwiched_weaken k (A1 A2 A1' A2' : list R -> Prop) : (forall us, A1' us -> A1 us) -> (forall us, A2 us -> A2' us) ->
  forall cs us, sandwiched k A1 A2 cs us -> sandwiched k A1' A2' cs us.
Proof.
  intros H1 H2. induction cs as [|c cs IH]; intros us H; [exact I|]. cbn [sandwiched] in *. destruct H as (G1 & G2 & G3). auto.
Qed.
Lemma rnd_near v : 0 <= v <= 1 -> normal v -> Rabs (rnd v - v) <= u64.
Proof.
  intros Hv [->|Hp]; [rewrite rnd_0, Rminus_diag_eq, Rabs_R0 by reflexivity; left; apply u64_pos|].
  assert (H : Rabs (rnd v - v) <= u64 * Rabs v).
  { unfold rnd. pose proof (Relative.relative_error_N_FLT radix2 (-1074) 53 ltac:(lia) (fun x => negb (Z.even x)) v) as H.
    rewrite (Rabs_pos_eq v) in * by lra.
    replace (u64 * v) with (/ 2 * bpow radix2 (- (53) + 1) * v).
    - apply H. exact Hp.
    - unfold u64. change (/ 2) with (bpow radix2 (-1)). rewrite <- bpow_plus. reflexivity. }
  rewrite (Rabs_pos_eq v) in H by lra. pose proof u64_pos. nra.
Qed.
Definition unit_normal (v : list R) := Forall (fun t => 0 <= t <= 1) v /\ Forall normal v.
Lemma near_nth (v : list R) : unit_normal v -> forall i, (i < List.length v)%nat -> Rabs (nth i (map (fun t => rnd t) v) 0 - nth i v 0) <= u64.
Proof.
  intros [H1 H2] i Hi. rewrite (nth_indep _ 0 (rnd 0)) by (rewrite map_length; exact Hi). rewrite (map_nth (fun t => rnd t)).
  rewrite Forall_forall in *. apply rnd_near; [apply H1|apply H2]; apply nth_In; exact Hi.
Qed.
Lemma raised_rnd d v i : unit_normal v -> (i < List.length v)%nat -> nth i (raised d (map (fun t => rnd t) v)) 0 <= nth i (raised (d + u64) v) 0.
Proof.
  intros Hv Hi. rewrite !raised_nth by (rewrite ?map_length; exact Hi). pose proof (near_nth v Hv i Hi) as E. apply Rabs_le_inv in E.
  apply Rle_min_compat_l. lra.
Qed.
Lemma lowered_rnd d v i : unit_normal v -> (i < List.length v)%nat -> nth i (lowered (d + u64) v) 0 <= nth i (lowered d (map (fun t => rnd t) v)) 0.
Proof.
  intros Hv Hi. rewrite !lowered_nth by (rewrite ?map_length; exact Hi). pose proof (near_nth v Hv i Hi) as E. apply Rabs_le_inv in E.
  apply Rle_max_compat_l. lra.
Qed.
Lemma moved_more (b B : list R) d us : unit_normal b -> unit_normal B ->
  (ecdf_inside (raised (d + u64) b) (lowered (d + u64) B) us ->
     ecdf_inside (raised d (map (fun t => rnd t) b)) (lowered d (map (fun t => rnd t) B)) us) /\
  (ecdf_inside (lowered d (map (fun t => rnd t) b)) (raised d (map (fun t => rnd t) B)) us ->
     ecdf_inside (lowered (d + u64) b) (raised (d + u64) B) us).
Proof.
  intros Hb HB. split; apply stays_mono; rewrite ?raised_length, ?lowered_length, ?map_length; try reflexivity; intros i Hi.
  - apply raised_rnd; assumption. - apply lowered_rnd; assumption. - apply lowered_rnd; assumption. - apply raised_rnd; assumption.
Qed.

(** ** What is printed *)
Section Fast.
Context (C : compiler) (L : libm) (E : env (Fnum C L)) (show : f64 -> string).
Notation FN := (Fnum C L).
Hypothesis Hshow : forall r, @show_double FN E r = show (cp_sum C r).
Hypothesis HS : forall x : f64, is_finite x = true -> printed (B2R x) (show x).

Lemma sub_one (q : f64) t : is_finite q = true -> 0 <= t <= 1 -> Rabs (B2R q - t) <= bpow radix2 (-51) ->
  let w := cp_sum C (@n_sub FN n1 (lit q)) in is_finite w = true /\ Rabs (B2R w - (1 - t)) <= bpow radix2 (-50).
Proof.
  intros Fq Ht Hq w. destruct (sv_of_Z C 1 ltac:(lia)) as [F1 V1].
  pose proof (pick_diff C (b64_of_Z 1) q F1 Fq) as Hw. rewrite V1 in Hw.
  change (cp_sum C [TVal false (b64_of_Z 1); TVal true q]) with w in Hw.
  assert (Es : bpow radix2 (-1022) <= / 16 * u64).
  { unfold u64. change (/ 16) with (bpow radix2 (-4)). rewrite <- bpow_plus. apply bpow_le. lia. }
  assert (Et : eta64 <= / 16 * u64).
  { unfold u64, eta64. change (/ 16) with (bpow radix2 (-4)). rewrite <- bpow_plus. apply bpow_le. lia. }
  assert (U51 : bpow radix2 (-51) = 4 * u64) by (unfold u64; change 4 with (bpow radix2 2); rewrite <- bpow_plus; reflexivity).
  assert (U50 : bpow radix2 (-50) = 8 * u64) by (unfold u64; change 8 with (bpow radix2 3); rewrite <- bpow_plus; reflexivity).
  pose proof u64_pos as Up. pose proof u64_small as Us.
  assert (Vq : Rabs (sv (cp_flush C) q - B2R q) <= / 16 * u64).
  { eapply Rle_trans; [apply sv_near|exact Es]. }
  set (v := sv (cp_flush C) q) in *.
  assert (Hv : Rabs (v - t) <= 5 * u64).
  { replace (v - t) with ((v - B2R q) + (B2R q - t)) by ring. eapply Rle_trans; [apply Rabs_triang|]. lra. }
  apply Rabs_le_inv in Hv as Hv'.
  assert (HA : Rabs (1 - v) <= 2) by (apply Rabs_le; lra).
  destruct Hw as [Fw Hw].
  { assert (H60 : Rabs (1 - v) <= bpow radix2 60) by (eapply Rle_trans; [exact HA|]; change 2 with (bpow radix2 1); apply bpow_le; lia).
    pose proof (no_overflow60 (1 - v) H60) as H. revert H. case Rlt_bool_spec; [auto|discriminate]. }
  split; [exact Fw|].
  assert (Hr : Rabs (B2R w - (1 - v)) <= 3 * u64).
  { destruct Hw as [->|(_ & Hs & ->)].
    - pose proof (rnd_err (1 - v)) as H. change (rnd64 (1 - v)) with (rnd (1 - v)).
      assert (u64 * Rabs (1 - v) <= u64 * 2) by (apply Rmult_le_compat_l; lra). lra.
    - rewrite Rminus_0_l, Rabs_Ropp. lra. }
  replace (B2R w - (1 - t)) with ((B2R w - (1 - v)) - (v - t)) by ring.
  eapply Rle_trans; [apply Rabs_triang|]. rewrite Rabs_Ropp. lra.
Qed.

Lemma tiny50 : 0 < bpow radix2 (-50) <= 1 / 10 ^ 15.
Proof. change (bpow radix2 (-50)) with (/ 1125899906842624). lra. Qed.
Lemma fast_prints (q : f64) t o : is_finite q = true -> 0 <= t <= 1 -> Rabs (B2R q - t) <= bpow radix2 (-51) ->
  o = Ok ([Text (@show_double FN E (@n_sub FN n1 (lit q)))], 0%Z) ->
  exists w, prints o w /\ Rabs (w - (1 - t)) <= 5 / 10000000 + bpow radix2 (-50) /\ (t = 0 -> o = Ok ([Text "1"], 0%Z)).
Proof.
  intros Fq Ht Hq ->. rewrite Hshow. destruct (sub_one q t Fq Ht Hq) as [Fw Ew]. pose proof tiny50 as T. apply Rabs_le_inv in Ew as Ew'.
  pose proof (HS _ Fw) as P. set (v := B2R (cp_sum C (@n_sub FN n1 (lit q)))) in *. set (s := show (cp_sum C (@n_sub FN n1 (lit q)))) in *.
  assert (H1 : 1 - 5 / 10000000 <= v -> s = "1") by (intros Hv; apply (printed_one v); [lra|exact P]).
  assert (H : exists w, text_value s w /\ Rabs (w - (1 - t)) <= 5 / 10000000 + bpow radix2 (-50)).
  { destruct (Rle_lt_dec v 1) as [Hv|Hv].
    - destruct (printed_reads v s P) as (w & HW & _ & HB & _). exists w. split; [exact HW|].
      assert (HB' : Rabs (w - v) <= 5 / 10000000) by (apply HB, Rabs_le; lra).
      replace (w - (1 - t)) with ((w - v) + (v - (1 - t))) by ring. eapply Rle_trans; [apply Rabs_triang|]. lra.
    - specialize (H1 ltac:(lra)). pose proof (show6_ok 1) as P1. rewrite (printed_one 1 _ ltac:(lra) P1) in P1.
      destruct (printed_reads 1 _ P1) as (w & HW & _ & HB & _). exists w. split; [rewrite H1; exact HW|].
      assert (HB' : Rabs (w - 1) <= 5 / 10000000) by (apply HB; rewrite Rabs_pos_eq; lra).
      replace (w - (1 - t)) with ((w - 1) + t) by ring. eapply Rle_trans; [apply Rabs_triang|]. rewrite (Rabs_pos_eq t) by lra. lra. }
  destruct H as (w & HW & HB). exists w. split; [eexists; split; [reflexivity|exact HW]|]. split; [exact HB|].
  intros H0. rewrite H1 by lra. reflexivity.
Qed.

Lemma frequency_range cs num : (1 <= num)%nat -> List.length cs = num -> 0 <= IZR (crossings cs) / INR num <= 1.
Proof.
  intros Hn HL. pose proof (crossings_range cs) as K. rewrite HL in K. pose proof (lt_0_INR num ltac:(lia)) as Pn.
  split; [apply Rmult_le_pos; [apply IZR_le; lia|left; apply Rinv_0_lt_compat; exact Pn]|].
  apply Rmult_le_reg_r with (INR num); [exact Pn|]. unfold Rdiv. rewrite Rmult_assoc, Rinv_l, Rmult_1_r, Rmult_1_l by lra.
  rewrite INR_IZR_INZ. apply IZR_le. lia.
Qed.

Context (eps : R) (frexp : xr -> Z) (fs : filesystem) (prog f contents nsim : string) (num : nat) (uninit : tinymt) (now : Z).
Hypothesis HT : strtod_correct L.
Hypothesis HL : fast_libm_accurate (cp_flush C) L eps.
Hypothesis HF : fs f = Some contents.
Hypothesis HN : nul_free nsim.
Hypothesis HI : integer_text nsim (Z.of_nat num).
Hypothesis Hnum : (1 <= num)%nat.
Hypothesis Hmax : (Z.of_nat num <= INT_MAX)%Z.
Hypothesis W1 : word 32 (mat1 uninit).
Hypothesis W2 : word 32 (mat2 uninit).
Hypothesis W3 : word 64 (tmat uninit).

Lemma accepted_usual (v : list R) (v6 : list f64) : accepted64 v6 -> map B2R v6 = map (fun t => rnd t) v -> Forall plain v -> Forall usual v6.
Proof.
  intros [HA _] E1 HP. pose proof (plain_read v v6 E1 HP) as H. rewrite Forall_forall in *. intros x Hx. split; [apply HA, Hx|].
  destruct (H x Hx) as [H0|H0]; [left; exact H0|right]. pose proof (bpow_gt_0 radix2 (-900)). rewrite Rabs_pos_eq by lra.
  eapply Rle_trans; [|exact H0]. apply bpow_le. lia.
Qed.
Lemma max_size (b B : list f64) n : n = Nat.max (List.length b) (List.length B) ->
  Z.max (@size (car FN) (map lit b)) (@size (car FN) (map lit B)) = Z.of_nat n.
Proof. intros ->. unfold size. change (car FN) with (list term). rewrite !map_length. lia. Qed.

(** From the text of the file to the number printed *)
Theorem mc_ecdf_fast (b B : list R) us r1 : 0 <= eps <= / 8 ->
  let n := Nat.max (List.length b) (List.length B) in let d := sample_error_fast eps n + bpow radix2 (-53) in
  file_holds (N := Xnum frexp) contents (map Fin b) (map Fin B) -> valid_boundary b -> valid_boundary B -> Forall plain b -> Forall plain B ->
  (1 <= n)%nat -> b = [] \/ (List.length B <= List.length b)%nat -> INR (n + 2) <= 2 ^ 40 -> eps + 3 * INR (n + 2) * bpow radix2 (-53) <= / 8 ->
  Forall (fun u => 0 < u < 1) us -> List.length us = (num * S n)%nat ->
  draws (N := Xnum frexp) (rng_make uninit (now + Z.of_nat n * 2 ^ 20)) (map Fin us) r1 ->
  exists cs, List.length cs = num /\
    sandwiched (S n) (ecdf_inside (raised d b) (lowered d B)) (ecdf_inside (lowered d b) (raised d B)) cs us /\
    forall fuel, (num <= fuel)%nat -> exists w, prints (@mc_main FN E fuel uninit now fs [prog; "ecdf"; f; nsim]) w /\
      Rabs (w - (1 - IZR (crossings cs) / INR num)) <= 5 / 10000000 + bpow radix2 (-50) /\
      (crossings cs = 0%Z -> @mc_main FN E fuel uninit now fs [prog; "ecdf"; f; nsim] = Ok ([Text "1"], 0%Z)).
Proof.
  intros He n d Hh Hb HB Pb PB Hn Hs Hbig Herr Fu Lu D.
  destruct (file64 L frexp HT contents b B Hb HB (plain_normal _ Pb) (plain_normal _ PB) Hh) as (b6 & B6 & Hh6 & A1 & A2 & E1 & E2).
  assert (L1 : List.length b6 = List.length b) by (pose proof (f_equal (@List.length R) E1) as HH; rewrite !map_length in HH; exact HH).
  assert (L2 : List.length B6 = List.length B) by (pose proof (f_equal (@List.length R) E2) as HH; rewrite !map_length in HH; exact HH).
  destruct (estimate_program_fast C L eps HL He (frexp := frexp) b6 B6 us n num uninit now r1 W1 W2 W3 Hn Hbig Herr
    (accepted_usual b b6 A1 E1 Pb) (accepted_usual B B6 A2 E2 PB)) as (cs & Lc & HSW & q & Fq & Eq & Hq); auto.
  { unfold n. lia. }
  { destruct Hs as [->|Hs]; [left; destruct b6; [reflexivity|discriminate]|right; unfold n; lia]. }
  exists cs. split; [exact Lc|]. split.
  - unfold inner, outer in HSW. rewrite E1, E2 in HSW.
    eapply sandwiched_weaken; [| |exact HSW]; intros us'; apply moved_more; (split; [first [apply Hb|apply HB]|apply plain_normal; assumption]).
  - intros fuel Hf. destruct (mc_run E fuel uninit now fs prog "ecdf" f nsim (Z.of_nat num) contents (map lit b6) (map lit B6) HN HI) as (R & _); auto.
    { unfold INT_MAX in Hmax. lia. } { apply ffile. exact Hh6. }
    assert (Hm : Z.max (@size (car FN) (map lit b6)) (@size (car FN) (map lit B6)) = Z.of_nat n) by (apply max_size; unfold n; rewrite L1, L2; reflexivity).
    specialize (R eq_refl (lit q)). rewrite Hm in R. specialize (R (Hq fuel Hf)).
    destruct (fast_prints q (IZR (crossings cs) / INR num) _ Fq (frequency_range cs num Hnum Lc) Eq R) as (w & Hw & Bw & Z0).
    exists w. split; [exact Hw|]. split; [exact Bw|]. intros Hc. apply Z0. rewrite Hc. unfold Rdiv. apply Rmult_0_l.
Qed.

Theorem mc_poisson_fast (b B : list f64) us r1 : 0 <= eps <= / 16 ->
  file_holds (N := Bnum L) contents b B -> b <> [] -> (List.length B <= List.length b <= 2147)%nat -> Forall usual b -> Forall usual B ->
  walk_error_fast eps (List.length b) <= / 8 ->
  Forall (fun u => 0 < u < 1) us -> List.length us = (num * S (List.length b))%nat ->
  let n := Z.of_nat (List.length b) in
  draws (N := Xnum frexp) (rng_make uninit (now + n * 1000000)) (map Fin us) r1 ->
  clear_simulations (/ IZR n) (2 * walk_error_fast eps (List.length b)) (map B2R b) (map B2R B) num us ->
  exists cs, List.length cs = num /\ poisson_outcomes (/ IZR n) (map B2R b) (map B2R B) cs us /\
    forall fuel, (num <= fuel)%nat -> exists w, prints (@mc_main FN E fuel uninit now fs [prog; "poisson"; f; nsim]) w /\
      Rabs (w - (1 - IZR (crossings cs) / INR num)) <= 5 / 10000000 + bpow radix2 (-50).
Proof.
  intros He Hh NE Hs Ub UB Herr Fu Lu n D HC.
  assert (Hn1 : (1 <= List.length b)%nat) by (destruct b; [congruence|simpl; lia]).
  assert (Hbig : INR (List.length b + 2) <= 2 ^ 40).
  { apply Rle_trans with (INR 2149); [apply le_INR; lia|]. rewrite INR_IZR_INZ. simpl Z.of_nat. lra. }
  destruct (poisson_estimate_fast C L eps HL He (frexp := frexp) b B us n num uninit now r1 W1 W2 W3 NE) as (cs & Lc & HO & q & Fq & Eq & Hq); auto; try (unfold n; lia).
  exists cs. split; [exact Lc|]. split; [exact HO|].
  intros fuel Hf. destruct (mc_run E fuel uninit now fs prog "poisson" f nsim (Z.of_nat num) contents (map lit b) (map lit B) HN HI) as (_ & R & _); auto.
  { unfold INT_MAX in Hmax. lia. } { apply ffile. exact Hh. }
  assert (Hm : Z.max (@size (car FN) (map lit b)) (@size (car FN) (map lit B)) = n) by (unfold n; apply max_size; lia).
  specialize (R eq_refl (lit q)). rewrite Hm in R. specialize (R (Hq fuel Hf)).
  destruct (fast_prints q (IZR (crossings cs) / INR num) _ Fq (frequency_range cs num Hnum Lc) Eq R) as (w & Hw & Bw & _).
  exists w. split; assumption.
Qed.
End Fast.

(** ** The test suite *)
(** A frequency that a program may find whose simulated samples and boundaries are off by at most d *)
Definition simulated (d : R) (num : nat) (t : test_file) (us : list R) (x : R) : Prop :=
  exists cs, List.length cs = num /\ sandwiched (S (sample_size t)) (ecdf_inside (raised d (lower t)) (lowered d (upper t)))
    (ecdf_inside (lowered d (lower t)) (raised d (upper t))) cs us /\ x = 1 - IZR (crossings cs) / INR num.

Lemma file_prob t p : (lower t = [] \/ List.length (lower t) = sample_size t) -> (upper t = [] \/ List.length (upper t) = sample_size t) ->
  (lower t <> [] \/ upper t <> []) -> is_noncrossing_probability (lower_of t) (upper_of t) p ->
  is_noncrossing_probability (if lower t then repeat 0 (sample_size t) else lower t) (upper t ++ repeat 1 (sample_size t - List.length (upper t)))%list p.
Proof.
  intros L1 L2 NE HP.
  assert (E1 : (if lower t then repeat 0 (sample_size t) else lower t) = lower_of t).
  { unfold lower_of. destruct (lower t) eqn:E; [|reflexivity]. f_equal. destruct L2 as [L2|L2]; [|symmetry; exact L2].
    destruct NE; congruence. }
  assert (E2 : (upper t ++ repeat 1 (sample_size t - List.length (upper t)))%list = upper_of t).
  { unfold upper_of. destruct (upper t) eqn:E.
    - cbn [app List.length]. rewrite Nat.sub_0_r. f_equal. destruct L1 as [L1|L1]; [|symmetry; exact L1]. destruct NE; congruence.
    - destruct L2 as [L2|L2]; [congruence|]. rewrite L2, Nat.sub_diag. cbn [repeat]. apply app_nil_r. }
  rewrite E1, E2. exact HP.
Qed.
Lemma mc_size t v : In (t, v) mc_suite -> (1 <= sample_size t <= 10)%nat /\ (lower t = [] \/ (List.length (upper t) <= List.length (lower t))%nat).
Proof. intros H. repeat destruct H as [[= <- <-]|H]; [..|destruct H]; (split; [unfold sample_size; simpl; lia|]); first [left; reflexivity|right; simpl; lia]. Qed.

Lemma prob_at_most_weaken n (A A' : list R -> Prop) q q' : (forall us, A us -> A' us) -> q' <= q -> prob_at_most n A' q' -> prob_at_most n A q.
Proof. intros HA Hq (A2 & q2 & H1 & H2 & H3). exists A2, q2. split; [auto|]. split; [exact H2|lra]. Qed.

Theorem mc_tests_rare (d : R) : 0 <= d <= 1 / 10 ^ 7 -> Forall (fun row => match row with (t, v) =>
  prob_at_most (million * S (sample_size t)) (fun us => exists x, simulated d million t us x /\ x < v - 995/100000) (1 / 10 ^ 20) /\
  prob_at_most (million * S (sample_size t)) (fun us => exists x, simulated d million t us x /\ v + 995/100000 < x) (1 / 10 ^ 20) end) mc_suite.
Proof.
  intros Hd. apply Forall_forall. intros (t, v) H. destruct (mc_files t v H) as (H1 & (p & HP & HB) & H3 & H4 & H5).
  destruct (mc_size t v H) as (Hs & _). destruct (fine_all t H1) as (V1 & V2 & _).
  pose proof (file_prob t p H3 H4 H5 HP) as HP'.
  assert (Q : 0 <= 2 * INR (sample_size t) ^ 2 * d <= 5 / 100000).
  { assert (HN : 0 <= INR (sample_size t) <= 10).
    { split; [apply pos_INR|]. apply Rle_trans with (INR 10); [apply le_INR; lia|simpl; lra]. }
    assert (0 <= INR (sample_size t) ^ 2 <= 100) by (split; [apply pow_le; lra|]; replace 100 with (10 ^ 2) by ring; apply pow_incr; lra).
    split; [apply Rmult_le_pos; lra|]. apply Rle_trans with (2 * 100 * (1 / 10 ^ 7)); [|lra]. apply Rmult_le_compat; lra. }
  assert (HS : (List.length (upper t) <= sample_size t)%nat) by (unfold sample_size; lia).
  assert (HM : (1 <= million)%nat) by (unfold million; lia).
  pose proof exp_small as HE.
  split.
  - eapply prob_at_most_weaken; [| |apply (rarely_too_many (lower t) (upper t) (sample_size t) p d (proj1 Hd) V1 V2 H3 HS HP' million (989/100000) HM ltac:(lra))].
    + intros us (x & (cs & Lc & SW & ->) & Hx). exists cs. split; [exact Lc|]. split; [exact SW|]. lra.
    + rewrite million_INR. exact HE.
  - eapply prob_at_most_weaken; [| |apply (rarely_too_few (lower t) (upper t) (sample_size t) p d (proj1 Hd) V1 V2 H3 HS HP' million (989/100000) HM ltac:(lra))].
    + intros us (x & (cs & Lc & SW & ->) & Hx). exists cs. split; [exact Lc|]. split; [exact SW|]. lra.
    + rewrite million_INR. exact HE.
Qed.

Section Tests.
Context (C : compiler) (L : libm) (E : env (Fnum C L)) (show : f64 -> string) (eps : R) (frexp : xr -> Z) (fs : filesystem) (prog : string) (uninit : tinymt) (now : Z).
Hypothesis HT : strtod_correct L.
Hypothesis Hshow : forall r, @show_double (Fnum C L) E r = show (cp_sum C r).
Hypothesis HS : forall x : f64, is_finite x = true -> printed (B2R x) (show x).
Hypothesis HF : forall t, In t test_files -> fs (name t) = Some (text t).
Hypothesis HL : fast_libm_accurate (cp_flush C) L eps.
Hypothesis He : 0 <= eps <= bpow radix2 (-30).
Hypothesis W1 : word 32 (mat1 uninit).
Hypothesis W2 : word 32 (mat2 uninit).
Hypothesis W3 : word 64 (tmat uninit).

Definition test_error (n : nat) : R := sample_error_fast eps n + bpow radix2 (-53).
Lemma small_n n : (n <= 10)%nat -> INR (n + 2) <= 2 ^ 40 /\ eps + 3 * INR (n + 2) * bpow radix2 (-53) <= / 8 /\ 0 <= eps <= / 8 /\ 0 <= test_error n <= 1 / 10 ^ 7.
Proof.
  intros Hn. assert (HN : 0 <= INR (n + 2) <= 12).
  { split; [apply pos_INR|]. apply Rle_trans with (INR 12); [apply le_INR; lia|simpl; lra]. }
  assert (E30 : eps <= / 1073741824) by (apply He).
  assert (E53 : 0 < bpow radix2 (-53) <= / 1073741824).
  { split; [apply bpow_gt_0|]. change (/ 1073741824) with (bpow radix2 (-30)). apply bpow_le. lia. }
  assert (P : 0 <= 3 * INR (n + 2) * bpow radix2 (-53) <= 36 * / 1073741824).
  { split; [apply Rmult_le_pos; lra|]. apply Rmult_le_compat; lra. }
  assert (E53' : bpow radix2 (-53) <= / 4503599627370496) by (change (/ 4503599627370496) with (bpow radix2 (-52)); apply bpow_le; lia).
  assert (P' : 3 * INR (n + 2) * bpow radix2 (-53) <= 36 * / 4503599627370496) by (apply Rmult_le_compat; lra).
  split; [lra|]. split; [lra|]. split; [lra|]. unfold test_error, sample_error_fast. change u64 with (bpow radix2 (-53)). lra.
Qed.

Lemma mc_test_fast t nsim (num : nat) us r1 : nul_free nsim -> integer_text nsim (Z.of_nat num) -> (1 <= num)%nat -> (Z.of_nat num <= INT_MAX)%Z ->
  In t test_files -> (1 <= sample_size t <= 10)%nat -> lower t = [] \/ (List.length (upper t) <= List.length (lower t))%nat ->
  Forall (fun u => 0 < u < 1) us -> List.length us = (num * S (sample_size t))%nat ->
  draws (N := Xnum frexp) (rng_make uninit (now + Z.of_nat (sample_size t) * 2 ^ 20)) (map Fin us) r1 ->
  let d := test_error (sample_size t) in
  exists cs, List.length cs = num /\
    sandwiched (S (sample_size t)) (ecdf_inside (raised d (lower t)) (lowered d (upper t))) (ecdf_inside (lowered d (lower t)) (raised d (upper t))) cs us /\
    forall fuel, (num <= fuel)%nat -> exists w, prints (@mc_main (Fnum C L) E fuel uninit now fs [prog; "ecdf"; name t; nsim]) w /\
      Rabs (w - (1 - IZR (crossings cs) / INR num)) <= 5 / 10000000 + bpow radix2 (-50) /\
      (crossings cs = 0%Z -> @mc_main (Fnum C L) E fuel uninit now fs [prog; "ecdf"; name t; nsim] = Ok ([Text "1"], 0%Z)).
Proof.
  intros HN HI H1 H2 Ht Hs Hl F LU D d. destruct (fine_all t Ht) as (V1 & V2 & _). destruct (plain_all t Ht) as (P1 & P2).
  destruct (small_n (sample_size t) ltac:(lia)) as (S1 & S2 & S3 & _).
  pose proof (holds_all frexp t Ht) as HH. unfold holds in HH.
  exact (mc_ecdf_fast C L E show Hshow HS eps frexp fs prog (name t) (text t) nsim num uninit now HT HL (HF t Ht) HN HI H1 H2 W1 W2 W3
    (lower t) (upper t) us r1 S3 HH V1 V2 P1 P2 (proj1 Hs) Hl S1 S2 F LU D).
Qed.

Theorem mc_suite_fast t v us r1 : In (t, v) mc_suite -> Forall (fun u => 0 < u < 1) us -> List.length us = (million * S (sample_size t))%nat ->
  draws (N := Xnum frexp) (rng_make uninit (now + Z.of_nat (sample_size t) * 2 ^ 20)) (map Fin us) r1 ->
  ~ (exists x, simulated (test_error (sample_size t)) million t us x /\ x < v - 995/100000) ->
  ~ (exists x, simulated (test_error (sample_size t)) million t us x /\ v + 995/100000 < x) ->
  forall fuel, (million <= fuel)%nat -> exists w, prints (@mc_main (Fnum C L) E fuel uninit now fs [prog; "ecdf"; name t; "1000000"]) w /\ Rabs (w - v) < EPSILON.
Proof.
  intros H F LU D N1 N2 fuel Hf. destruct (mc_files t v H) as (H1 & _). destruct (mc_size t v H) as (Hs & Hl).
  assert (ZM : Z.of_nat million = 1000000%Z) by (unfold million; rewrite Z2Nat.id by lia; reflexivity).
  destruct (mc_test_fast t "1000000" million us r1) as (cs & Lc & SW & R); auto.
  - apply million_text.
  - rewrite ZM. apply million_text.
  - unfold million; lia.
  - rewrite ZM. unfold INT_MAX. lia.
  - destruct (R fuel Hf) as (w & HW & HB & _). exists w. split; [exact HW|].
    set (x := 1 - IZR (crossings cs) / INR million) in *.
    assert (HX : simulated (test_error (sample_size t)) million t us x) by (exists cs; auto).
    assert (A : v - 995/100000 <= x) by (apply Rnot_lt_le; intros Hx; apply N1; exists x; auto).
    assert (B : x <= v + 995/100000) by (apply Rnot_lt_le; intros Hx; apply N2; exists x; auto).
    pose proof tiny50. apply Rabs_le_inv in HB. unfold EPSILON. apply Rabs_def1; lra.
Qed.

Lemma skipn_plus k : forall j (us : list R), skipn j (skipn k us) = skipn (k + j) us.
Proof. induction k as [|k IH]; intros j us; [reflexivity|]. destruct us as [|u us]; [cbn [skipn]; destruct j; reflexivity|]. apply IH. Qed.
Lemma all_inside k (A1 A2 : list R -> Prop) : forall cs us, sandwiched k A1 A2 cs us ->
  (forall i, (i < List.length cs)%nat -> A1 (firstn k (skipn (i * k) us))) -> crossings cs = 0%Z.
Proof.
  induction cs as [|c cs IH]; intros us H HA; [reflexivity|]. cbn [sandwiched] in H. destruct H as (G1 & _ & G3).
  assert (c = false) as -> by (apply G1; exact (HA 0%nat ltac:(simpl; lia))).
  unfold crossings in *. cbn [filter]. apply (IH (skipn k us) G3). intros i Hi. specialize (HA (S i) ltac:(simpl; lia)).
  rewrite skipn_plus. replace (k + i * k)%nat with (S i * k)%nat by (simpl; lia). exact HA.
Qed.
Theorem mc_ones_fast t us r1 : In t mc_ones -> Forall (fun u => 0 < u < 1) us -> List.length us = (1000 * S (sample_size t))%nat ->
  draws (N := Xnum frexp) (rng_make uninit (now + Z.of_nat (sample_size t) * 2 ^ 20)) (map Fin us) r1 ->
  let d := test_error (sample_size t) in
  (forall i x, (i < 1000)%nat -> In x (ordered_sample (firstn (S (sample_size t)) (skipn (i * S (sample_size t)) us))) -> d <= x <= 1 - d) ->
  forall fuel, (1000 <= fuel)%nat -> @mc_main (Fnum C L) E fuel uninit now fs [prog; "ecdf"; name t; "1000"] = Ok ([Text "1"], 0%Z).
Proof.
  intros H F LU D d HA fuel Hf. assert (Ht : t = bounds_0 \/ t = bounds__1) by (destruct H as [<-|[<-|[]]]; auto).
  assert (SS : sample_size t = 3%nat) by (destruct Ht as [->| ->]; reflexivity).
  destruct (mc_test_fast t "1000" 1000 us r1) as (cs & Lc & SW & R); auto.
  - apply case_integer.
  - change (Z.of_nat 1000) with 1000%Z. apply case_integer.
  - lia.
  - unfold INT_MAX. lia.
  - destruct Ht as [->| ->]; member.
  - lia.
  - destruct Ht as [->| ->]; [right; simpl; lia|left; reflexivity].
  - destruct (R fuel Hf) as (w & _ & _ & HO). apply HO. apply (all_inside _ _ _ cs us SW). intros i Hi. rewrite Lc in Hi.
    specialize (HA i). set (xs := ordered_sample (firstn (S (sample_size t)) (skipn (i * S (sample_size t)) us))) in *.
    assert (Lx : List.length xs = 3%nat).
    { unfold xs. rewrite ordered_sample_length, firstn_length, skipn_length, LU, SS. lia. }
    assert (HX : forall j, (j < 3)%nat -> d <= nth j xs 0 <= 1 - d) by (intros j Hj; apply HA; [exact Hi|apply nth_In; lia]).
    destruct (small_n 3 ltac:(lia)) as (_ & _ & _ & Hd). assert (Hd' : 0 <= d <= 1 / 10 ^ 7) by (unfold d; rewrite SS; exact Hd).
    unfold ecdf_inside, stays_inside. fold xs. rewrite Lx, raised_length, lowered_length. fold d.
    destruct Ht as [->| ->]; cbn [lower upper bounds_0 bounds__1 List.length].
    + split; [lia|]. split; [intros j Hj; lia|]. right. split; [lia|]. intros j Hj. specialize (HX j Hj).
      assert (nth j (raised d [0; 0; 0]) 0 = d).
      { rewrite raised_nth by (simpl; lia). replace (nth j [0; 0; 0] 0) with 0 by (do 3 (destruct j as [|j]; [reflexivity|]); lia). rewrite Rplus_0_l. apply Rmin_right. lra. }
      lra.
    + split; [lia|]. split; [|left; reflexivity]. intros j Hj. specialize (HX j Hj).
      assert (nth j (lowered d [1; 1; 1]) 0 = 1 - d).
      { rewrite lowered_nth by (simpl; lia). replace (nth j [1; 1; 1] 0) with 1 by (do 3 (destruct j as [|j]; [reflexivity|]); lia). apply Rmax_right. lra. }
      lra.
Qed.
End Tests.
