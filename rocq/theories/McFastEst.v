(** * McFastEst: the ecdf simulations of crossprob_mc under -ffast-math. *)
From Coquelicot Require Import Coquelicot.
From Flocq Require Import Core.Core IEEE754.BinarySingleNaN.
From Coq Require Import ZArith Reals List Bool Lia Lra Sorted.
From Verif Require Import Base Num Binary64 Binary64Facts XReal Hoare TinyMT MonteCarlo Spec McSpec McProbSpec McFacts McLoop McMore McEstimate McEcdfProb.
From Verif Require Import AccPmf AccCases TinyMTFacts TinyMTBinary64 McB64Spec McB64 McB64Est McPoissonProb FastMath FastInst McFast.
From Verif Require Import B64Round.
Import List. Import ListNotations.
Local Open Scope R_scope.

Section Est.
Context (C : compiler) (L : libm) (eps : R).
Notation flush := (cp_flush C).
Hypothesis HL : fast_libm_accurate flush L eps.
Hypothesis Heps : 0 <= eps <= / 8.
Notation FN := (Fnum C L).
Notation pick := (cp_sum C).
Notation sv := (sv flush).
Notation tv := (tval flush).
Notation ffin := (ffin C).
Notation fval := (fval C).
Context {frexp : xr -> Z}.
Notation XN := (Xnum frexp).
Notation good := (good C eps).

Lemma pick_minus v : pick [TVal true v] = Bopp v.
Proof. pose proof (cp_sum_ok C [TVal true v] ltac:(discriminate)) as H. exact (single_val C _ _ H true v eq_refl). Qed.

(** ** One exponential *)
Lemma exponential_fast (v : f64) u r r1 : is_finite v = true -> state_ok r -> 0 < u < 1 ->
  tinymt64_generate_double01 (N := XN) r = (Fin u, r1) ->
  exists t l, generate_exponential (N := FN) (lit v) r = ([t], r1) /\ tfin t /\ tv t = - (sv v * l) /\ Rabs (l - ln u) <= eps * - ln u.
Proof.
  intros Fv Hr Hu G. destruct (draw_fast C L r u r1 Hr G) as (w & Gw & Fw & Vw).
  destruct (draw_bounds L r u r1 Hr G Hu) as (HB & HG & _).
  destruct (fl_log _ _ _ HL (pick w) Fw) as [Fl El].
  { rewrite Vw. eapply Rle_trans; [|exact HB]. apply bpow_le. lia. }
  rewrite Vw in El. pose proof (ln_lt_0 _ Hu) as Hl. rewrite (Rabs_left (ln u)) in El by exact Hl.
  exists (TProd false (pick [TVal true v]) (pick (lit (lm_log L (pick w))))), (sv (lm_log L (pick w))).
  split; [unfold generate_exponential, generate_uniform01; rewrite Gw; reflexivity|].
  rewrite pick_lit, pick_minus. split; [split; [rewrite is_finite_Bopp; exact Fv|exact Fl]|]. split; [|exact El].
  cbn [tval sg]. rewrite sv_opp. ring.
Qed.
Lemma unit_exponential u r r1 : state_ok r -> 0 < u < 1 -> tinymt64_generate_double01 (N := XN) r = (Fin u, r1) ->
  exists t, generate_exponential (N := FN) n1 r = ([t], r1) /\ tfin t /\ Rabs (tv t - - ln u) <= eps * - ln u /\
    bpow radix2 (-53) <= - ln u <= 1074.
Proof.
  intros Hr Hu G. destruct (sv_of_Z C 1 ltac:(lia)) as [F1 V1].
  destruct (exponential_fast (b64_of_Z 1) u r r1 F1 Hr Hu G) as (t & l & E & Ft & Et & El).
  destruct (draw_bounds L r u r1 Hr G Hu) as (_ & HG & HU).
  exists t. split; [exact E|]. split; [exact Ft|]. rewrite Et, V1. split.
  - replace (- (1 * l) - - ln u) with (- (l - ln u)) by ring. rewrite Rabs_Ropp. exact El.
  - lra.
Qed.
Lemma b53_80 : bpow radix2 (-80) <= bpow radix2 (-53). Proof. apply bpow_le. lia. Qed.

Lemma draws_cons (u : R) us r r1 : state_ok r -> draws (N := XN) r (map Fin (u :: us)) r1 ->
  exists r2, tinymt64_generate_double01 (N := XN) r = (Fin u, r2) /\ state_ok r2 /\ draws (N := XN) r2 (map Fin us) r1.
Proof.
  intros Hr D. cbn [map] in D. inversion D as [|? ? r2 ? ? G D1]; subst. exists r2. split; [exact G|]. split; [|exact D1].
  rewrite (draw_state XN) in G. pose proof (f_equal snd G) as G'. cbn [snd] in G'. subst r2. exact (next_ok _ Hr).
Qed.

(** ** Partial sums *)
Lemma sums_fast us : forall (a : list term) A r r1 j, Forall (fun u => 0 < u < 1) us -> state_ok r ->
  draws (N := XN) r (map Fin us) r1 -> good j a A ->
  exists (l : list (list term)) (last : list term), partial_sums (N := FN) (length us) a r = (l, last, r1) /\
    good (j + length us) last (A + total (map (fun u => - ln u) us)) /\
    Forall2 (fun x X => exists k, (1 <= k <= j + length us)%nat /\ good k x X) l (sums_from A (map (fun u => - ln u) us)).
Proof.
  induction us as [|u us IH]; intros a A r r1 j F Hr D Ha.
  - assert (r = r1) by (inversion D; auto). subst r. exists [], a. cbn [length partial_sums map sums_from]. rewrite Nat.add_0_r.
    replace (A + total []) with A by (unfold total; simpl; ring). split; [reflexivity|]. split; [exact Ha|constructor].
  - destruct (draws_cons _ _ _ _ Hr D) as (r2 & G & Hr2 & D1). inversion F as [|? ? Hu F1]; subst.
    destruct (unit_exponential u r r2 Hr Hu G) as (t & Ge & Ft & Et & Bt).
    pose proof (good_next C eps j a A t (- ln u) Ha Heps Ft Et ltac:(pose proof b53_80; lra)) as Hx.
    destruct (IH (a ++ [t]) (A + - ln u) r2 r1 (S j) F1 Hr2 D1 Hx) as (l & last & E & HG & HF).
    exists ((a ++ [t]) :: l), last. split.
    { cbn [length partial_sums]. rewrite Ge. cbv zeta. change (@n_add FN a [t]) with (a ++ [t]). rewrite E. reflexivity. }
    cbn [length]. replace (j + S (length us))%nat with (S j + length us)%nat by lia. split.
    { replace (A + total (map (fun u => - ln u) (u :: us))) with (A + - ln u + total (map (fun u => - ln u) us)) by (unfold total; simpl; ring). exact HG. }
    cbn [map sums_from]. constructor; [|exact HF]. exists (S j). split; [lia|exact Hx].
Qed.

Lemma close_weaken th th' x X : th <= th' -> 0 <= X -> close C th x X -> close C th' x X.
Proof.
  intros H1 H2 (A & B & D). split; [exact A|]. split; [exact B|]. eapply Rle_trans; [exact D|]. apply Rmult_le_compat_r; assumption.
Qed.

(** ** The sample *)
Definition sample_error_fast (n : nat) : R := 3 * (eps + 3 * INR (n + 2) * u64).

Theorem sample_fast us n r r1 : (1 <= n)%nat -> length us = S n -> INR (n + 2) <= 2 ^ 40 -> eps + 3 * INR (n + 2) * u64 <= / 8 ->
  Forall (fun u => 0 < u < 1) us -> state_ok r -> draws (N := XN) r (map Fin us) r1 ->
  exists xs : list (list term), random_ecdf (N := FN) n r = (xs, r1) /\
    Forall2 (fun x X => ffin x /\ Rabs (fval x - X) <= sample_error_fast n) xs (ordered_sample us).
Proof.
  intros Hn Hlen Hbig HA F Hr D.
  assert (NE : us <> []) by (intros ->; discriminate).
  destruct (exists_last NE) as (vs & v & ->). rewrite app_length in Hlen. cbn [length] in Hlen.
  assert (Hv : length vs = n) by lia. clear Hlen NE. subst n.
  rewrite map_app in D. destruct (draws_split (N := XN) (map Fin vs) r (map Fin [v]) r1 D) as (r2 & D1 & D2).
  apply Forall_app in F as (F1 & F2). inversion F2 as [|? ? Hvr _]; subst.
  pose proof (draws_ok (frexp := frexp) _ _ _ Hr D1) as Hr2.
  destruct (draws_cons _ _ _ _ Hr2 D2) as (r3 & G & _ & D3). assert (r3 = r1) by (inversion D3; auto). subst r3. clear D2 D3.
  destruct (sums_fast vs (lit (b64_of_Z 0)) 0 r r2 0 F1 Hr D1 (good_0 C eps ltac:(lra))) as (l & last & E & HG & HF).
  rewrite Rplus_0_l in HG. cbn [Nat.add] in HG, HF.
  destruct (unit_exponential v r2 r1 Hr2 Hvr G) as (t & Ge & Ft & Et & Bt).
  pose proof (good_next C eps _ _ _ t (- ln v) HG Heps Ft Et ltac:(pose proof b53_80; lra)) as HT.
  set (T0 := total (map (fun u => - ln u) vs) + - ln v) in *. set (T := last ++ [t]) in *.
  set (m := length vs) in *. set (th := eps + 3 * INR (m + 2) * u64) in *.
  pose proof u64_pos as PU. pose proof (pos_INR m) as PM. pose proof (bpow_gt_0 radix2 (-80)) as P80. pose proof eta0_pos as PE.
  assert (E2 : INR (m + 2) = INR m + 2) by (rewrite plus_INR; simpl; ring).
  assert (PMU : 0 <= INR m * u64) by (apply Rmult_le_pos; lra).
  assert (Eo : ordered_sample (vs ++ [v]) = map (fun X => X / T0) (sums_from 0 (map (fun u => - ln u) vs))).
  { unfold ordered_sample. rewrite map_app. cbn [map]. rewrite removelast_last, jump_times_sums.
    rewrite total_app. unfold T0. replace (total [- ln v]) with (- ln v) by (unfold total; simpl; ring). reflexivity. }
  rewrite Eo. clear Eo.
  assert (FP : Forall (fun e => 0 < e) (map (fun u => - ln u) vs)).
  { apply Forall_map. eapply Forall_impl; [|exact F1]. cbv beta. intros u Hu. pose proof (ln_lt_0 _ Hu). lra. }
  destruct (sums_from_sorted 0 _ FP) as (_ & _ & HX). rewrite Rplus_0_l in HX.
  assert (CT : close C th T T0).
  { replace th with (eps + 3 * INR (S (S m)) * u64) by (unfold th; rewrite E2, !S_INR; ring).
    apply good_value; [exact HT|exact Heps|lia|rewrite !S_INR; lra]. }
  assert (BT0 : bpow radix2 (-53) <= T0) by (unfold T0; pose proof (total_pos _ FP); lra).
  assert (BT1 : T0 <= 1074 * (INR m + 1)).
  { destruct HT as (_ & _ & _ & _ & HT & _). rewrite S_INR in HT. lra. }
  exists (map (fun x => lit (cp_div C (pick x) (pick T))) l). split.
  { unfold random_ecdf. change (@n0 FN) with (lit (b64_of_Z 0)). fold m in E. rewrite E. rewrite Ge. reflexivity. }
  assert (Hth : 0 <= th <= / 8) by (unfold th in *; rewrite E2 in *; lra).
  destruct CT as (FT & NT & ET).
  pose proof (bpow_gt_0 radix2 (-53)) as P53.
  assert (HthT : th * T0 <= / 8 * T0) by (apply Rmult_le_compat_r; lra).
  assert (BT : bpow radix2 (-60) <= fval T <= bpow radix2 60).
  { pose proof (Rabs_le_inv _ _ ET) as ET'. split.
    - assert (2 * bpow radix2 (-60) <= bpow radix2 (-53)) by (change 2 with (bpow radix2 1); rewrite <- bpow_plus; apply bpow_le; lia). lra.
    - apply Rle_trans with (9 / 8 * (1074 * 2 ^ 40)); [lra|]. change (bpow radix2 60) with (IZR (2 ^ 60)). lra. }
  clear E. revert HX HF. generalize (sums_from 0 (map (fun u => - ln u) vs)). intros Xs HX HF.
  induction HF as [|x X l Xs (k & Hk & Hg) HF IH]; cbn [map]; constructor; [|inversion HX; auto].
  inversion HX as [|? ? BX _]; subst.
  assert (CX : close C th x X).
  { apply close_weaken with (eps + 3 * INR (S k) * u64); [|lra|].
    - unfold th. assert (HI : INR (S k) <= INR (m + 2)) by (apply le_INR; lia).
      assert (INR (S k) * u64 <= INR (m + 2) * u64) by (apply Rmult_le_compat_r; lra). lra.
    - apply good_value; [exact Hg|exact Heps|lia|]. eapply Rle_trans; [|exact Hbig]. apply le_INR. lia. }
  destruct CX as (FX & NX & EX).
  assert (XT : 0 <= X <= T0) by (unfold T0; lra).
  assert (QC : Rabs (fval x / fval T - X / T0) <= 16 / 7 * th) by (apply quotient_close; lra).
  assert (QX : 0 <= X / T0 <= 1).
  { split; [apply Rdiv_le_0_compat; lra|]. apply Rmult_le_reg_r with T0; [lra|]. unfold Rdiv. rewrite Rmult_assoc, Rinv_l by lra. lra. }
  assert (QF : Rabs (fval x / fval T) <= 2).
  { replace (fval x / fval T) with ((fval x / fval T - X / T0) + X / T0) by ring. eapply Rle_trans; [apply Rabs_triang|].
    rewrite (Rabs_pos_eq (X / T0)) by lra. lra. }
  destruct (div_any C L x T FX FT BT ltac:(lra)) as (FD & ED).
  split; [exact FD|]. change (lit (cp_div C (pick x) (pick T))) with (@n_div FN x T).
  replace (fval (@n_div FN x T) - X / T0) with ((fval (@n_div FN x T) - fval x / fval T) + (fval x / fval T - X / T0)) by ring.
  eapply Rle_trans; [apply Rabs_triang|].
  assert (U1 : u64 * Rabs (fval x / fval T) <= u64 * 2) by (apply Rmult_le_compat_l; lra).
  assert (U2 : eta0 <= / 4 * u64) by (unfold eta0, u64; change (/ 4) with (bpow radix2 (-2)); rewrite <- bpow_plus; apply bpow_le; lia).
  assert (U3 : 9 * u64 <= th).
  { unfold th. rewrite E2. assert (1 * u64 <= INR m * u64) by (apply Rmult_le_compat_r; [lra|apply (le_INR 1); lia]). lra. }
  unfold sample_error_fast. fold th. lra.
Qed.

(** ** One simulation *)
Theorem decides_fast (b B : list f64) us n r r1 : (1 <= n)%nat -> length us = S n -> INR (n + 2) <= 2 ^ 40 -> eps + 3 * INR (n + 2) * u64 <= / 8 ->
  Forall (fun u => 0 < u < 1) us -> state_ok r -> Forall usual b -> Forall usual B -> draws (N := XN) r (map Fin us) r1 ->
  exists c, does_random_ecdf_cross (N := FN) (map lit b) (map lit B) n r = Ok (c, r1) /\
    (ecdf_inside (raised (sample_error_fast n) (map B2R b)) (lowered (sample_error_fast n) (map B2R B)) us -> c = false) /\
    (c = false -> ecdf_inside (lowered (sample_error_fast n) (map B2R b)) (raised (sample_error_fast n) (map B2R B)) us).
Proof.
  intros Hn Hlen Hbig HA F Hr Fb FB D.
  destruct (sample_fast us n r r1 Hn Hlen Hbig HA F Hr D) as (xs & E & H2).
  assert (Lx : length xs = n).
  { pose proof (Forall2_len _ _ _ H2) as H. rewrite ordered_sample_length in H. lia. }
  assert (Fx : Forall ffin xs).
  { clear -H2. induction H2 as [|x X xs Xs (H & _) H2 IH]; constructor; auto. }
  destruct (cross_spec_fast C L (frexp := frexp) xs b B Fx Fb FB) as (c & Ec & Sc).
  exists c. split.
  { unfold does_random_ecdf_cross. rewrite E. unfold addr, size. change (car FN) with (list term) in *.
    destruct xs as [|x0 xs]; [simpl in Lx; lia|].
    change (Z.of_nat (length (x0 :: xs))) with (Z.of_nat (S (length xs))) in Ec |- *.
    rewrite Ec. destruct (0 <=? Z.of_nat (S (length xs)))%Z; reflexivity. }
  assert (LX : length (map fval xs) = length (ordered_sample us)) by (rewrite map_length; exact (Forall2_len _ _ _ H2)).
  assert (HD : forall i, (i < length (map fval xs))%nat -> Rabs (nth i (map fval xs) 0 - nth i (ordered_sample us) 0) <= sample_error_fast n).
  { clear -H2. induction H2 as [|x X xs Xs (_ & H) H2 IH]; intros [|i] Hi; cbn [map length nth] in *; try lia; [exact H|]. apply IH. lia. }
  destruct (inside_moves (sample_error_fast n) (map B2R b) (map B2R B) _ _ LX (sample_interior _ F) HD) as (M1 & M2).
  unfold ecdf_inside. rewrite Sc. auto.
Qed.

(** ** The program *)
Lemma block_simulations_fast (b B : list f64) n : (1 <= n)%nat -> INR (n + 2) <= 2 ^ 40 ->
  eps + 3 * INR (n + 2) * u64 <= / 8 -> Forall usual b -> Forall usual B ->
  forall num us r r1, Forall (fun u => 0 < u < 1) us -> state_ok r ->
  length us = (num * S n)%nat -> draws (N := XN) r (map Fin us) r1 ->
  exists cs, length cs = num /\ sandwiched (S n) (inner (sample_error_fast n) b B) (outer (sample_error_fast n) b B) cs us /\
    simulations (does_random_ecdf_cross (N := FN) (map lit b) (map lit B) n) r cs.
Proof.
  intros Hn Hbig HA Fb FB. induction num as [|num IH]; intros us r r1 F Hr Lu D.
  - exists []. split; [reflexivity|]. split; [exact I|constructor].
  - cbn [Nat.mul] in Lu.
    rewrite <- (firstn_skipn (S n) us), map_app in D. destruct (draws_split (N := XN) _ _ _ _ D) as (r2 & D1 & D2).
    destruct (decides_fast b B (firstn (S n) us) n r r2) as (c & E & H1 & H2); auto.
    { apply firstn_length_le. lia. }
    { apply Forall_firstn_R; auto. }
    destruct (IH (skipn (S n) us) r2 r1) as (cs & Lc & O & S); auto.
    { apply Forall_skipn_R; auto. }
    { exact (draws_ok _ _ _ Hr D1). }
    { rewrite skipn_length. lia. }
    exists (c :: cs). simpl length. split; [lia|]. split; [|econstructor; eauto]. cbn [sandwiched]. auto.
Qed.

Theorem estimate_program_fast (b B : list f64) us (n num : nat) uninit now r1 :
  word 32 (mat1 uninit) -> word 32 (mat2 uninit) -> word 64 (tmat uninit) ->
  (1 <= n)%nat -> INR (n + 2) <= 2 ^ 40 -> eps + 3 * INR (n + 2) * u64 <= / 8 ->
  Forall usual b -> Forall usual B -> (length B <= n)%nat -> b = [] \/ (n <= length b)%nat -> (1 <= num)%nat -> (Z.of_nat num <= INT_MAX)%Z ->
  Forall (fun u => 0 < u < 1) us -> length us = (num * S n)%nat ->
  draws (N := XN) (rng_make uninit (now + Z.of_nat n * 2 ^ 20)) (map Fin us) r1 ->
  exists cs, length cs = num /\ sandwiched (S n) (inner (sample_error_fast n) b B) (outer (sample_error_fast n) b B) cs us /\
    exists q : f64, is_finite q = true /\ Rabs (B2R q - IZR (crossings cs) / INR num) <= bpow radix2 (-51) /\
    forall fuel, (num <= fuel)%nat ->
      ecdf_crossing_probability_montecarlo (N := FN) fuel uninit now (Z.of_nat n) (map lit b) (map lit B) (Z.of_nat num) = Ok (lit q).
Proof.
  intros W1 W2 W3 Hn Hbig HA Fb FB HB Hb H1 H2 F Lu D.
  assert (Hr : state_ok (rng_make uninit (now + Z.of_nat n * 2 ^ 20))).
  { unfold rng_make. apply init_ok; auto. unfold TinyMT.u64, word. apply Z.mod_pos_bound. reflexivity. }
  destruct (block_simulations_fast b B n Hn Hbig HA Fb FB num us _ r1 F Hr Lu D) as (cs & Lc & O & S).
  destruct (ecdf_estimate (N := FN) uninit now (Z.of_nat n) (map lit b) (map lit B) (Z.of_nat num)) as (cs' & Lc' & S' & R).
  - lia.
  - unfold size. change (car FN) with (list term). rewrite map_length. lia.
  - destruct Hb as [->|Hb]; [left; reflexivity|right]. unfold size. change (car FN) with (list term). rewrite map_length. lia.
  - lia.
  - rewrite Nat2Z.id in S', R. assert (E : cs' = cs) by (eapply simulations_det; eauto; lia). subst cs'.
    exists cs. split; auto. split; auto.
    destruct (frequency_fast C L (crossings cs) (Z.of_nat num)) as (Fq & Eq); [|lia|].
    + unfold crossings. pose proof (filter_le cs). lia.
    + eexists. split; [exact Fq|]. rewrite INR_IZR_INZ. split; [exact Eq|]. intros fuel Hf. rewrite (R fuel Hf).
      change (@n_div FN (@n_of_Z FN (crossings cs)) (@n_of_Z FN (Z.of_nat num)))
        with (lit (cp_div C (pick (lit (b64_of_Z (crossings cs)))) (pick (lit (b64_of_Z (Z.of_nat num)))))).
      rewrite !pick_lit. reflexivity.
Qed.
End Est.
