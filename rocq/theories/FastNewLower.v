(** * FastNewLower: ecdf1_new_b under -ffast-math. *)
From Coquelicot Require Import Coquelicot.
From Flocq Require Import Core.Core IEEE754.BinarySingleNaN.
From Coq Require Import ZArith Reals List Bool Lia Lra String Permutation.
From Verif Require Import Base Num Hoare Common RSum Spec SpecFacts Cells Events ProbFacts ProbLipschitz Reflect ExactFacts FFTConv Ecdf2 Ecdf1New SafeNew NewMath Binary64 Binary64Facts Binary64Cases ErrBound B64Round AccPmf AccCases AccNewFinal ExactClose.
From Verif Require Import FastNum FastMath FastInst FastFft FastFftInst FastStep FastMain FastFftMain FastNewNum FastNewInst FastNewMain FastNewFinal.
Import List. Import ListNotations.
Local Open Scope R_scope.

Section Lower.
Context (C : compiler) (L : libm) (E : env (Fnum C L)).
Notation FN := (Fnum C L).
Notation flush := (cp_flush C).
Notation pick := (cp_sum C).

(** src/ecdf1_new.cc:131-143, ecdf1_new_b, whose vector symmetric_steps is written to memory before ecdf1_new_B, a function
    that takes it by reference, reads it: its elements are evaluated once. *)
Definition ecdf1_new_b_stored (b : list (car FN)) : outcome (car FN) :=
  let n := size b in
  do check_boundary_vector "b" n b ;;
  steps <- for_ (n - size b) n (vec n (@n0 FN)) (fun i st =>
             x <- rd b (size b - 1 - i) ;; wr st i (lit (pick (@n_sub FN n1 x)) : car FN)) ;;
  ecdf1_new_B E steps.

Definition steps64 (b : list f64) : list f64 := map (fun x => pick (@n_sub FN n1 (lit x))) (rev b).

Lemma stored_loop (v : list (car FN)) n : n = size v ->
  for_ 0 n (vec n (@n0 FN)) (fun i st => x <- rd v (n - 1 - i) ;; wr st i (lit (pick (@n_sub FN n1 x)) : car FN))
  = Ok (map (fun x : car FN => lit (pick (@n_sub FN n1 x)) : car FN) (rev v)).
Proof.
  intros ->. set (f := fun x : car FN => lit (pick (@n_sub FN n1 x)) : car FN).
  enough (HT : total (for_ 0 (size v) (vec (size v) (@n0 FN))
     (fun i st => x <- rd v (size v - 1 - i) ;; wr st i (f x))) (fun r => r = map f (rev v))).
  { apply total_iff in HT. destruct HT as (a & H1 & H2). unfold f in *. rewrite H1, H2. reflexivity. }
  pose proof (size_nonneg v) as Hv.
  assert (Hsz : size (map f (rev v)) = size v) by (unfold size; rewrite map_length, rev_length; reflexivity).
  apply wp_for with (P := fun k st => size st = size v /\
     forall i, (0 <= i < k)%Z -> get n0 st i = f (get n0 v (size v - 1 - i))).
  - split; [rewrite size_vec; lia|lia].
  - intros k st Hk [Hs Hg]. apply wp_bind, wp_rd with (d := n0); [lia|]. apply wp_wr; [lia|].
    rewrite size_upd. split; auto. intros i Hi. rewrite get_upd by lia.
    destruct (Z.eqb_spec k i) as [->|]; [reflexivity|apply Hg; lia].
  - intros st [Hs Hg]. apply list_ext_get with (d := n0); [rewrite Hsz; exact Hs|].
    intros i Hi. rewrite Hg by lia. unfold get.
    rewrite (nth_indep (map _ _) n0 (f n0)) by (rewrite map_length, rev_length; unfold size in *; lia).
    rewrite (map_nth f). unfold size in *. rewrite rev_nth by lia.
    f_equal. f_equal. lia.
Qed.

Lemma stored_eq (b : list f64) : @check_boundary_vector FN "b" (size (map lit b : list (car FN))) (map lit b) = Ok tt ->
  ecdf1_new_b_stored (map lit b) = ecdf1_new_B E (map lit (steps64 b)).
Proof.
  intros Hc. unfold ecdf1_new_b_stored. rewrite Hc. cbn [bind].
  rewrite Z.sub_diag, stored_loop by reflexivity. cbn [bind]. f_equal.
  unfold steps64. rewrite <- map_rev, !map_map. reflexivity.
Qed.

(** a difference of two numbers is rounded once *)
Lemma pick_diff (vx vp : f64) : is_finite vx = true -> is_finite vp = true ->
  op_result flush (sv flush vx - sv flush vp) (pick [TVal false vx; TVal true vp]).
Proof.
  intros Fx Fp. set (d := pick [TVal false vx; TVal true vp]).
  pose proof (cp_sum_ok C [TVal false vx; TVal true vp] ltac:(discriminate)) as H. fold d in H.
  remember [TVal false vx; TVal true vp] as l0 eqn:El.
  destruct H as [s' x'|s' x' y' w Hw|l l1 l2 a c w HP H1 H2 Hw|l l1 s' x' y' a w HP H1 Hw].
  - discriminate.
  - discriminate.
  - subst l. pose proof (ev_nonempty _ _ _ H1) as N1. pose proof (ev_nonempty _ _ _ H2) as N2.
    pose proof (Permutation_length HP) as HPL. rewrite app_length in HPL. simpl in HPL.
    destruct l1 as [|t1 [|? ?]]; [simpl in N1; lia| |simpl in HPL, N2; lia].
    destruct l2 as [|t2 [|? ?]]; [simpl in N2; lia| |simpl in HPL; lia].
    apply Permutation_length_2_inv in HP. destruct HP as [HP|HP]; injection HP as -> ->;
      pose proof (single_val C _ _ H1 _ _ eq_refl) as Ea; pose proof (single_val C _ _ H2 _ _ eq_refl) as Ec; cbv iota in Ea, Ec; subst a c.
    + rewrite is_finite_Bopp in Hw. specialize (Hw Fx Fp). rewrite sv_opp in Hw. exact Hw.
    + rewrite is_finite_Bopp in Hw. specialize (Hw Fp Fx). rewrite sv_opp in Hw.
      replace (- sv flush vp + sv flush vx) with (sv flush vx - sv flush vp) in Hw by ring. exact Hw.
  - exfalso. subst l. assert (HI : In (TProd s' x' y') [TVal false vx; TVal true vp]) by (eapply Permutation_in; [symmetry; exact HP|left; reflexivity]).
    destruct HI as [HI|[HI|[]]]; discriminate.
Qed.

Lemma one_minus_gap (x : f64) : B2R x < 1 -> bpow radix2 (-53) <= 1 - B2R x.
Proof.
  intros Hx. assert (H : B2R x <= pred radix2 (SpecFloat.fexp 53 1024) (bpow radix2 0)).
  { apply pred_ge_gt; auto with typeclass_instances; [apply (generic_format_B2R 53 1024)|].
    apply generic_format_bpow. unfold SpecFloat.fexp, SpecFloat.emin. lia. }
  rewrite pred_bpow in H. change (SpecFloat.fexp 53 1024 0) with (-53)%Z in H. change (bpow radix2 0) with 1 in H. lra.
Qed.

Lemma step_value (x : f64) : is_finite x = true -> 0 <= B2R x <= 1 -> B2R x = 0 \/ bpow radix2 (-900) <= B2R x ->
  let w := pick (@n_sub FN n1 (lit x)) in
  is_finite w = true /\ B2R w = B2R (@n_sub (Bnum L) n1 x : f64) /\ (B2R w = 0 \/ bpow radix2 (-900) <= B2R w).
Proof.
  intros Fx Hx Hp w. destruct (sv_of_Z C 1 ltac:(lia)) as [F1 V1].
  pose proof (pick_diff (b64_of_Z 1) x F1 Fx) as Hw. rewrite V1 in Hw.
  change (pick [TVal false (b64_of_Z 1); TVal true x]) with w in Hw.
  assert (Vx : sv flush x = B2R x).
  { apply sv_normal. destruct Hp as [Hv|Hv]; [right; exact Hv|left].
    pose proof (bpow_gt_0 radix2 (-900)). rewrite Rabs_pos_eq by lra. eapply Rle_trans; [|exact Hv]. apply bpow_le. lia. }
  rewrite Vx in Hw. destruct (one_minus L x Fx Hx) as (_ & G2 & G3).
  change (rnd (1 - B2R x)) with (rnd64 (1 - B2R x)) in G2.
  destruct Hw as [Fw Hw].
  { rewrite <- G2, Rabs_pos_eq by apply G3. apply Rle_lt_trans with 1; [apply G3|]. change 1 with (bpow radix2 0). apply bpow_lt. lia. }
  assert (Hz : B2R x = 1 -> B2R w = 0).
  { intros H1. rewrite H1 in Hw. destruct Hw as [Hw|(_ & _ & Hw)]; [|exact Hw]. rewrite Hw.
    unfold rnd64. rewrite Rminus_diag_eq by reflexivity. apply round_0. auto with typeclass_instances. }
  assert (Hgt : B2R x < 1 -> B2R w = rnd64 (1 - B2R x) /\ bpow radix2 (-53) <= B2R w).
  { intros H1. pose proof (one_minus_gap x H1) as Hg.
    assert (Hr : B2R w = rnd64 (1 - B2R x)).
    { destruct Hw as [Hw|(_ & Hs & _)]; [exact Hw|]. exfalso. rewrite Rabs_pos_eq in Hs by lra.
      pose proof (bpow_lt radix2 (-1022) (-53) ltac:(lia)). lra. }
    split; [exact Hr|]. rewrite Hr. unfold rnd64. apply round_ge_generic; auto with typeclass_instances.
    apply generic_format_bpow. unfold SpecFloat.fexp, SpecFloat.emin. lia. }
  destruct (Rle_lt_or_eq_dec _ _ (proj2 Hx)) as [Hl|He].
  - destruct (Hgt Hl) as [H1 H2]. split; [exact Fw|]. split; [rewrite H1; symmetry; exact G2|].
    right. eapply Rle_trans; [|exact H2]. apply bpow_le. lia.
  - specialize (Hz He). split; [exact Fw|]. split; [|left; exact Hz].
    rewrite Hz. transitivity (rnd64 (1 - B2R x)); [|symmetry; exact G2]. rewrite He. unfold rnd64. rewrite Rminus_diag_eq by reflexivity.
    symmetry. apply round_0. auto with typeclass_instances.
Qed.

Lemma steps_ok (b : list f64) : accepted64 b -> Forall (fun x : f64 => B2R x = 0 \/ bpow radix2 (-900) <= B2R x) b ->
  map B2R (steps64 b) = map B2R (@reflected (Bnum L) b : list f64) /\ accepted64 (steps64 b) /\
  Forall (fun x : f64 => B2R x = 0 \/ bpow radix2 (-900) <= B2R x) (steps64 b) /\ List.length (steps64 b) = List.length b.
Proof.
  intros Hb HP. pose proof (accepted_reflected L b Hb) as [HF' HV'].
  assert (HR : forall x : f64, In x (rev b) -> let w := pick (@n_sub FN n1 (lit x)) in
    is_finite w = true /\ B2R w = B2R (@n_sub (Bnum L) n1 x : f64) /\ (B2R w = 0 \/ bpow radix2 (-900) <= B2R w)).
  { intros x Hx. apply in_rev in Hx. destruct Hb as [HF [_ HV]]. rewrite Forall_forall in HF, HV, HP.
    apply step_value; auto. apply HV, in_map, Hx. }
  assert (HE : map B2R (steps64 b) = map B2R (@reflected (Bnum L) b : list f64)).
  { unfold steps64, reflected. rewrite map_map. symmetry.
    change (map B2R (map (fun x : f64 => @n_sub (Bnum L) n1 x : f64) (rev b)) = map (fun x : f64 => B2R (pick (@n_sub FN n1 (lit x)))) (rev b)).
    rewrite map_map. apply map_ext_in. intros x Hx. symmetry. apply HR, Hx. }
  split; [exact HE|]. split; [split|split].
  - unfold steps64. apply Forall_map, Forall_forall. intros x Hx. apply HR, Hx.
  - change (valid_boundary (map B2R (steps64 b))). rewrite HE. exact HV'.
  - unfold steps64. apply Forall_map, Forall_forall. intros x Hx. apply HR, Hx.
  - unfold steps64. rewrite map_length, rev_length. reflexivity.
Qed.

Lemma lower_from_upper eps (b : list f64) q :
  fast_libm_accurate flush L eps -> eps <= 1 ->
  accepted64 b -> Forall (fun x : f64 => B2R x = 0 \/ bpow radix2 (-900) <= B2R x) b ->
  is_prob (List.length (steps64 b)) (noncrossing_B (map B2R (steps64 b))) q ->
  ecdf1_new_b_stored (map lit b) = ecdf1_new_B E (map lit (steps64 b)) /\
  exists p, is_prob (List.length b) (noncrossing_b (map B2R b)) p /\ Rabs (q - p) <= nn b * u64.
Proof.
  intros HL He1 Hb HP Hq. destruct (steps_ok b Hb HP) as (HE & HS & HSP & Hlen). split.
  - apply stored_eq. apply (fcheck FN (ffin C) (fone C) fraw (fval C) fu eps feta (fast_arith C L eps HL He1)).
    destruct Hb as [HF HV]. split.
    + apply Forall_map. rewrite Forall_forall in *. intros x Hx. apply ffin_lit, HF, Hx.
    + change (valid_boundary (map (fval C) (map lit b))).
      assert (Hv : map (fval C) (map lit b) = map B2R b).
      { rewrite map_map. apply map_ext_in. intros x Hx. rewrite Forall_forall in HP. specialize (HP x Hx).
        rewrite fval_lit. apply sv_normal. destruct HP as [Hv|Hv]; [right; exact Hv|left].
        pose proof (bpow_gt_0 radix2 (-900)). rewrite Rabs_pos_eq by lra. eapply Rle_trans; [|exact Hv]. apply bpow_le. lia. }
      rewrite Hv. exact HV.
  - assert (Hex : exists p, is_prob (List.length b) (noncrossing_B (reflect (map B2R b))) p).
    { eexists. apply prob_is_D_B; [apply valid_reflect, Hb|]. rewrite reflect_length. apply map_length. }
    destruct Hex as [p Hp].
    exists p. split; [apply prob_b_reflect; exact Hp|].
    assert (HlB : List.length (map B2R (steps64 b)) = List.length b) by (rewrite <- Hlen; apply map_length).
    assert (HlR : List.length (reflect (map B2R b)) = List.length b) by (rewrite reflect_length; apply map_length).
    pose proof (prob_B_close (map B2R (steps64 b)) (reflect (map B2R b)) q p) as HC.
    rewrite HlB, HlR in HC.
    eapply Rle_trans; [apply HC; auto|].
    + apply HS.
    + apply (valid_reflect (map B2R b)), Hb.
    + rewrite <- Hlen at 1. exact Hq.
    + rewrite Rmult_assoc. apply Rmult_le_compat_l; [apply pos_INR|]. rewrite HE. apply reflected_close, Hb.
Qed.

Lemma new_b_fast (eps epsf : R) (b : list f64) :
  fast_libm_accurate (cp_flush C) L eps -> bpow radix2 (-51) <= eps ->
  fast_fft_accurate C L E epsf -> bpow radix2 (-50) <= epsf -> fft_stores C L E ->
  accepted64 b -> Forall (fun x : f64 => B2R x = 0 \/ bpow radix2 (-900) <= B2R x) b ->
  (1 <= List.length b)%nat -> (asserts E = true -> (2 <= List.length b)%nat) ->
  65536 * (nn b * sq b) * eps <= 1 -> 16384 * (nn b * sq b) * epsf <= 1 ->
  exists p r, is_prob (List.length b) (noncrossing_b (map B2R b)) p /\
    ecdf1_new_b_stored (map lit b) = Ok r /\ is_finite (cp_sum C r) = true /\
    Rabs (B2R (cp_sum C r) - p) <= 60001 * (nn b * eps) + 9000 * (nn b * epsf) + bpow radix2 (-1022).
Proof.
  intros HL He HF Hf HW Hb HP H1 Ha H2 H3. destruct (len_ge1 b H1) as [HN HS].
  destruct (steps_ok b Hb HP) as (_ & HS1 & HSP & Hlen).
  assert (Hu : u64 <= eps).
  { eapply Rle_trans; [|exact He]. unfold u64. apply bpow_le. lia. }
  assert (Hu0 : 0 < eps) by (pose proof u64_pos; lra).
  assert (HNS : 1 <= nn b * sq b) by (rewrite <- (Rmult_1_r 1) at 1; apply Rmult_le_compat; lra).
  assert (He1 : eps <= 1).
  { assert (65536 * 1 * eps <= 65536 * (nn b * sq b) * eps) by (apply Rmult_le_compat_r; lra). lra. }
  destruct (new_B_fast C L eps epsf E (steps64 b) HL He HF Hf HW HS1 HSP) as (q & r & Hq & Hr & Fr & Er);
    try (rewrite Hlen; assumption).
  destruct (lower_from_upper eps b q HL He1 Hb HP Hq) as (Heq & p & Hp & Ep).
  exists p, r. split; [exact Hp|]. split; [rewrite Heq; exact Hr|]. split; [exact Fr|].
  rewrite Hlen in Er. assert (nn b * u64 <= nn b * eps) by (apply Rmult_le_compat_l; lra).
  replace (B2R (cp_sum C r) - p) with ((B2R (cp_sum C r) - q) + (q - p)) by ring.
  eapply Rle_trans; [apply Rabs_triang|]. lra.
Qed.

Lemma new_b_fast_1000 (b : list f64) :
  fast_libm_accurate (cp_flush C) L (bpow radix2 (-50)) -> fast_fft_accurate C L E (bpow radix2 (-47)) -> fft_stores C L E ->
  accepted64 b -> Forall (fun x : f64 => B2R x = 0 \/ bpow radix2 (-900) <= B2R x) b ->
  (1 <= List.length b <= 1000)%nat -> (asserts E = true -> (2 <= List.length b)%nat) ->
  exists p r, is_prob (List.length b) (noncrossing_b (map B2R b)) p /\
    ecdf1_new_b_stored (map lit b) = Ok r /\ is_finite (cp_sum C r) = true /\
    Rabs (B2R (cp_sum C r) - p) <= 12 / 100000.
Proof.
  intros HL HF HW Hb HP Hn Ha. destruct (sizes_1000 b Hn) as [K1 K2].
  assert (H50 : bpow radix2 (-50) = / 1125899906842624) by reflexivity.
  assert (H47 : bpow radix2 (-47) = / 140737488355328) by reflexivity.
  destruct (new_b_fast (bpow radix2 (-50)) (bpow radix2 (-47)) b HL) as (p & r & Hp & Hr & Fr & Er); auto;
    try lia; try (apply bpow_le; lia); try (rewrite ?H50, ?H47; lra).
  exists p, r. split; [exact Hp|]. split; [exact Hr|]. split; [exact Fr|].
  eapply Rle_trans; [exact Er|]. rewrite H50, H47.
  assert (bpow radix2 (-1022) <= / 1048576) by (change (/ 1048576) with (bpow radix2 (-20)); apply bpow_le; lia).
  lra.
Qed.
End Lower.

Lemma simd_lower_case (flush : bool) :
  let C := simd_compiler flush in let E := fast_fft_env C cr_libm true in
  exists p r, is_prob 200 (noncrossing_b (map B2R case200_b)) p /\
    ecdf1_new_b_stored C cr_libm E (map lit case200_b) = Ok r /\ is_finite (cp_sum C r) = true /\
    Rabs (B2R (cp_sum C r) - p) <= 12 / 100000.
Proof.
  intros C E. destruct case200_ok as (A1 & _ & L1 & _). rewrite <- L1.
  apply new_b_fast_1000; auto.
  - apply cr_fast.
  - apply fast_fft_ok.
  - apply fast_fft_stores.
  - apply case200_plain.
  - rewrite L1. lia.
  - intros _. rewrite L1. lia.
Qed.
