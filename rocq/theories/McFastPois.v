(** * McFastPois: the Poisson simulations of crossprob_mc under -ffast-math. *)
From Coquelicot Require Import Coquelicot.
From Flocq Require Import Core.Core IEEE754.BinarySingleNaN.
From Coq Require Import ZArith Reals List Bool Lia Lra Sorted.
From Verif Require Import Base Num Binary64 Binary64Facts XReal Hoare TinyMT MonteCarlo Spec McSpec McProbSpec McFacts McLoop McMore McEstimate McPoissonProb McPoissonEstimate.
From Verif Require Import AccPmf AccCases TinyMTFacts TinyMTBinary64 McB64Spec McB64 McB64Est McB64Pois FastMath FastInst McFast McFastEst.
From Verif Require Import B64Round.
Import List. Import ListNotations.
Local Open Scope R_scope.

(** A jump at X is further than 2 w from time 1 and from the i-th entries of the boundaries. *)
Definition clear_of (w : R) (b B : list R) (i : nat) (X : R) : Prop := 2 * w < Rabs (X - 1) /\
  (X <= 1 -> (i < length b)%nat -> 2 * w < Rabs (X - nth i b 0)) /\
  (X <= 1 -> (i < length B)%nat -> 2 * w < Rabs (X - nth i B 0)).

Lemma clear_of_inside w (b B x X : list R) : 0 <= w -> length x = length X ->
  (forall i, (i < length X)%nat -> Rabs (nth i x 0 - nth i X 0) <= w * nth i X 0 /\ nth i X 0 <= 1 /\ 0 <= nth i X 0 /\ clear_of w b B i (nth i X 0)) ->
  (stays_inside b B x <-> stays_inside b B X).
Proof.
  intros W0 Lx H. unfold stays_inside. rewrite Lx.
  assert (HN : forall i, (i < length X)%nat -> Rabs (nth i x 0 - nth i X 0) <= w).
  { intros i Hi. destruct (H i Hi) as (E & H1 & H0 & _).
    eapply Rle_trans; [exact E|]. rewrite <- (Rmult_1_r w) at 2. apply Rmult_le_compat_l; lra. }
  assert (E1 : forall i, (i < length B)%nat -> (i < length X)%nat -> (nth i x 0 <= nth i B 0 <-> nth i X 0 <= nth i B 0)).
  { intros i HB Hi. destruct (H i Hi) as (_ & H1 & _ & (_ & _ & C)). specialize (C H1 HB). pose proof (Rabs_le_inv _ _ (HN i Hi)) as E.
    unfold Rabs in C. destruct Rcase_abs; split; lra. }
  assert (E2 : forall i, (i < length b)%nat -> (i < length X)%nat -> (nth i b 0 <= nth i x 0 <-> nth i b 0 <= nth i X 0)).
  { intros i HB Hi. destruct (H i Hi) as (_ & H1 & _ & (_ & C & _)). specialize (C H1 HB). pose proof (Rabs_le_inv _ _ (HN i Hi)) as E.
    unfold Rabs in C. destruct Rcase_abs; split; lra. }
  split; intros (A & C & D); (split; [exact A|]); split.
  - intros i Hi. apply E1; [exact Hi|lia|apply C; exact Hi].
  - destruct D as [D|(D1 & D2)]; [left; exact D|right]. split; [exact D1|]. intros i Hi. apply E2; [lia|exact Hi|apply D2; exact Hi].
  - intros i Hi. apply E1; [exact Hi|lia|apply C; exact Hi].
  - destruct D as [D|(D1 & D2)]; [left; exact D|right]. split; [exact D1|]. intros i Hi. apply E2; [lia|exact Hi|apply D2; exact Hi].
Qed.

Section Pois.
Context (C : compiler) (L : libm) (eps : R).
Notation flush := (cp_flush C).
Hypothesis HL : fast_libm_accurate flush L eps.
Hypothesis Heps : 0 <= eps <= / 16.
Notation FN := (Fnum C L).
Notation pick := (cp_sum C).
Notation sv := (sv flush).
Notation tv := (tval flush).
Notation ffin := (ffin C).
Notation fval := (fval C).
Context {frexp : xr -> Z}.
Notation XN := (Xnum frexp).
Definition jump_error : R := eps + 5 * u64.
Notation good := (good C jump_error).

Section Walk.
Context (beta64 : f64) (beta : R).
Hypothesis Fbeta : is_finite beta64 = true.
Hypothesis Rbeta : bpow radix2 (-20) <= beta <= 1.
Hypothesis Ebeta : Rabs (sv beta64 - beta) <= 4 * u64 * beta.

Lemma jump_error_small : 0 <= jump_error <= / 8.
Proof using Heps. unfold jump_error. pose proof u64_pos. pose proof FastInst.u64_small. lra. Qed.

Lemma poisson_exponential_fast u r r1 : state_ok r -> 0 < u < 1 -> tinymt64_generate_double01 (N := XN) r = (Fin u, r1) ->
  exists t, generate_exponential (N := FN) (lit beta64) r = ([t], r1) /\ tfin t /\
    Rabs (tv t - beta * - ln u) <= jump_error * (beta * - ln u) /\ bpow radix2 (-80) <= beta * - ln u <= 1074.
Proof using HL Heps Fbeta Rbeta Ebeta.
  intros Hr Hu G. destruct (exponential_fast C L eps HL beta64 u r r1 Fbeta Hr Hu G) as (t & l & E & Ft & Et & El).
  destruct (draw_bounds L r u r1 Hr G Hu) as (_ & HG & HU).
  exists t. split; [exact E|]. split; [exact Ft|]. rewrite Et. set (x := - ln u) in *.
  pose proof (bpow_gt_0 radix2 (-53)) as P53. pose proof (bpow_gt_0 radix2 (-20)) as P20. pose proof u64_pos as PU. split.
  - assert (E1 : Rabs (- l - x) <= eps * x).
    { unfold x. replace (- l - - ln u) with (- (l - ln u)) by ring. rewrite Rabs_Ropp. exact El. }
    set (ll := - l) in *. replace (- (sv beta64 * l) - beta * x) with ((sv beta64 - beta) * ll + beta * (ll - x)) by (unfold ll; ring).
    eapply Rle_trans; [apply Rabs_triang|]. rewrite !Rabs_mult, (Rabs_pos_eq beta) by lra.
    pose proof (Rabs_le_inv _ _ E1) as E1'.
    assert (EX : eps * x <= / 16 * x) by (apply Rmult_le_compat_r; lra).
    rewrite (Rabs_pos_eq ll) by lra.
    assert (H1 : Rabs (sv beta64 - beta) * ll <= 4 * u64 * beta * (17 / 16 * x)) by (apply Rmult_le_compat; try lra; apply Rabs_pos).
    assert (H2 : beta * Rabs (ll - x) <= beta * (eps * x)) by (apply Rmult_le_compat_l; lra).
    assert (H3 : 0 <= u64 * beta * x) by (repeat apply Rmult_le_pos; lra). unfold jump_error. lra.
  - split.
    + apply Rle_trans with (bpow radix2 (-20) * bpow radix2 (-53)); [rewrite <- bpow_plus; apply bpow_le; lia|].
      apply Rmult_le_compat; lra.
    + apply Rle_trans with (1 * 1074); [apply Rmult_le_compat|]; lra.
Qed.

Context (b B : list f64) (n : nat).
Hypothesis Fb : Forall usual b.
Hypothesis FB : Forall usual B.
Definition walk_error_fast : R := jump_error + 3 * INR (n + 2) * u64.
Hypothesis Herr : walk_error_fast <= / 8.
Hypothesis Hbig : INR (n + 2) <= 2 ^ 40.

Lemma walk_error_fast_pos : 0 < walk_error_fast.
Proof using Heps.
  unfold walk_error_fast. pose proof jump_error_small. pose proof u64_pos.
  assert (0 < INR (n + 2) * u64) by (apply Rmult_lt_0_compat; [apply lt_0_INR; lia|lra]). lra.
Qed.

Definition step_ok (steps : list (list term)) (Steps : list R) (i : nat) : Prop :=
  close C walk_error_fast (nth i (rev steps) []) (nth i (rev Steps) 0) /\
  nth i (rev Steps) 0 <= 1 /\ 0 <= nth i (rev Steps) 0 /\ clear_of walk_error_fast (map B2R b) (map B2R B) i (nth i (rev Steps) 0).

Lemma cross_same_fast (steps : list (list term)) (Steps : list R) : length steps = length Steps ->
  (forall i, (i < length Steps)%nat -> step_ok steps Steps i) ->
  exists c, does_integer_step_function_cross (N := FN) (rev steps) (@size (car FN) steps) (map lit b) (map lit B) = Ok c /\
    does_integer_step_function_cross (N := XN) (rev (map Fin Steps)) (@size (car XN) (map Fin Steps)) (map Fin (map B2R b)) (map Fin (map B2R B)) = Ok c.
Proof using Heps Fb FB.
  intros Ls HP.
  assert (Lr : length (rev steps) = length (rev Steps)) by (rewrite !rev_length; exact Ls).
  assert (Fr : Forall ffin (rev steps)).
  { apply Forall_forall. intros y Hy. destruct (In_nth _ _ [] Hy) as (i & Hi & <-). apply HP. rewrite Lr, rev_length in Hi. exact Hi. }
  destruct (cross_spec_fast C L (frexp := frexp) (rev steps) b B Fr Fb FB) as (c & Ec & Sc).
  destruct (cross_spec (frexp := frexp) (map B2R b) (map B2R B) (rev Steps)) as (c' & Ec' & Sc').
  assert (HI : stays_inside (map B2R b) (map B2R B) (map fval (rev steps)) <-> stays_inside (map B2R b) (map B2R B) (rev Steps)).
  { apply (clear_of_inside walk_error_fast); [left; apply walk_error_fast_pos|rewrite map_length; exact Lr|]. intros i Hi. rewrite rev_length in Hi.
    destruct (HP i Hi) as ((_ & _ & H1) & H2). split; [|exact H2].
    rewrite (nth_indep _ 0 (fval [])) by (rewrite map_length, Lr, rev_length; exact Hi). rewrite map_nth. exact H1. }
  assert (c' = c) by (destruct c, c'; auto; [symmetry; apply Sc, HI, Sc'; reflexivity|apply Sc', HI, Sc; reflexivity]). subst c'.
  exists c. split.
  - unfold size. change (car FN) with (list term). rewrite <- (rev_length steps). exact Ec.
  - unfold size. rewrite map_length, <- map_rev. rewrite <- (rev_length Steps). exact Ec'.
Qed.

Lemma walk_fast : forall k us (steps : list (list term)) (Steps : list R) (a : list term) A r r1,
  length us = S k -> (length Steps + S k = S n)%nat -> length steps = length Steps ->
  Forall (fun u => 0 < u < 1) us -> state_ok r -> draws (N := XN) r (map Fin us) r1 ->
  good (length Steps) a A ->
  (forall i, (i < length Steps)%nat -> step_ok steps Steps i) ->
  (forall i, (i < S k)%nat -> clear_of walk_error_fast (map B2R b) (map B2R B) (length Steps + i) (nth i (sums_from A (map (fun u => beta * - ln u) us)) 0)) ->
  exists c r2, poisson_walk (N := FN) k (lit beta64) steps a (map lit b) (map lit B) r = Ok (c, r2) /\
    poisson_walk (N := XN) k (Fin beta) (map Fin Steps) (Fin A) (map Fin (map B2R b)) (map Fin (map B2R B)) r = Ok (c, r2).
Proof.
  induction k as [|k IH]; intros us steps Steps a A r r1 Lu Ln Ls F Hr D Ha HP HC;
  (destruct us as [|u us]; [discriminate|]); destruct (draws_cons _ _ _ _ Hr D) as (r2 & G & Hr2 & D1);
  inversion F as [|? ? Hu F1]; subst;
  destruct (poisson_exponential_fast u r r2 Hr Hu G) as (t & Ge & Ft & Et & Bt);
  pose proof (good_next C jump_error _ _ _ t _ Ha jump_error_small Ft Et Bt) as Hx;
  pose proof u64_pos as PU; pose proof (bpow_gt_0 radix2 (-80)) as P80; pose proof walk_error_fast_pos as W0.
  all: set (x := a ++ [t]) in *; set (X := A + beta * - ln u) in *.
  all: assert (A0 : 0 <= A) by (destruct Ha as (_ & _ & _ & _ & Ha & _); apply Ha).
  all: assert (X0 : 0 < X) by (unfold X; lra).
  all: assert (Ex : close C walk_error_fast x X).
  1,3: apply close_weaken with (jump_error + 3 * INR (S (S (length Steps))) * u64);
    [ unfold walk_error_fast; assert (HI : INR (S (S (length Steps))) <= INR (n + 2)) by (apply le_INR; lia);
      assert (INR (S (S (length Steps))) * u64 <= INR (n + 2) * u64) by (apply Rmult_le_compat_r; lra); lra
    | lra
    | apply good_value; [exact Hx|exact jump_error_small|lia|]; eapply Rle_trans; [|exact Hbig]; apply le_INR; lia ].
  all: assert (G' : generate_exponential (N := XN) (Fin beta) r = (Fin (beta * - ln u), r2)) by (apply exponential_exact; [lra|exact G]).
  all: pose proof (HC 0%nat ltac:(lia)) as HC0; cbn [map sums_from nth] in HC0; fold X in HC0; rewrite Nat.add_0_r in HC0.
  all: assert (HT : @n_lt FN (@n1 FN) x = Rlt_bool 1 X).
  1,3: destruct HC0 as (C1 & _); destruct Ex as (Fx & _ & EE); apply Rabs_le_inv in EE;
    destruct (sv_of_Z C 1 ltac:(lia)) as [F1z V1z];
    rewrite (lt_fast C L (@n1 FN) x (ffin_lit C _ F1z) Fx); change (fval (@n1 FN)) with (fval (lit (b64_of_Z 1))); rewrite fval_lit, V1z;
    assert (WX : walk_error_fast * X <= / 8 * X) by (apply Rmult_le_compat_r; lra);
    unfold Rabs in C1; destruct Rcase_abs as [N1|N1];
    [ assert (walk_error_fast * X <= walk_error_fast * 1) by (apply Rmult_le_compat_l; lra); rewrite !Rlt_bool_false by lra; reflexivity
    | assert (walk_error_fast * (X - 1) <= / 8 * (X - 1)) by (apply Rmult_le_compat_r; lra); rewrite !Rlt_bool_true by lra; reflexivity ].
  all: cbn [poisson_walk]; rewrite Ge, G'; cbn [n_add Xnum xadd]; fold X;
    change (@n_add FN a [t]) with x; rewrite HT; change (@n_lt XN (@n1 XN) (Fin X)) with (Rlt_bool 1 X).
  all: destruct (Rlt_bool_spec 1 X) as [GT|LE].
  1,3: destruct (cross_same_fast steps Steps Ls HP) as (c & E1 & E2); exists c, r2; split; [exact (f_equal (fun o => bind o (fun c => Ok (c, r2))) E1)|exact (f_equal (fun o => bind o (fun c => Ok (c, r2))) E2)].
  - exists true, r2. auto.
  - change (map Fin (X :: Steps)) with (Fin X :: map Fin Steps).
    apply (IH us (x :: steps) (X :: Steps) x X r2 r1); auto.
    + simpl. lia.
    + simpl. congruence.
    + cbn [length]. unfold step_ok. cbn [rev]. intros i Hi.
      assert (Lr1 : length (rev steps) = length Steps) by (rewrite rev_length; exact Ls).
      assert (Lr2 : length (rev Steps) = length Steps) by apply rev_length.
      destruct (Nat.eq_dec i (length Steps)) as [->|Hne].
      * assert (N1 : nth (length Steps) (rev steps ++ [x]) [] = x) by (rewrite app_nth2, Lr1, Nat.sub_diag by lia; reflexivity).
        assert (N2 : nth (length Steps) (rev Steps ++ [X]) 0 = X) by (rewrite app_nth2, Lr2, Nat.sub_diag by lia; reflexivity).
        rewrite N1, N2. split; [exact Ex|]. split; [lra|]. split; [lra|exact HC0].
      * rewrite !app_nth1 by lia. apply HP. lia.
    + intros i Hi. specialize (HC (S i) ltac:(lia)). cbn [map sums_from nth] in HC. fold X in HC.
      cbn [length]. replace (S (length Steps) + i)%nat with (length Steps + S i)%nat by lia. exact HC.
Qed.
End Walk.

(** ** One simulation and the program *)
Theorem poisson_same_fast (beta64 : f64) beta (b B : list f64) us r r1 : is_finite beta64 = true -> bpow radix2 (-20) <= beta <= 1 ->
  Rabs (sv beta64 - beta) <= 4 * u64 * beta -> Forall usual b -> Forall usual B ->
  walk_error_fast (length b) <= / 8 -> INR (length b + 2) <= 2 ^ 40 ->
  state_ok r -> (S (length b) <= length us)%nat -> Forall (fun u => 0 < u < 1) us -> draws (N := XN) r (map Fin us) r1 ->
  clear_jumps (2 * walk_error_fast (length b)) (map B2R b) (map B2R B)
    (firstn (S (length b)) (jump_times (map (fun u => beta * - ln u) us))) ->
  exists c r2, does_random_poisson_process_cross (N := FN) (map lit b) (map lit B) (lit beta64) r = Ok (c, r2) /\
    does_random_poisson_process_cross (N := XN) (map Fin (map B2R b)) (map Fin (map B2R B)) (Fin beta) r = Ok (c, r2).
Proof.
  intros Fbeta Rbeta Ebeta Fb FB Herr Hbig Hr Lu F D HC. set (n := length b) in *.
  rewrite <- (firstn_skipn (S n) us), map_app in D. destruct (draws_split (N := XN) _ _ _ _ D) as (r2 & D1 & _).
  assert (Lf : length (firstn (S n) us) = S n) by (apply firstn_length_le; exact Lu).
  rewrite <- jump_times_firstn, firstn_map in HC.
  pose proof (Forall_firstn_R _ (S n) us F) as F1. revert Lf D1 HC F1. generalize (firstn (S n) us). clear us Lu F D.
  intros us Lf D1 HC F.
  destruct (walk_fast beta64 beta Fbeta Rbeta Ebeta b B n Fb FB Herr Hbig n us [] [] (lit (b64_of_Z 0)) 0 r r2) as (c & r3 & E1 & E2); auto.
  - apply good_0. apply jump_error_small.
  - simpl. intros; lia.
  - intros i Hi. cbn [length Nat.add]. rewrite <- jump_times_sums.
    assert (Lj : length (jump_times (map (fun u => beta * - ln u) us)) = S n).
    { unfold jump_times. rewrite map_length, seq_length, map_length. exact Lf. }
    exact (HC i ltac:(lia)).
  - exists c, r3. unfold does_random_poisson_process_cross. change (car FN) with (list term). rewrite !map_length. split; [exact E1|exact E2].
Qed.

Lemma beta_fast n : (1 <= n <= 2147)%Z -> let beta64 := cp_div C (b64_of_Z 1) (b64_of_Z n) in
  is_finite beta64 = true /\ bpow radix2 (-20) <= / IZR n <= 1 /\ Rabs (sv beta64 - / IZR n) <= 4 * u64 * / IZR n.
Proof.
  intros Hn beta64. destruct (sv_of_Z C 1 ltac:(lia)) as [F1 V1]. destruct (sv_of_Z C n ltac:(lia)) as [Fn Vn].
  assert (N1 : 1 <= IZR n <= 2147) by (split; apply IZR_le; lia).
  assert (I1 : / 2147 <= / IZR n <= 1).
  { split; [apply Rinv_le; lra|]. rewrite <- Rinv_1. apply Rinv_le; lra. }
  assert (I2 : bpow radix2 (-20) <= / 2147) by (change (bpow radix2 (-20)) with (/ IZR 1048576); apply Rinv_le; lra).
  assert (EQ : 1 / IZR n = / IZR n) by (field; lra).
  destruct (div_any C L (lit (b64_of_Z 1)) (lit (b64_of_Z n)) (ffin_lit C _ F1) (ffin_lit C _ Fn)) as [[_ FD] ED].
  { rewrite fval_lit, Vn. split.
    - apply Rle_trans with 1; [|lra]. change 1 with (bpow radix2 0). apply bpow_le. lia.
    - apply Rle_trans with 2147; [lra|]. change (bpow radix2 60) with (IZR (2 ^ 60)). apply IZR_le. lia. }
  { rewrite !fval_lit, V1, Vn, EQ, Rabs_pos_eq; lra. }
  rewrite !fval_lit, V1, Vn, EQ, (Rabs_pos_eq (/ IZR n)) in ED by lra.
  change (@n_div FN (lit (b64_of_Z 1)) (lit (b64_of_Z n))) with (lit (cp_div C (pick (lit (b64_of_Z 1))) (pick (lit (b64_of_Z n))))) in FD, ED.
  rewrite fval_lit in ED. rewrite !pick_lit in ED. do 3 rewrite pick_lit in FD. fold beta64 in FD, ED. split; [exact FD|]. split; [lra|].
  eapply Rle_trans; [exact ED|]. pose proof u64_pos.
  assert (E2 : eta0 <= u64 * bpow radix2 (-20)) by (unfold eta0, u64; rewrite <- bpow_plus; apply bpow_le; lia).
  assert (u64 * bpow radix2 (-20) <= u64 * / IZR n) by (apply Rmult_le_compat_l; lra). lra.
Qed.

Lemma seed_fast n : (0 <= n <= 2147)%Z -> seed_converts (N := FN) (n_of_Z n) (n * 1000000).
Proof.
  intros H. split; [|unfold INT_MIN, INT_MAX; lia].
  destruct (sv_of_Z C n ltac:(lia)) as [Fn Vn]. destruct (sv_of_Z C 1000000 ltac:(lia)) as [Fm Vm]. destruct (of_Z_ok (n * 1000000)) as [Fp Vp]; [lia|].
  change (b64_trunc (pick [TProd false (pick (lit (b64_of_Z n))) (pick (lit (b64_of_Z 1000000)))]) = Some (n * 1000000)%Z).
  rewrite !pick_lit. set (T := [TProd false (b64_of_Z n) (b64_of_Z 1000000)]).
  pose proof (cp_sum_ok C T ltac:(discriminate)) as HS.
  pose proof (single_prod C _ _ HS false _ _ eq_refl Fn Fm) as HO. cbn [sg] in HO. rewrite Vn, Vm, <- mult_IZR in HO.
  assert (ER : rnd64 (IZR (n * 1000000)) = IZR (n * 1000000)) by (rewrite <- Vp; apply rnd_B2R).
  destruct HO as [Fw HO].
  { rewrite ER, <- abs_IZR. change (bpow radix2 1024) with (IZR (2 ^ 1024)). apply IZR_lt. lia. }
  assert (Vw : B2R (pick T) = IZR (n * 1000000)).
  { rewrite ER in HO. destruct HO as [HO|(_ & HS' & HO)]; [exact HO|]. rewrite HO. destruct (Z.eq_dec n 0) as [->|N0]; [reflexivity|].
    exfalso. rewrite <- abs_IZR in HS'. assert (1 <= IZR (Z.abs (n * 1000000))) by (apply IZR_le; lia).
    pose proof (bpow_lt radix2 (-1022) 0 ltac:(lia)) as HB. change (bpow radix2 0) with 1 in HB. lra. }
  unfold b64_trunc. rewrite Fw. f_equal. apply eq_IZR.
  rewrite (Btrunc_correct 53 1024 emax_ok), round_FIX_IZR, Vw, Ztrunc_IZR. reflexivity.
Qed.

Theorem poisson_estimate_fast (b B : list f64) us (n : Z) (num : nat) uninit now r1 :
  word 32 (mat1 uninit) -> word 32 (mat2 uninit) -> word 64 (tmat uninit) ->
  b <> [] -> (length B <= length b)%nat -> Forall usual b -> Forall usual B ->
  walk_error_fast (length b) <= / 8 -> INR (length b + 2) <= 2 ^ 40 ->
  (1 <= n <= 2147)%Z -> (1 <= num)%nat -> (Z.of_nat num <= INT_MAX)%Z ->
  Forall (fun u => 0 < u < 1) us -> length us = (num * S (length b))%nat ->
  draws (N := XN) (rng_make uninit (now + n * 1000000)) (map Fin us) r1 ->
  clear_simulations (/ IZR n) (2 * walk_error_fast (length b)) (map B2R b) (map B2R B) num us ->
  exists cs, length cs = num /\ poisson_outcomes (/ IZR n) (map B2R b) (map B2R B) cs us /\
    exists q : f64, is_finite q = true /\ Rabs (B2R q - IZR (crossings cs) / INR num) <= bpow radix2 (-51) /\
    forall fuel, (num <= fuel)%nat ->
      poisson_process_crossing_probability_montecarlo (N := FN) fuel uninit now (n_of_Z n) (map lit b) (map lit B) (Z.of_nat num) = Ok (lit q).
Proof.
  intros W1 W2 W3 NE HB Fb FB Herr Hbig Hn H1 H2 F Lu D HC.
  assert (Hr : state_ok (rng_make uninit (now + n * 1000000))).
  { unfold rng_make. apply init_ok; auto. unfold TinyMT.u64, word. apply Z.mod_pos_bound. reflexivity. }
  destruct (beta_fast n Hn) as (Fbeta & Rbeta & Ebeta). set (beta64 := cp_div C (b64_of_Z 1) (b64_of_Z n)) in *.
  assert (Pb : 0 < / IZR n) by (pose proof (bpow_gt_0 radix2 (-20)); lra).
  assert (NE' : map B2R b <> []) by (destruct b; [contradiction|discriminate]).
  assert (Lm : length (map B2R b) = length b) by apply map_length.
  assert (ST : forall num us r, Forall (fun u => 0 < u < 1) us -> state_ok r -> (num * S (length b) <= length us)%nat ->
    forall r1, draws (N := XN) r (map Fin us) r1 ->
    clear_simulations (/ IZR n) (2 * walk_error_fast (length b)) (map B2R b) (map B2R B) num us ->
    exists cs, length cs = num /\ poisson_outcomes (/ IZR n) (map B2R b) (map B2R B) cs us /\
      simulations (does_random_poisson_process_cross (N := FN) (map lit b) (map lit B) (lit beta64)) r cs).
  { clear - HL Heps Fbeta Rbeta Ebeta Fb FB Herr Hbig Pb NE' Lm. induction num as [|num IH]; intros us r F Hr Lu r1 D HC.
    - exists []. split; [reflexivity|]. split; [exact I|constructor].
    - cbn [Nat.mul] in Lu. destruct HC as (HC & HC').
      destruct (poisson_simulation (frexp := frexp) (map B2R b) (map B2R B) us (/ IZR n) r r1 Pb NE' ltac:(rewrite Lm; lia) F D) as (c & m & r2 & W & SC & U & D1 & D2).
      rewrite Lm in HC. destruct (poisson_same_fast beta64 (/ IZR n) b B us r r1) as (c' & r3 & E1 & E2); auto; [lia|].
      rewrite W in E2. injection E2 as <- <-.
      pose proof (used_le _ _ _ _ U) as Um. rewrite Lm in Um.
      destruct (IH (skipn m us) r2) with (r1 := r1) as (cs & Lc & O & S); auto.
      { apply Forall_skipn_R; auto. }
      { exact (draws_ok _ _ _ Hr D1). }
      { rewrite skipn_length. lia. }
      exists (c :: cs). simpl length. split; [lia|]. split; [|econstructor; eauto]. cbn [poisson_outcomes]. split; [exact SC|]. exists m. auto. }
  destruct (ST num us _ F Hr ltac:(lia) r1 D HC) as (cs & Lc & O & S).
  destruct (poisson_estimate (N := FN) uninit now (n_of_Z n) (map lit b) (map lit B) (Z.of_nat num) (n * 1000000)) as (cs' & Lc' & S' & R).
  - right. unfold size. change (car FN) with (list term). rewrite !map_length. lia.
  - apply seed_fast. lia.
  - lia.
  - assert (EB : @n_div FN n1 (n_of_Z n) = lit beta64).
    { change (@n_div FN n1 (n_of_Z n)) with (lit (cp_div C (pick (lit (b64_of_Z 1))) (pick (lit (b64_of_Z n))))). rewrite !pick_lit. reflexivity. }
    rewrite EB in S'. assert (E : cs' = cs) by (eapply simulations_det; eauto; lia). subst cs'.
    exists cs. split; auto. split; auto.
    destruct (frequency_fast C L (crossings cs) (Z.of_nat num)) as (Fq & Eq); [|lia|].
    + unfold crossings. pose proof (filter_le cs). lia.
    + eexists. split; [exact Fq|]. rewrite INR_IZR_INZ. split; [exact Eq|]. intros fuel Hf. rewrite (R fuel) by lia.
      change (@n_div FN (@n_of_Z FN (crossings cs)) (@n_of_Z FN (Z.of_nat num)))
        with (lit (cp_div C (pick (lit (b64_of_Z (crossings cs)))) (pick (lit (b64_of_Z (Z.of_nat num)))))).
      rewrite !pick_lit. reflexivity.
Qed.
End Pois.
