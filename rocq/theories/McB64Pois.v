(** * McB64Pois: the Poisson simulations in binary64. *)
From Coquelicot Require Import Coquelicot.
From Flocq Require Import Core.Core IEEE754.BinarySingleNaN.
From Coq Require Import ZArith Reals List Bool Lia Lra Sorted.
From Verif Require Import Base Num Binary64 Binary64Facts XReal Hoare TinyMT MonteCarlo Spec McSpec McProbSpec McFacts McLoop McMore McEstimate McPoissonProb McPoissonEstimate.
From Verif Require Import AccPmf AccCases TinyMTFacts TinyMTBinary64 McB64Spec McB64 McB64Est ShowCli.
From Verif Require Import B64Round.
Import List. Import ListNotations.
Local Open Scope R_scope.

Section Pois.
Context (L : libm) (eps : R) (HL : libm_accurate L eps) (Heps : 0 <= eps <= / 16).
Context {frexp : xr -> Z}.
Notation BN := (Bnum L).
Notation XN := (Xnum frexp).
Notation fins v := (Forall (fun x : f64 => is_finite x = true) v).
Context (beta64 : f64) (beta : R).
Hypothesis Fbeta : is_finite beta64 = true.
Hypothesis Rbeta : bpow radix2 (-20) <= beta <= 1.
Hypothesis Ebeta : Rabs (B2R beta64 - beta) <= u64 * beta.

Lemma u64_small : u64 <= / 1000000.
Proof. unfold u64. change (bpow radix2 (-53)) with (/ IZR 9007199254740992). lra. Qed.

Lemma poisson_exponential64 (u : f64) r r1 : is_finite u = true -> 0 < B2R u < 1 ->
  tinymt64_generate_double01 (N := BN) r = (u, r1) ->
  exists e : f64, generate_exponential (N := BN) beta64 r = (e, r1) /\ is_finite e = true /\
    Rabs (B2R e - beta * - ln (B2R u)) <= (eps + 4 * u64) * (beta * - ln (B2R u)).
Proof using HL Heps Fbeta Rbeta Ebeta.
  intros Fu Hu G. unfold generate_exponential, generate_uniform01. rewrite G.
  destruct (acc_log L eps HL u Fu ltac:(lra)) as (Fl & El). eexists. split; [reflexivity|].
  change (@n_mul BN (@n_neg BN beta64) (@n_log BN u)) with (Bmult mode_NE (Bopp beta64) (lm_log L u)).
  pose proof (ln_lt_0 _ Hu) as Hl. pose proof (double_ge_min u ltac:(lra)) as Hl2.
  assert (HG : bpow radix2 (-54) <= - ln (B2R u)).
  { destruct (ln_gap u ltac:(lra)) as [H|H]; [lra|]. rewrite Rabs_left in H; lra. }
  rewrite (Rabs_left (ln (B2R u))) in El by exact Hl. set (l := lm_log L u) in *. set (x := - ln (B2R u)) in *.
  pose proof u64_pos as PU. pose proof u64_small as SU. pose proof (bpow_gt_0 radix2 (-20)) as P20.
  (* errors of the two factors *)
  assert (E1 : Rabs (- B2R l - x) <= eps * x).
  { unfold x. replace (- B2R l - - ln (B2R u)) with (- (B2R l - ln (B2R u))) by ring. rewrite Rabs_Ropp. exact El. }
  apply Rabs_le_inv in E1. pose proof (Rabs_le_inv _ _ Ebeta) as E2.
  assert (X0 : 0 < x) by (unfold x; lra). assert (B0 : 0 < beta) by lra.
  assert (EX : eps * x <= / 16 * x) by (apply Rmult_le_compat_r; lra).
  assert (UB : u64 * beta <= / 1000000 * beta) by (apply Rmult_le_compat_r; lra).
  set (ll := - B2R l) in *. set (bb := B2R beta64) in *.
  assert (Pll : 0 < ll) by lra. assert (Pbb : 0 < bb) by lra.
  assert (E3 : Rabs (bb * ll - beta * x) <= (eps + 11 / 10 * u64) * (beta * x)).
  { replace (bb * ll - beta * x) with ((bb - beta) * ll + beta * (ll - x)) by ring.
    eapply Rle_trans; [apply Rabs_triang|]. rewrite !Rabs_mult, (Rabs_pos_eq ll), (Rabs_pos_eq beta) by lra.
    assert (H1 : Rabs (bb - beta) * ll <= u64 * beta * (17 / 16 * x)) by (apply Rmult_le_compat; try lra; apply Rabs_pos).
    assert (H2 : beta * Rabs (ll - x) <= beta * (eps * x)) by (apply Rmult_le_compat_l; [lra|apply Rabs_le; lra]).
    assert (H3 : 0 <= u64 * beta * x) by (repeat apply Rmult_le_pos; lra). lra. }
  assert (Pxb : 0 < beta * x) by (apply Rmult_lt_0_compat; lra).
  assert (Hbx : beta * x <= 1074) by (apply Rle_trans with (1 * 1074); [apply Rmult_le_compat|]; lra).
  assert (E4 : (eps + 11 / 10 * u64) * (beta * x) <= / 8 * (beta * x)) by (apply Rmult_le_compat_r; lra).
  apply Rabs_le_inv in E3.
  assert (HB : Rabs (B2R (Bopp beta64) * B2R l) <= bpow radix2 60).
  { rewrite B2R_Bopp. fold bb. replace (- bb * B2R l) with (bb * ll) by (unfold ll; ring). rewrite Rabs_pos_eq by lra.
    apply Rle_trans with 2000; [lra|]. change (bpow radix2 60) with (IZR (2 ^ 60)). apply IZR_le. lia. }
  destruct (mult_err (Bopp beta64) l) as (Fe & Ee); auto. { rewrite is_finite_Bopp. exact Fbeta. }
  split; [exact Fe|]. set (e := Bmult mode_NE (Bopp beta64) l) in *.
  rewrite B2R_Bopp in Ee. fold bb in Ee. replace (- bb * B2R l) with (bb * ll) in Ee by (unfold ll; ring).
  rewrite (Rabs_pos_eq (bb * ll)) in Ee by lra. apply Rabs_le_inv in Ee.
  assert (Et : eta64 <= u64 * (beta * x)).
  { apply Rle_trans with (u64 * (bpow radix2 (-20) * bpow radix2 (-54))).
    - unfold eta64, u64. rewrite <- !bpow_plus. apply bpow_le. lia.
    - apply Rmult_le_compat_l; [lra|]. apply Rmult_le_compat; try lra. apply bpow_ge_0. }
  assert (E5 : u64 * (bb * ll) <= u64 * (9 / 8 * (beta * x))) by (apply Rmult_le_compat_l; lra).
  apply Rabs_le. lra.
Qed.

Context (b B : list f64) (n : nat).
Hypothesis Fb : fins b.
Hypothesis FB : fins B.
Definition walk_error : R := eps + 4 * u64 + 2 * INR (S n) * u64.
Hypothesis Herr : walk_error <= / 8.
Hypothesis Hbig : INR (S n) <= 2 ^ 40.

Definition clear_at (i : nat) (X : R) : Prop := 2 * walk_error < Rabs (X - 1) /\
  (X <= 1 -> (i < length b)%nat -> 2 * walk_error < Rabs (X - nth i (map B2R b) 0)) /\
  (X <= 1 -> (i < length B)%nat -> 2 * walk_error < Rabs (X - nth i (map B2R B) 0)).

Lemma clear_inside (x : list f64) (X : list R) : length x = length X ->
  (forall i, (i < length X)%nat -> near walk_error (nth i x (b64_of_Z 0)) (nth i X 0) /\ nth i X 0 <= 1 /\ 0 <= nth i X 0 /\ clear_at i (nth i X 0)) ->
  (stays_inside (map B2R b) (map B2R B) (map B2R x) <-> stays_inside (map B2R b) (map B2R B) X).
Proof using Heps.
  intros Lx H. unfold stays_inside. assert (Lx' : length (map B2R x) = length X) by (rewrite map_length; exact Lx).
  assert (Lb : length (map B2R b) = length b) by apply map_length. assert (LB : length (map B2R B) = length B) by apply map_length.
  rewrite Lx', Lb, LB.
  assert (W0 : 0 <= walk_error).
  { unfold walk_error. pose proof u64_pos. pose proof (pos_INR (S n)). assert (0 <= INR (S n) * u64) by (apply Rmult_le_pos; lra). lra. }
  assert (HN : forall i, (i < length X)%nat -> Rabs (nth i (map B2R x) 0 - nth i X 0) <= walk_error).
  { intros i Hi. destruct (H i Hi) as ((_ & _ & E) & H1 & H0 & _).
    rewrite (nth_indep _ 0 (B2R (b64_of_Z 0))) by lia. rewrite map_nth.
    eapply Rle_trans; [exact E|]. rewrite <- (Rmult_1_r walk_error) at 2. apply Rmult_le_compat_l; lra. }
  assert (E1 : forall i, (i < length B)%nat -> (i < length X)%nat -> (nth i (map B2R x) 0 <= nth i (map B2R B) 0 <-> nth i X 0 <= nth i (map B2R B) 0)).
  { intros i HB Hi. destruct (H i Hi) as (_ & H1 & _ & (_ & _ & C)). specialize (C H1 HB). pose proof (Rabs_le_inv _ _ (HN i Hi)) as E.
    unfold Rabs in C. destruct Rcase_abs; split; lra. }
  assert (E2 : forall i, (i < length b)%nat -> (i < length X)%nat -> (nth i (map B2R b) 0 <= nth i (map B2R x) 0 <-> nth i (map B2R b) 0 <= nth i X 0)).
  { intros i HB Hi. destruct (H i Hi) as (_ & H1 & _ & (_ & C & _)). specialize (C H1 HB). pose proof (Rabs_le_inv _ _ (HN i Hi)) as E.
    unfold Rabs in C. destruct Rcase_abs; split; lra. }
  split; intros (A & C & D); (split; [exact A|]); split.
  - intros i Hi. apply E1; [exact Hi|lia|apply C; exact Hi].
  - destruct D as [D|(D1 & D2)]; [left; exact D|right]. split; [exact D1|]. intros i Hi. apply E2; [lia|exact Hi|apply D2; exact Hi].
  - intros i Hi. apply E1; [exact Hi|lia|apply C; exact Hi].
  - destruct D as [D|(D1 & D2)]; [left; exact D|right]. split; [exact D1|]. intros i Hi. apply E2; [lia|exact Hi|apply D2; exact Hi].
Qed.

Lemma cross_same (steps : list f64) (Steps : list R) : length steps = length Steps ->
  (forall i, (i < length Steps)%nat -> near walk_error (nth i (rev steps) (b64_of_Z 0)) (nth i (rev Steps) 0) /\
     nth i (rev Steps) 0 <= 1 /\ 0 <= nth i (rev Steps) 0 /\ clear_at i (nth i (rev Steps) 0)) ->
  exists c, does_integer_step_function_cross (N := BN) (rev steps) (@size (car BN) steps) b B = Ok c /\
    does_integer_step_function_cross (N := XN) (rev (map Fin Steps)) (@size (car XN) (map Fin Steps)) (map Fin (map B2R b)) (map Fin (map B2R B)) = Ok c.
Proof using Heps Fb FB.
  intros Ls HP.
  assert (Lr : length (rev steps) = length (rev Steps)) by (rewrite !rev_length; exact Ls).
  assert (Fr : fins (rev steps)).
  { apply Forall_forall. intros y Hy. destruct (In_nth _ _ (b64_of_Z 0) Hy) as (i & Hi & <-). apply HP. rewrite Lr, rev_length in Hi. exact Hi. }
  destruct (cross_spec64 L (frexp := frexp) (rev steps) b B Fr Fb FB) as (c & Ec & Sc).
  destruct (cross_spec (frexp := frexp) (map B2R b) (map B2R B) (rev Steps)) as (c' & Ec' & Sc').
  assert (HI : stays_inside (map B2R b) (map B2R B) (map B2R (rev steps)) <-> stays_inside (map B2R b) (map B2R B) (rev Steps)).
  { apply clear_inside; [exact Lr|]. intros i Hi. rewrite rev_length in Hi. apply HP. exact Hi. }
  assert (c' = c) by (destruct c, c'; auto; [symmetry; apply Sc, HI, Sc'; reflexivity|apply Sc', HI, Sc; reflexivity]). subst c'.
  exists c. split.
  - unfold size. cbn [car Bnum]. rewrite <- (rev_length steps). exact Ec.
  - unfold size. rewrite map_length, <- map_rev. rewrite <- (rev_length Steps). exact Ec'.
Qed.

Lemma walk64 : forall k (us : list f64) (steps : list f64) (Steps : list R) (a : f64) A r r1,
  length us = S k -> (length Steps + S k = S n)%nat -> length steps = length Steps ->
  Forall (fun u : f64 => is_finite u = true /\ 0 < B2R u < 1) us ->
  draws (N := BN) r us r1 -> draws (N := XN) r (map Fin (map B2R us)) r1 ->
  0 <= A <= 1074 * INR (length Steps) -> near (eps + 4 * u64 + 2 * INR (length Steps) * u64) a A ->
  (forall i, (i < length Steps)%nat -> near walk_error (nth i (rev steps) (b64_of_Z 0)) (nth i (rev Steps) 0) /\
     nth i (rev Steps) 0 <= 1 /\ 0 <= nth i (rev Steps) 0 /\ clear_at i (nth i (rev Steps) 0)) ->
  (forall i, (i < S k)%nat -> clear_at (length Steps + i) (nth i (sums_from A (map (fun u => beta * - ln u) (map B2R us))) 0)) ->
  exists c r2, poisson_walk (N := BN) k beta64 steps a b B r = Ok (c, r2) /\
    poisson_walk (N := XN) k (Fin beta) (map Fin Steps) (Fin A) (map Fin (map B2R b)) (map Fin (map B2R B)) r = Ok (c, r2).
Proof.
  induction k as [|k IH]; intros us steps Steps a A r r1 Lu Ln Ls F D D' HA Ha HP HC;
  (destruct us as [|u us]; [discriminate|]); destruct (draws_cons_inv L _ _ _ _ D) as (r2 & G & D1);
  inversion F as [|? ? (Fu & Hu) F1]; subst;
  destruct (poisson_exponential64 u r r2 Fu Hu G) as (e & Ge & Fe & Ee);
  pose proof (double_ge_min u ltac:(lra)) as Hl2; pose proof (ln_lt_0 _ Hu) as Hl;
  pose proof u64_pos as PU; pose proof (pos_INR (length Steps)) as PJ;
  assert (PJU : 0 <= INR (length Steps) * u64) by (apply Rmult_le_pos; lra);
  (assert (El : INR (length Steps) + 1 <= INR (S n)) by (rewrite <- S_INR; apply le_INR; lia));
  assert (ElU : (INR (length Steps) + 1) * u64 <= INR (S n) * u64) by (apply Rmult_le_compat_r; lra);
  (assert (HW : walk_error = eps + 4 * u64 + 2 * (INR (S n) * u64)) by (unfold walk_error; ring));
  assert (Pbx : 0 < beta * - ln (B2R u)) by (apply Rmult_lt_0_compat; [pose proof (bpow_gt_0 radix2 (-20)); lra|lra]);
  assert (Ubx : beta * - ln (B2R u) <= 1074) by (apply Rle_trans with (1 * 1074); [apply Rmult_le_compat|]; pose proof (bpow_gt_0 radix2 (-20)); lra);
  destruct Ha as (Fa & Pa & Ea).
  all: assert (H4 : 0 <= eps + 4 * u64 <= / 8) by lra.
  all: destruct (next_sum (eps + 4 * u64) a e (eps + 4 * u64 + 2 * INR (length Steps) * u64) A (beta * - ln (B2R u)) (INR (length Steps))) as (Fx & Mx & Ex);
    auto; try lra.
  all: set (x := Bplus mode_NE a e) in *; set (X := A + beta * - ln (B2R u)) in *.
  all: assert (X0 : 0 < X) by (unfold X; lra).
  all: assert (Ex' : near walk_error x X)
   by (split; [exact Fx|]; split; [lra|]; eapply Rle_trans; [exact Ex|]; apply Rmult_le_compat_r; lra).
  all: (assert (G' : generate_exponential (N := XN) (Fin beta) r = (Fin (beta * - ln (B2R u)), r2))).
  1,3: apply exponential_exact; [lra|]; inversion D' as [|? ? r2' ? ? Gx _]; subst; rewrite Gx; f_equal;
    rewrite (draw_state XN) in Gx; rewrite (draw_state BN) in G; congruence.
  all: pose proof (HC 0%nat ltac:(lia)) as HC0; cbn [map sums_from nth] in HC0; fold X in HC0; rewrite Nat.add_0_r in HC0.
  all: assert (HT : @n_lt BN (@n1 BN) x = Rlt_bool 1 X).
  1,3: destruct HC0 as (C1 & _); destruct Ex' as (_ & _ & EE); apply Rabs_le_inv in EE;
    destruct (of_Z_ok 1) as [F1z V1z]; [lia|]; change (@n_lt BN (@n1 BN) x) with (Bltb (b64_of_Z 1) x);
    rewrite (Bltb_correct 53 1024) by auto; rewrite V1z;
    assert (W0 : 0 < walk_error) by lra;
    assert (WX : walk_error * X <= / 8 * X) by (apply Rmult_le_compat_r; lra);
    unfold Rabs in C1; destruct Rcase_abs as [N1|N1];
    [ assert (walk_error * X <= walk_error * 1) by (apply Rmult_le_compat_l; lra); rewrite !Rlt_bool_false by lra; reflexivity
    | assert (walk_error * (X - 1) <= / 8 * (X - 1)) by (apply Rmult_le_compat_r; lra); rewrite !Rlt_bool_true by lra; reflexivity ].
  all: cbn [poisson_walk]; rewrite Ge, G'; cbn [n_add Xnum xadd]; fold X;
    change (@n_add BN a e) with x; rewrite HT; change (@n_lt XN (@n1 XN) (Fin X)) with (Rlt_bool 1 X).
  all: destruct (Rlt_bool_spec 1 X) as [GT|LE].
  1,3: destruct (cross_same steps Steps Ls HP) as (c & E1 & E2); exists c, r2; split; [exact (f_equal (fun o => bind o (fun c => Ok (c, r2))) E1)|exact (f_equal (fun o => bind o (fun c => Ok (c, r2))) E2)].
  - exists true, r2. auto.
  - assert (E2 : r2 = tinymt64_next_state r) by (rewrite (draw_state BN) in G; exact (eq_sym (f_equal snd G))).
    assert (D2 : draws (N := XN) r2 (map Fin (map B2R us)) r1).
    { inversion D' as [|? ? r2' ? ? Gx Dx]; subst. rewrite (draw_state XN) in Gx.
      pose proof (f_equal snd Gx) as Gs. cbn [snd] in Gs. rewrite Gs. exact Dx. }
    change (map Fin (X :: Steps)) with (Fin X :: map Fin Steps).
    apply (IH us (x :: steps) (X :: Steps) x X r2 r1); auto.
    + simpl. lia.
    + simpl. congruence.
    + cbn [length]. rewrite S_INR. lra.
    + cbn [length]. rewrite S_INR. split; [exact Fx|]. split; [lra|].
      replace (eps + 4 * u64 + 2 * (INR (length Steps) + 1) * u64) with (eps + 4 * u64 + 2 * INR (length Steps) * u64 + 2 * u64) by ring. exact Ex.
    + cbn [length rev]. intros i Hi.
      assert (Lr1 : length (rev steps) = length Steps) by (rewrite rev_length; exact Ls).
      assert (Lr2 : length (rev Steps) = length Steps) by apply rev_length.
      destruct (Nat.eq_dec i (length Steps)) as [->|Hne].
      * assert (N1 : nth (length Steps) (rev steps ++ [x]) (b64_of_Z 0) = x) by (rewrite app_nth2, Lr1, Nat.sub_diag by lia; reflexivity).
        assert (N2 : nth (length Steps) (rev Steps ++ [X]) 0 = X) by (rewrite app_nth2, Lr2, Nat.sub_diag by lia; reflexivity).
        rewrite N2. split; [change (near walk_error (@nth f64 (length Steps) (rev steps ++ [x]) (b64_of_Z 0)) X); rewrite N1; exact Ex'|]. split; [lra|]. split; [lra|exact HC0].
      * rewrite !app_nth1 by lia. apply HP. lia.
    + intros i Hi. specialize (HC (S i) ltac:(lia)). cbn [map sums_from nth] in HC. fold X in HC.
      cbn [length]. replace (S (length Steps) + i)%nat with (length Steps + S i)%nat by lia. exact HC.
Qed.
End Pois.

(** ** One simulation and the program *)
Section Program.
Context (L : libm) (eps : R) (HL : libm_accurate L eps) (Heps : 0 <= eps <= / 16).
Context {frexp : xr -> Z}.
Notation BN := (Bnum L).
Notation XN := (Xnum frexp).
Notation fins v := (Forall (fun x : f64 => is_finite x = true) v).

Theorem poisson_same (beta64 : f64) beta (b B : list f64) us r r1 : is_finite beta64 = true -> bpow radix2 (-20) <= beta <= 1 ->
  Rabs (B2R beta64 - beta) <= u64 * beta -> fins b -> fins B -> walk_error eps (length b) <= / 8 -> INR (S (length b)) <= 2 ^ 40 ->
  state_ok r -> (S (length b) <= length us)%nat -> Forall (fun u => 0 < u < 1) us -> draws (N := XN) r (map Fin us) r1 ->
  clear_jumps (2 * walk_error eps (length b)) (map B2R b) (map B2R B)
    (firstn (S (length b)) (jump_times (map (fun u => beta * - ln u) us))) ->
  exists c r2, does_random_poisson_process_cross (N := BN) b B beta64 r = Ok (c, r2) /\
    does_random_poisson_process_cross (N := XN) (map Fin (map B2R b)) (map Fin (map B2R B)) (Fin beta) r = Ok (c, r2).
Proof.
  intros Fbeta Rbeta Ebeta Fb FB Herr Hbig Hr Lu F D HC. set (n := length b) in *.
  rewrite <- (firstn_skipn (S n) us), map_app in D. destruct (draws_split (N := XN) _ _ _ _ D) as (r2 & D1 & _).
  assert (Lf : length (firstn (S n) us) = S n) by (apply firstn_length_le; exact Lu).
  rewrite <- jump_times_firstn, firstn_map in HC.
  pose proof (Forall_firstn_R _ (S n) us F) as F1. revert Lf D1 HC F1. generalize (firstn (S n) us). clear us Lu F D.
  intros us Lf D1 HC F.
  destruct (draws64 L us r r2 Hr D1) as (vs & Dv & <- & Fv).
  assert (F' : Forall (fun u : f64 => is_finite u = true /\ 0 < B2R u < 1) vs).
  { rewrite Forall_map in F. rewrite Forall_forall in *. auto. }
  destruct (of_Z_ok 0) as [F0 V0]; [lia|].
  assert (Lv : length vs = S n) by (rewrite map_length in Lf; exact Lf).
  destruct (walk64 L eps HL Heps (frexp := frexp) beta64 beta Fbeta Rbeta Ebeta b B n Fb FB Herr Hbig n vs [] [] (b64_of_Z 0) 0 r r2) as (c & r3 & E1 & E2); auto.
  - simpl. lra.
  - split; [exact F0|]. rewrite V0. split; [apply Rle_refl|]. replace (0 - 0) with 0 by ring. rewrite Rabs_R0, Rmult_0_r. apply Rle_refl.
  - simpl. intros; lia.
  - intros i Hi. cbn [length Nat.add]. rewrite <- jump_times_sums.
    assert (Lj : length (jump_times (map (fun u => beta * - ln u) (map B2R vs))) = S n).
    { unfold jump_times. rewrite map_length, seq_length, map_length. exact Lf. }
    destruct (HC i ltac:(lia)) as (C1 & C2 & C3). split; [exact C1|]. split.
    + intros H1 H2. apply C2; [exact H1|]. rewrite map_length. exact H2.
    + intros H1 H2. apply C3; [exact H1|]. rewrite map_length. exact H2.
  - exists c, r3. unfold does_random_poisson_process_cross. split; [exact E1|]. rewrite !map_length. exact E2.
Qed.

Lemma beta64_ok n : (1 <= n <= 2147)%Z ->
  is_finite (Bdiv mode_NE (b64_of_Z 1) (b64_of_Z n)) = true /\ bpow radix2 (-20) <= / IZR n <= 1 /\
  Rabs (B2R (Bdiv mode_NE (b64_of_Z 1) (b64_of_Z n)) - / IZR n) <= u64 * / IZR n.
Proof.
  intros Hn. destruct (of_Z_ok 1) as [F1 V1]; [lia|]. destruct (of_Z_ok n) as [Fn Vn]; [lia|].
  assert (N1 : 1 <= IZR n <= 2147) by (split; apply IZR_le; lia).
  assert (I1 : / 2147 <= / IZR n <= 1).
  { split; [apply Rinv_le; lra|]. rewrite <- Rinv_1. apply Rinv_le; lra. }
  assert (I2 : bpow radix2 (-20) <= / 2147) by (change (bpow radix2 (-20)) with (/ IZR 1048576); apply Rinv_le; lra).
  pose proof (Bdiv_correct 53 1024 prec_ok emax_ok mode_NE (b64_of_Z 1) (b64_of_Z n) ltac:(rewrite Vn; lra)) as H.
  cbn [round_mode] in H. rewrite V1, Vn in H. replace (1 / IZR n) with (/ IZR n) in H by (field; lra).
  assert (B60 : 1 <= bpow radix2 60) by (change 1 with (bpow radix2 0); apply bpow_le; lia).
  rewrite no_overflow60 in H by (rewrite Rabs_pos_eq; lra). destruct H as (H1 & H2 & _).
  rewrite H1, H2, F1. split; [reflexivity|]. split; [lra|].
  rewrite <- (Rabs_pos_eq (/ IZR n)) at 3 by lra. apply rnd_rel. right. rewrite Rabs_pos_eq by lra.
  apply Rle_trans with (bpow radix2 (-20)); [apply bpow_le; lia|lra].
Qed.

Theorem poisson_estimate64 (b B : list f64) us (n : Z) (num : nat) uninit now r1 :
  word 32 (mat1 uninit) -> word 32 (mat2 uninit) -> word 64 (tmat uninit) ->
  b <> [] -> (length B <= length b)%nat -> fins b -> fins B -> walk_error eps (length b) <= / 8 -> INR (S (length b)) <= 2 ^ 40 ->
  (1 <= n <= 2147)%Z -> (1 <= num)%nat -> (Z.of_nat num <= INT_MAX)%Z ->
  Forall (fun u => 0 < u < 1) us -> length us = (num * S (length b))%nat ->
  draws (N := XN) (rng_make uninit (now + n * 1000000)) (map Fin us) r1 ->
  clear_simulations (/ IZR n) (2 * walk_error eps (length b)) (map B2R b) (map B2R B) num us ->
  exists cs, length cs = num /\ poisson_outcomes (/ IZR n) (map B2R b) (map B2R B) cs us /\
    exists q : f64, is_finite q = true /\ Rabs (B2R q - IZR (crossings cs) / INR num) <= bpow radix2 (-52) /\
    forall fuel, (num <= fuel)%nat ->
      poisson_process_crossing_probability_montecarlo (N := BN) fuel uninit now (n_of_Z n) b B (Z.of_nat num) = Ok q.
Proof.
  intros W1 W2 W3 NE HB Fb FB Herr Hbig Hn H1 H2 F Lu D HC.
  assert (Hr : state_ok (rng_make uninit (now + n * 1000000))).
  { unfold rng_make. apply init_ok; auto. unfold TinyMT.u64, word. apply Z.mod_pos_bound. reflexivity. }
  destruct (beta64_ok n Hn) as (Fbeta & Rbeta & Ebeta). set (beta64 := Bdiv mode_NE (b64_of_Z 1) (b64_of_Z n)) in *.
  assert (Pb : 0 < / IZR n) by (pose proof (bpow_gt_0 radix2 (-20)); lra).
  assert (NE' : map B2R b <> []) by (destruct b; [contradiction|discriminate]).
  assert (Lm : length (map B2R b) = length b) by apply map_length.
  assert (ST : forall num us r, Forall (fun u => 0 < u < 1) us -> state_ok r -> (num * S (length b) <= length us)%nat ->
    forall r1, draws (N := XN) r (map Fin us) r1 ->
    clear_simulations (/ IZR n) (2 * walk_error eps (length b)) (map B2R b) (map B2R B) num us ->
    exists cs, length cs = num /\ poisson_outcomes (/ IZR n) (map B2R b) (map B2R B) cs us /\
      simulations (does_random_poisson_process_cross (N := BN) b B beta64) r cs).
  { clear - HL Heps Fbeta Rbeta Ebeta Fb FB Herr Hbig Pb NE' Lm. induction num as [|num IH]; intros us r F Hr Lu r1 D HC.
    - exists []. split; [reflexivity|]. split; [exact I|constructor].
    - cbn [Nat.mul] in Lu. destruct HC as (HC & HC').
      destruct (poisson_simulation (frexp := frexp) (map B2R b) (map B2R B) us (/ IZR n) r r1 Pb NE' ltac:(rewrite Lm; lia) F D) as (c & m & r2 & W & SC & U & D1 & D2).
      rewrite Lm in HC. destruct (poisson_same beta64 (/ IZR n) b B us r r1) as (c' & r3 & E1 & E2); auto; [lia|].
      rewrite W in E2. injection E2 as <- <-.
      pose proof (used_le _ _ _ _ U) as Um. rewrite Lm in Um.
      destruct (IH (skipn m us) r2) with (r1 := r1) as (cs & Lc & O & S); auto.
      { apply Forall_skipn_R; auto. }
      { exact (draws_ok _ _ _ Hr D1). }
      { rewrite skipn_length. lia. }
      exists (c :: cs). simpl length. split; [lia|]. split; [|econstructor; eauto]. cbn [poisson_outcomes]. split; [exact SC|]. exists m. auto. }
  destruct (ST num us _ F Hr ltac:(lia) r1 D HC) as (cs & Lc & O & S).
  destruct (poisson_estimate (N := BN) uninit now (n_of_Z n) b B (Z.of_nat num) (n * 1000000)) as (cs' & Lc' & S' & R).
  - right. unfold size. cbn [car Bnum]. lia.
  - apply seed64. lia.
  - lia.
  - change (@n_div BN n1 (n_of_Z n)) with beta64 in S'.
    assert (E : cs' = cs) by (eapply simulations_det; eauto; lia). subst cs'.
    exists cs. split; auto. split; auto.
    destruct (frequency_div64 (crossings cs) (Z.of_nat num)) as (Fq & Eq); [|lia|].
    + unfold crossings. pose proof (filter_le cs). lia.
    + eexists. split; [exact Fq|]. rewrite INR_IZR_INZ. split; [exact Eq|]. intros fuel Hf. apply R. lia.
Qed.
End Program.
