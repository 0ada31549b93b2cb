(** * McEcdfProb: the probability that a simulated empirical CDF stays inside.

    The sample is x_i = S_i / S_(n+1) for the partial sums S_i of n+1 exponential
    variables.  The event b_i S_(n+1) <= S_i <= B_i S_(n+1) is squeezed between
    finite unions of events whose probability is known exactly: S_(n+1) in one cell
    of a fine geometric grid and each S_i between fixed bounds. *)
From Coquelicot Require Import Coquelicot.
From Coq Require Import ZArith Reals List Bool Lia Lra Permutation Sorted Factorial.
From Verif Require Import Base Num RSum Spec SpecFacts OrderVol UniformWalk ProbSums McSpec McProbSpec McPoissonProb.
Import List. Import ListNotations.
Local Open Scope R_scope.

(** ** has_prob *)
Lemma is_prob_has_prob n A p : is_prob n A p -> has_prob n A p.
Proof. intros H eps He. exists A, A, p, p. repeat split; auto; lra. Qed.

Theorem has_prob_unique n A p q : has_prob n A p -> has_prob n A q -> p = q.
Proof.
  assert (G : forall p q, has_prob n A p -> has_prob n A q -> p <= q).
  { intros p' q' Hp Hq. apply le_epsilon. intros eps He.
    destruct (Hp (eps / 2) ltac:(lra)) as (A1 & _ & p1 & _ & H1 & _ & P1 & _ & E1 & _).
    destruct (Hq (eps / 2) ltac:(lra)) as (_ & A2 & _ & p2 & _ & H2 & _ & P2 & _ & E2).
    assert (p1 <= p2); [|lra]. eapply is_prob_mono; [|exact P1|exact P2]. intros l Hl Hr HA. apply H2; auto. }
  intros Hp Hq. apply Rle_antisym; auto.
Qed.

Lemma has_prob_ext n A A' p : (forall l, length l = n -> Forall (fun x : R => 0 <= x <= 1) l -> (A l <-> A' l)) ->
  has_prob n A p -> has_prob n A' p.
Proof.
  intros H HP eps He. destruct (HP eps He) as (A1 & A2 & p1 & p2 & H1 & H2 & R). exists A1, A2, p1, p2.
  split; [|split; [|exact R]]; intros l Hl Hr HA; [apply H|apply H2; auto; apply H]; auto.
Qed.

(** ** Calculus *)
Lemma deriv_incr (f f' : R -> R) a b : a <= b -> (forall x, a <= x <= b -> is_derive f x (f' x)) ->
  (forall x, a <= x <= b -> 0 <= f' x) -> f a <= f b.
Proof.
  intros Hab Hd Hp. destruct (MVT_gen f a b f') as (c & Hc & E).
  - intros x Hx. rewrite Rmin_left, Rmax_right in Hx by auto. apply Hd. lra.
  - intros x Hx. rewrite Rmin_left, Rmax_right in Hx by auto. apply continuity_pt_filterlim.
    apply (ex_derive_continuous (V := R_NormedModule)). exists (f' x). apply Hd; auto.
  - rewrite Rmin_left, Rmax_right in Hc by auto. specialize (Hp c Hc).
    assert (0 <= f' c * (b - a)) by (apply Rmult_le_pos; lra). lra.
Qed.

Lemma mono_S_derive k x : is_derive (fun t => mono t (S k)) x (mono x k).
Proof.
  unfold mono. pose proof (fact_neq k) as Hk. assert (Hs : INR (S k) <> 0) by (apply not_0_INR; lia).
  replace (INR (fact (S k))) with (INR (S k) * INR (fact k)) by (rewrite fact_simpl, mult_INR; reflexivity).
  remember (INR (fact k)) as F. remember (INR (S k)) as c.
  evar_last; [apply (is_derive_scal_l (V := R_NormedModule) (fun t => t ^ S k) x (INR (S k) * 1 * x ^ k) (/ (c * F)))|].
  - apply (is_derive_pow (fun t => t) (S k) x 1). apply (is_derive_id x).
  - change (scal ?u ?v) with (u * v). cbn [pred]. rewrite <- Heqc. change (@one R_Ring) with 1. field. auto.
Qed.

Lemma mono_le_exp k t : 0 <= t -> mono t k <= exp t.
Proof.
  revert t. induction k as [|k IH]; intros t Ht.
  - rewrite mono_0. pose proof (exp_ineq1_le t). lra.
  - assert (H : exp 0 - mono 0 (S k) <= exp t - mono t (S k)).
    { apply (deriv_incr (fun t => exp t - mono t (S k)) (fun t => exp t - mono t k)); auto.
      - intros x Hx. apply (is_derive_minus (V := R_NormedModule)); [apply is_derive_exp|apply mono_S_derive].
      - intros x Hx. specialize (IH x ltac:(lra)). lra. }
    rewrite mono_zero, exp_0 in H. simpl in H. lra.
Qed.

(** upper tail of the sum of n+1 exponentials *)
Definition tail (n : nat) (t : R) : R := exp (- t) * rsum (S n) (mono t).

Lemma exp_opp_derive x : is_derive (fun t => exp (- t)) x (- exp (- x)).
Proof. auto_derive; auto. ring. Qed.

Lemma tail_derive n x : is_derive (tail n) x (- exp (- x) * mono x n).
Proof.
  induction n as [|n IH].
  - apply (is_derive_ext (fun t => exp (- t))).
    + intros t. unfold tail. simpl. rewrite mono_0. change (exp (- t) = exp (- t) * (0 + 1)). ring.
    + rewrite mono_0. rewrite Rmult_1_r. apply exp_opp_derive.
  - apply (is_derive_ext (fun t => tail n t + exp (- t) * mono t (S n))).
    + intros t. unfold tail. rewrite (rsum_S (S n)). symmetry. apply Rmult_plus_distr_l.
    + evar_last; [apply (is_derive_plus (V := R_NormedModule)); [exact IH|]|].
      * apply (is_derive_mult (fun t => exp (- t)) (fun t => mono t (S n))); [apply exp_opp_derive|apply mono_S_derive|].
        intros; apply Rmult_comm.
      * repeat change (plus ?u ?v) with (u + v). repeat change (mult ?u ?v) with (u * v). ring.
Qed.

Lemma tail_small n t : 0 <= t -> 1 - t <= tail n t.
Proof.
  intros Ht. unfold tail. rewrite rsum_first, mono_0.
  assert (0 <= rsum n (fun i => mono t (S i))) by (apply rsum_nonneg; intros; apply mono_nonneg; auto).
  pose proof (exp_ineq1_le (- t)). pose proof (exp_pos (- t)).
  assert (0 <= exp (- t) * rsum n (fun i => mono t (S i))) by (apply Rmult_le_pos; lra). lra.
Qed.

Lemma tail_large n t : 0 < t -> tail n t <= INR (S n) * INR (S n) / t.
Proof.
  intros Ht. unfold tail. rewrite <- rsum_scal.
  assert (G : forall i, (i < S n)%nat -> exp (- t) * mono t i <= INR (S n) / t).
  { intros i Hi. apply Rle_trans with (INR (S i) / t).
    - pose proof (mono_le_exp (S i) t ltac:(lra)) as H.
      assert (E : mono t (S i) = t / INR (S i) * mono t i).
      { unfold mono. rewrite fact_simpl, mult_INR. simpl (t ^ S i). field. split; [apply fact_neq|apply not_0_INR; lia]. }
      rewrite E in H. rewrite exp_Ropp. pose proof (exp_pos t). assert (0 < INR (S i)) by (apply lt_0_INR; lia).
      apply Rmult_le_reg_l with (exp t * (t / INR (S i))).
      + apply Rmult_lt_0_compat; [auto|]. apply Rdiv_lt_0_compat; auto.
      + replace (exp t * (t / INR (S i)) * (/ exp t * mono t i)) with (t / INR (S i) * mono t i) by (field; split; lra).
        replace (exp t * (t / INR (S i)) * (INR (S i) / t)) with (exp t) by (field; split; lra). exact H.
    - apply Rmult_le_compat_r; [left; apply Rinv_0_lt_compat; auto|]. apply le_INR. lia. }
  replace (INR (S n) * INR (S n) / t) with (rsum (S n) (fun _ => INR (S n) / t)) by (rewrite rsum_const; unfold Rdiv; ring).
  revert G. generalize (INR (S n) / t). generalize (S n). intros m c G.
  induction m as [|m IH]; simpl; [lra|]. specialize (IH ltac:(intros; apply G; lia)). specialize (G m ltac:(lia)). lra.
Qed.

(** one cell of the grid carries at least this much *)
Lemma cell_weight n a b : 0 <= a <= b -> tail n a - tail n b <= (exp (- a) - exp (- b)) * mono b n.
Proof.
  intros H.
  assert (G : tail n a - exp (- a) * mono b n <= tail n b - exp (- b) * mono b n); [|lra].
  { apply (deriv_incr (fun t => tail n t - exp (- t) * mono b n) (fun t => - exp (- t) * mono t n - (- exp (- t) * mono b n))); [lra| |].
    - intros x Hx. apply (is_derive_minus (V := R_NormedModule)); [apply tail_derive|].
      apply (is_derive_scal_l (V := R_NormedModule) (fun t => exp (- t)) x (- exp (- x)) (mono b n)). apply exp_opp_derive.
    - intros x Hx. pose proof (exp_pos (- x)).
      replace (- exp (- x) * mono x n - - exp (- x) * mono b n) with (exp (- x) * (mono b n - mono x n)) by ring.
      apply Rmult_le_pos; [lra|]. assert (mono x n <= mono b n); [|lra].
      unfold mono. apply Rmult_le_compat_r; [left; apply Rinv_0_lt_compat, INR_fact_lt_0|]. apply pow_incr. lra. }
Qed.

Lemma bernoulli n d : 0 <= d <= 1 -> 1 - INR n * d <= (1 - d) ^ n.
Proof.
  intros Hd. induction n as [|n IH]; [simpl; lra|]. rewrite S_INR. simpl.
  assert (0 <= (1 - d) ^ n <= 1).
  { split; [apply pow_le; lra|]. pose proof (pow_incr (1 - d) 1 n ltac:(lra)) as H. rewrite pow1 in H. exact H. }
  assert ((1 - d) ^ n * d <= 1 * d) by (apply Rmult_le_compat_r; lra). lra.
Qed.

(** ** The volume depends continuously on the bounds *)
Lemma rint_abs (f : R -> R) M x y : (forall t, continuous f t) -> 0 <= x <= 1 -> 0 <= y <= 1 ->
  (forall t, 0 <= t <= 1 -> Rabs (f t) <= M) -> Rabs (rint f x y) <= M * Rabs (y - x).
Proof.
  intros C Hx Hy HM. assert (EX : forall a b, ex_RInt f a b) by (intros; apply (ex_RInt_continuous (V := R_CompleteNormedModule)); auto).
  assert (G : forall a b, 0 <= a <= b -> b <= 1 -> Rabs (rint f a b) <= M * (b - a)).
  { intros a b H1 H2. rewrite Rmult_comm. apply abs_RInt_le_const; [lra|auto|]. intros t Ht. apply HM. lra. }
  destruct (Rle_dec x y) as [L|L].
  - rewrite (Rabs_right (y - x)) by lra. apply G; lra.
  - rewrite (Rabs_left (y - x)) by lra. replace (rint f x y) with (- rint f y x).
    + rewrite Rabs_Ropp. replace (- (y - x)) with (x - y) by ring. apply G; lra.
    + unfold rint. exact (opp_RInt_swap f y x (EX y x)).
Qed.

Lemma rint_Chasles (f : R -> R) a b c : (forall t, continuous f t) -> rint f a b + rint f b c = rint f a c.
Proof.
  intros C. exact (RInt_Chasles f a b c (ex_RInt_continuous (V := R_CompleteNormedModule) _ _ _ (fun z _ => C z))
                     (ex_RInt_continuous (V := R_CompleteNormedModule) _ _ _ (fun z _ => C z))).
Qed.
Lemma rint_minus (f g : R -> R) a b : (forall t, continuous f t) -> (forall t, continuous g t) ->
  rint (fun x => f x - g x) a b = rint f a b - rint g a b.
Proof.
  intros C D. exact (RInt_minus f g a b (ex_RInt_continuous (V := R_CompleteNormedModule) _ _ _ (fun z _ => C z))
                     (ex_RInt_continuous (V := R_CompleteNormedModule) _ _ _ (fun z _ => D z))).
Qed.

Lemma clip_range s l h : 0 <= s <= 1 -> 0 <= h ->
  0 <= Rmin (Rmax s l) (Rmin 1 h) <= Rmin 1 h /\ 0 <= Rmin 1 h <= 1.
Proof. intros Hs Hh. unfold Rmin, Rmax. repeat destruct Rle_dec; lra. Qed.

Lemma vol_range cs : Forall (fun c : R * R => 0 <= snd c) cs -> forall s, 0 <= s <= 1 -> 0 <= vol 1 cs s <= 1.
Proof.
  induction cs as [|[l h] r IH]; intros F s Hs; [simpl; lra|].
  inversion F as [|? ? Hh F']; subst. cbn [snd] in Hh. specialize (IH F'). cbn [vol].
  destruct (clip_range s l h Hs Hh) as (C1 & C2). split.
  - unfold rint. apply RInt_ge_0; [lra|apply vol_ex|]. intros x Hx. apply IH. lra.
  - pose proof (rint_abs (vol 1 r) 1 (Rmin (Rmax s l) (Rmin 1 h)) (Rmin 1 h) (vol_continuous 1 r) ltac:(lra) C2) as G.
    specialize (G ltac:(intros t Ht; rewrite Rabs_right; apply Rle_ge || idtac; apply IH; auto)).
    apply Rabs_le_between in G. rewrite Rabs_right in G by lra. lra.
Qed.

Lemma vol_close d cs cs' : 0 <= d ->
  Forall2 (fun c c' : R * R => Rabs (fst c - fst c') <= d /\ Rabs (snd c - snd c') <= d /\ 0 <= snd c /\ 0 <= snd c') cs cs' ->
  forall s, 0 <= s <= 1 -> Rabs (vol 1 cs s - vol 1 cs' s) <= 2 * d * INR (length cs).
Proof.
  intros Hd. induction 1 as [|[l h] [l' h'] r r' Hc F IH]; intros s Hs.
  - simpl. rewrite Rminus_diag_eq by auto. rewrite Rabs_R0. lra.
  - cbn [fst snd] in Hc. destruct Hc as (H1 & H2 & Hh & Hh').
    assert (P : Forall (fun c : R * R => 0 <= snd c) r').
    { clear - F. induction F as [|c c' ? ? Hc]; constructor; auto. apply Hc. }
    cbn [vol length]. rewrite S_INR.
    destruct (clip_range s l h Hs Hh) as (C1 & C2). destruct (clip_range s l' h' Hs Hh') as (C1' & C2').
    assert (Da : Rabs (Rmin (Rmax s l) (Rmin 1 h) - Rmin (Rmax s l') (Rmin 1 h')) <= d).
    { apply Rabs_le_between in H1. apply Rabs_le_between in H2. apply Rabs_le. clear - H1 H2 Hd.
      unfold Rmin, Rmax. repeat destruct Rle_dec; lra. }
    assert (Db : Rabs (Rmin 1 h - Rmin 1 h') <= d).
    { apply Rabs_le_between in H1. apply Rabs_le_between in H2. apply Rabs_le. clear - H1 H2 Hd.
      unfold Rmin, Rmax. repeat destruct Rle_dec; lra. }
    revert Da Db C1 C2 C1' C2'. generalize (Rmin (Rmax s l) (Rmin 1 h)) (Rmin (Rmax s l') (Rmin 1 h')). intros a a'.
    generalize (Rmin 1 h) (Rmin 1 h'). intros b b' Da Db C1 C2 C1' C2'.
    assert (CV : forall q t, continuous (vol 1 q) t) by (intros; apply vol_continuous).
    assert (V1 : forall t, 0 <= t <= 1 -> Rabs (vol 1 r' t) <= 1).
    { intros t Ht. pose proof (vol_range r' P t Ht). rewrite Rabs_right; lra. }
    replace (rint (vol 1 r) a b - rint (vol 1 r') a' b') with
      (rint (fun x => vol 1 r x - vol 1 r' x) a b + (rint (vol 1 r') a a' + rint (vol 1 r') b' b)).
    2:{ rewrite rint_minus by auto. rewrite <- (rint_Chasles (vol 1 r') a a' b), <- (rint_Chasles (vol 1 r') a' b' b) by auto. ring. }
    assert (G1 : Rabs (rint (vol 1 r') a a') <= 1 * Rabs (a' - a)) by ((apply rint_abs; [auto|lra|lra|auto])).
    assert (G2 : Rabs (rint (vol 1 r') b' b) <= 1 * Rabs (b - b')) by ((apply rint_abs; [auto|lra|lra|auto])).
    assert (G3 : Rabs (rint (fun x => vol 1 r x - vol 1 r' x) a b) <= 2 * d * INR (length r) * Rabs (b - a)).
    { apply rint_abs; auto; try lra. intros t. apply (continuous_minus (V := R_NormedModule)); auto. }
    rewrite (Rabs_minus_sym a' a) in G1.
    assert (G4 : 2 * d * INR (length r) * Rabs (b - a) <= 2 * d * INR (length r) * 1).
    { apply Rmult_le_compat_l; [apply Rmult_le_pos; [lra|apply pos_INR]|]. rewrite Rabs_right; lra. }
    pose proof (Rabs_triang (rint (fun x => vol 1 r x - vol 1 r' x) a b) (rint (vol 1 r') a a' + rint (vol 1 r') b' b)) as T1.
    pose proof (Rabs_triang (rint (vol 1 r') a a') (rint (vol 1 r') b' b)) as T2. lra.
Qed.

Lemma low_close rho l l' : 1 <= rho -> Forall (fun x : R => 0 <= x <= 1) l -> Forall (fun x : R => 0 <= x <= 1) l' -> length l = length l' ->
  Forall2 (fun c c' : R * R => Rabs (fst c - fst c') <= rho - 1 /\ Rabs (snd c - snd c') <= rho - 1 /\ 0 <= snd c /\ 0 <= snd c')
    (combine (map (fun x => rho * x) l) l') (combine l l').
Proof.
  intros Hr. revert l'. induction l as [|x l IH]; intros [|y l'] F F' L; simpl in *; try discriminate; constructor.
  - apply Forall_inv in F. apply Forall_inv in F'. cbn [fst snd].
    assert (0 <= (rho - 1) * x) by (apply Rmult_le_pos; lra).
    assert ((rho - 1) * x <= (rho - 1) * 1) by (apply Rmult_le_compat_l; lra).
    repeat split; try lra; apply Rabs_le; lra.
  - apply IH; [eapply Forall_inv_tail; eauto|eapply Forall_inv_tail; eauto|congruence].
Qed.
Lemma up_close rho l l' : 1 <= rho -> Forall (fun x : R => 0 <= x <= 1) l -> Forall (fun x : R => 0 <= x <= 1) l' -> length l = length l' ->
  Forall2 (fun c c' : R * R => Rabs (fst c - fst c') <= rho - 1 /\ Rabs (snd c - snd c') <= rho - 1 /\ 0 <= snd c /\ 0 <= snd c')
    (combine l (map (fun x => rho * x) l')) (combine l l').
Proof.
  intros Hr. revert l'. induction l as [|x l IH]; intros [|y l'] F F' L; simpl in *; try discriminate; constructor.
  - apply Forall_inv in F. apply Forall_inv in F'. cbn [fst snd].
    assert (0 <= (rho - 1) * y) by (apply Rmult_le_pos; lra).
    assert ((rho - 1) * y <= (rho - 1) * 1) by (apply Rmult_le_compat_l; lra).
    repeat split; try lra; apply Rabs_le; lra.
  - apply IH; [eapply Forall_inv_tail; eauto|eapply Forall_inv_tail; eauto|congruence].
Qed.

Lemma sample_nth n us i : length us = S n -> (i < n)%nat ->
  nth i (ordered_sample us) 0 = total (firstn (S i) (map (fun u => - ln u) us)) / total (map (fun u => - ln u) us).
Proof.
  intros L Hi. unfold ordered_sample. cbv zeta. set (es := map (fun u => - ln u) us).
  assert (Le : length es = S n) by (unfold es; rewrite map_length; auto).
  assert (Er : removelast es = firstn n es).
  { rewrite <- (firstn_all es) at 1. rewrite Le. apply removelast_firstn. lia. }
  rewrite Er. set (T := total es).
  rewrite (nth_indep _ 0 ((fun t => t / T) 0)) by (rewrite map_length, jump_times_length, firstn_length_le; lia).
  rewrite (map_nth (fun t => t / T)). rewrite jump_times_nth by (rewrite firstn_length_le; lia).
  rewrite firstn_firstn_le by lia. reflexivity.
Qed.
Lemma sample_length n us : length us = S n -> length (ordered_sample us) = n.
Proof.
  intros L. unfold ordered_sample. cbv zeta. rewrite map_length, jump_times_length.
  set (es := map (fun u => - ln u) us). assert (Le : length es = S n) by (unfold es; rewrite map_length; auto).
  replace (removelast es) with (firstn n es); [apply firstn_length_le; lia|].
  rewrite <- (firstn_all es) at 2. rewrite Le. symmetry. apply removelast_firstn. lia.
Qed.

(** ** The sandwich *)
Section Sandwich.
Variables (b B : list R) (n : nat).
Hypotheses (Lb : length b = n) (LB : length B = n).
Hypotheses (Rb : Forall (fun x : R => 0 <= x <= 1) b) (RB : Forall (fun x : R => 0 <= x <= 1) B).
Variables (rho t0 : R) (m : nat).
Hypotheses (Hrho : 1 < rho) (Ht0 : 0 < t0).

Let grid (j : nat) : R := t0 * rho ^ j.
Definition sw_low : list (R * R) := combine (map (fun x => rho * x) b) B.
Definition sw_up : list (R * R) := combine b (map (fun x => rho * x) B).
Definition sw_all : list (R * R) := combine (repeat 0 n) (repeat 1 n).
Let cell cs j us := inside (fun x => grid j < x <= grid (S j)) (grid j) (scale (grid j) cs) 0 us.

Lemma grid_pos j : 0 < grid j.
Proof. apply Rmult_lt_0_compat; auto. apply pow_lt. lra. Qed.
Lemma grid_S j : grid (S j) = rho * grid j.
Proof. unfold grid. simpl. ring. Qed.
Lemma grid_le i j : (i <= j)%nat -> grid i <= grid j.
Proof.
  intros H. unfold grid. apply Rmult_le_compat_l; [lra|]. apply Rle_pow; [lra|auto].
Qed.

Lemma sw_low_len : length sw_low = n.
Proof. unfold sw_low. rewrite combine_length, map_length. lia. Qed.
Lemma sw_up_len : length sw_up = n.
Proof. unfold sw_up. rewrite combine_length, map_length. lia. Qed.
Lemma sw_all_len : length sw_all = n.
Proof. unfold sw_all. rewrite combine_length, !repeat_length. lia. Qed.

Let w (j : nat) : R := (exp (- grid j) - exp (- grid (S j))) * grid j ^ n.

Lemma cell_is cs j : length cs = n -> is_prob (S n) (cell cs j) (w j * vol 1 cs 0).
Proof.
  intros L. pose proof (cell_prob (grid j) (grid (S j)) (scale (grid j) cs) 0 (grid_le j (S j) (Nat.le_succ_diag_r j)) (Rlt_le _ _ (grid_pos j))) as H.
  rewrite scale_length, L in H.
  replace 0 with (grid j * 0) in H at 3 by ring.
  rewrite (vol_scale (grid j) cs (Rlt_le _ _ (grid_pos j))), L, exp_0, Rmult_1_r in H.
  unfold w. rewrite Rmult_assoc. exact H.
Qed.

Lemma cell_total cs j us : cell cs j us -> grid j < total (map (fun u => - ln u) us) <= grid (S j).
Proof. unfold cell. rewrite inside_iff, Rplus_0_l. tauto. Qed.

Lemma cells_is cs : length cs = n ->
  is_prob (S n) (fun us => exists j, (j < m)%nat /\ cell cs j us) (rsum m w * vol 1 cs 0).
Proof.
  intros L. rewrite <- rsum_scal_r. apply is_prob_exists.
  - intros j _. apply cell_is; auto.
  - intros i j us Hij _ _ (H1 & H2). apply cell_total in H1. apply cell_total in H2.
    pose proof (grid_le (S i) j ltac:(lia)). lra.
Qed.

Lemma ecdf_inside_iff us : length us = S n -> 0 < total (map (fun u => - ln u) us) ->
  (ecdf_inside b B us <-> forall i, (i < n)%nat ->
     nth i b 0 * total (map (fun u => - ln u) us) <= total (firstn (S i) (map (fun u => - ln u) us)) <=
     nth i B 0 * total (map (fun u => - ln u) us)).
Proof.
  intros L HT. unfold ecdf_inside, stays_inside. rewrite (sample_length n), Lb, LB by auto.
  assert (E : forall x y, x <= y / total (map (fun u => - ln u) us) <-> x * total (map (fun u => - ln u) us) <= y).
  { intros x y. split; intros H.
    - apply (Rmult_le_compat_r (total (map (fun u => - ln u) us))) in H; [|lra]. unfold Rdiv in H. rewrite Rmult_assoc, Rinv_l, Rmult_1_r in H; lra.
    - apply Rmult_le_reg_r with (total (map (fun u => - ln u) us)); auto. unfold Rdiv. rewrite Rmult_assoc, Rinv_l; lra. }
  assert (E' : forall x y, y / total (map (fun u => - ln u) us) <= x <-> y <= x * total (map (fun u => - ln u) us)).
  { intros x y. split; intros H.
    - apply (Rmult_le_compat_r (total (map (fun u => - ln u) us))) in H; [|lra]. unfold Rdiv in H. rewrite Rmult_assoc, Rinv_l, Rmult_1_r in H; lra.
    - apply Rmult_le_reg_r with (total (map (fun u => - ln u) us)); auto. unfold Rdiv. rewrite Rmult_assoc, Rinv_l; lra. }
  split.
  - intros (_ & HB & Hb) i Hi. specialize (HB i Hi). rewrite (sample_nth n) in HB by auto. split; [|apply E'; auto].
    destruct Hb as [Hb|(_ & Hb)]; [rewrite Hb in Lb; simpl in Lb; lia|]. specialize (Hb i Hi). rewrite (sample_nth n) in Hb by auto. apply E; auto.
  - intros H. split; [lia|]. split.
    + intros i Hi. rewrite (sample_nth n) by auto. apply E', H; auto.
    + right. split; [lia|]. intros i Hi. rewrite (sample_nth n) by auto. apply E, H; auto.
Qed.

Lemma nth_map0 (f : R -> R) l i : (i < length l)%nat -> nth i (map f l) 0 = f (nth i l 0).
Proof. intros H. rewrite (nth_indep _ 0 (f 0)) by (rewrite map_length; auto). apply map_nth. Qed.

Lemma range_nth l i : Forall (fun x : R => 0 <= x <= 1) l -> (i < length l)%nat -> 0 <= nth i l 0 <= 1.
Proof. intros F H. rewrite Forall_forall in F. apply F, nth_In; auto. Qed.

Lemma below us : length us = S n -> (exists j, (j < m)%nat /\ cell sw_low j us) -> ecdf_inside b B us.
Proof.
  intros L (j & _ & H). pose proof (cell_total _ _ _ H) as HT. pose proof (grid_pos j) as Hg.
  rewrite ecdf_inside_iff by (auto; lra). intros i Hi.
  unfold cell in H. rewrite inside_iff in H. destruct H as (_ & H & _). rewrite scale_length, sw_low_len in H.
  specialize (H i Hi). rewrite nth_scale in H by (rewrite sw_low_len; auto).
  unfold sw_low in H. rewrite combine_nth in H by (rewrite map_length; lia). cbn [fst snd] in H.
  rewrite (nth_map0 (fun x => rho * x)), Rplus_0_l in H by lia.
  pose proof (range_nth b i Rb ltac:(lia)). pose proof (range_nth B i RB ltac:(lia)). rewrite grid_S in HT.
  set (T := total (map (fun u => - ln u) us)) in *.
  assert (nth i b 0 * T <= nth i b 0 * (rho * grid j)) by (apply Rmult_le_compat_l; lra).
  assert (nth i B 0 * grid j <= nth i B 0 * T) by (apply Rmult_le_compat_l; lra).
  lra.
Qed.

Lemma above us : length us = S n -> ecdf_inside b B us ->
  (exists j, (j < m)%nat /\ cell sw_up j us) \/ ~ (exists j, (j < m)%nat /\ cell sw_all j us).
Proof.
  intros L HE. destruct (Classical_Prop.classic (exists j, (j < m)%nat /\ cell sw_all j us)) as [(j & Hj & H)|H]; [left|right; auto].
  exists j. split; auto. pose proof (cell_total _ _ _ H) as HT. pose proof (grid_pos j) as Hg.
  rewrite ecdf_inside_iff in HE by (auto; lra).
  unfold cell in *. rewrite inside_iff in *. rewrite !scale_length, sw_up_len, sw_all_len in *.
  destruct H as (H1 & H & H2). split; auto. split; auto. intros i Hi.
  specialize (H i Hi). specialize (HE i Hi). rewrite nth_scale in * by (rewrite ?sw_up_len, ?sw_all_len; auto).
  unfold sw_up. rewrite combine_nth by (rewrite map_length; lia). cbn [fst snd].
  rewrite (nth_map0 (fun x => rho * x)), Rplus_0_l in * by lia.
  pose proof (range_nth b i Rb ltac:(lia)). pose proof (range_nth B i RB ltac:(lia)). rewrite grid_S in HT.
  set (T := total (map (fun u => - ln u) us)) in *.
  assert (nth i b 0 * grid j <= nth i b 0 * T) by (apply Rmult_le_compat_l; lra).
  assert (nth i B 0 * T <= nth i B 0 * (rho * grid j)) by (apply Rmult_le_compat_l; lra).
  lra.
Qed.

Lemma up_all j us : cell sw_up j us -> cell sw_all j us.
Proof.
  unfold cell. rewrite !inside_iff, !scale_length, sw_up_len, sw_all_len. pose proof (grid_pos j) as Hg.
  intros (H1 & H & H2). split; auto. split; auto. intros i Hi. specialize (H i Hi).
  rewrite nth_scale in * by (rewrite ?sw_up_len, ?sw_all_len; auto).
  unfold sw_all, sw_up in *. rewrite combine_nth in * by (rewrite ?map_length, ?repeat_length; lia). cbn [fst snd] in *.
  rewrite nth_repeat. rewrite (nth_indep (repeat 1 n) 0 1) by (rewrite repeat_length; auto). rewrite nth_repeat.
  pose proof (range_nth b i Rb ltac:(lia)). assert (0 <= grid j * nth i b 0) by (apply Rmult_le_pos; lra). lra.
Qed.

Lemma vol_all k : forall s, 0 <= s <= 1 -> vol 1 (combine (repeat 0 k) (repeat 1 k)) s = mono (1 - s) k.
Proof.
  induction k as [|k IH]; intros s Hs; [simpl; rewrite mono_0; auto|]. cbn [repeat combine vol].
  rewrite (Rmin_left 1 1), (Rmax_left s 0), (Rmin_left s 1) by lra.
  unfold rint. apply is_RInt_unique. apply (is_RInt_ext (fun y => mono (1 - y) k)); [|apply is_RInt_mono_rev].
  intros x Hx. rewrite Rmin_left, Rmax_right in Hx by lra. symmetry. apply IH. lra.
Qed.

Lemma weights_le : rsum m w / INR (fact n) <= 1.
Proof.
  pose proof (cells_is sw_all sw_all_len) as H. unfold sw_all in H. rewrite vol_all in H by lra.
  apply is_prob_range in H. unfold mono in H. rewrite Rminus_0_r, pow1 in H. unfold Rdiv in *. lra.
Qed.

Lemma weights_ge : (/ rho) ^ n * (tail n t0 - tail n (t0 * rho ^ m)) <= rsum m w / INR (fact n).
Proof.
  assert (G : forall j, tail n (grid j) - tail n (grid (S j)) <= rho ^ n * (w j / INR (fact n))).
  { intros j. eapply Rle_trans; [apply cell_weight; split; [left; apply grid_pos|apply grid_le; lia]|].
    right. unfold w, mono. rewrite grid_S, Rpow_mult_distr. field. apply fact_neq. }
  assert (K : tail n (grid 0) - tail n (grid m) <= rho ^ n * (rsum m w / INR (fact n))).
  { induction m as [|k IH]; [simpl; unfold Rdiv; rewrite Rmult_0_l, Rmult_0_r; lra|].
    specialize (G k). cbn [rsum]. unfold Rdiv in *. rewrite Rmult_plus_distr_r, Rmult_plus_distr_l. lra. }
  unfold grid at 1 2 in K. simpl (rho ^ 0) in K. rewrite Rmult_1_r in K.
  apply (Rmult_le_compat_l ((/ rho) ^ n)) in K; [|apply pow_le; left; apply Rinv_0_lt_compat; lra].
  rewrite <- Rmult_assoc, <- Rpow_mult_distr, Rinv_l, pow1, Rmult_1_l in K by lra. exact K.
Qed.

Lemma close_low : Rabs (vol 1 sw_low 0 - vol 1 (combine b B) 0) <= 2 * (rho - 1) * INR n.
Proof. rewrite <- sw_low_len. apply vol_close; [lra| |lra]. apply low_close; auto; [lra|congruence]. Qed.
Lemma close_up : Rabs (vol 1 sw_up 0 - vol 1 (combine b B) 0) <= 2 * (rho - 1) * INR n.
Proof. rewrite <- sw_up_len. apply vol_close; [lra| |lra]. apply up_close; auto; [lra|congruence]. Qed.

Theorem sandwich p d d' : is_noncrossing_probability b B p -> valid_boundary b -> valid_boundary B ->
  INR (fact n) * (2 * (rho - 1) * INR n) <= d ->
  1 - d' <= (/ rho) ^ n * (tail n t0 - tail n (t0 * rho ^ m)) ->
  exists (A1 A2 : list R -> Prop) (p1 p2 : R),
    (forall l, length l = S n -> Forall (fun x : R => 0 <= x <= 1) l -> A1 l -> ecdf_inside b B l) /\
    (forall l, length l = S n -> Forall (fun x : R => 0 <= x <= 1) l -> ecdf_inside b B l -> A2 l) /\
    is_prob (S n) A1 p1 /\ is_prob (S n) A2 p2 /\ p - (d + d') <= p1 /\ p2 <= p + (d + d').
Proof.
  intros Hp Vb VB Hd Hd'.
  pose proof (cells_is sw_low sw_low_len) as P1. pose proof (cells_is sw_up sw_up_len) as P2.
  pose proof (cells_is sw_all sw_all_len) as P0.
  pose proof (prob_is_vol b B Vb VB ltac:(congruence)) as V. rewrite Lb in V.
  destruct V as (_ & V). destruct Hp as (_ & Hp). pose proof (is_prob_unique _ _ _ _ Hp V) as Ep. pose proof (is_prob_range _ _ _ Hp) as Rp. clear V Hp.
  pose proof weights_le as WL. pose proof weights_ge as WG. pose proof close_low as CL. pose proof close_up as CU.
  apply Rabs_le_between in CL. apply Rabs_le_between in CU.
  assert (F0 : 0 < INR (fact n)) by apply INR_fact_lt_0.
  assert (E0 : vol 1 sw_all 0 = / INR (fact n)).
  { unfold sw_all. rewrite vol_all by lra. unfold mono. rewrite Rminus_0_r, pow1. field. lra. }
  rewrite E0 in P0. set (W := rsum m w / INR (fact n)) in *.
  assert (EW : forall v, rsum m w * v = W * (INR (fact n) * v)) by (intros v; unfold W; field; lra).
  rewrite EW in P0, P1, P2. rewrite Rinv_r, Rmult_1_r in P0 by lra.
  set (pl := INR (fact n) * vol 1 sw_low 0) in *. set (pu := INR (fact n) * vol 1 sw_up 0) in *.
  assert (Bl : p - d <= pl).
  { unfold pl. rewrite Ep. apply Rle_trans with (INR (fact n) * (vol 1 (combine b B) 0 - 2 * (rho - 1) * INR n)); [lra|].
    apply Rmult_le_compat_l; lra. }
  assert (Bu : pu <= p + d).
  { unfold pu. rewrite Ep. apply Rle_trans with (INR (fact n) * (vol 1 (combine b B) 0 + 2 * (rho - 1) * INR n)); [|lra].
    apply Rmult_le_compat_l; lra. }
  assert (W0 : 0 <= W) by (apply is_prob_range in P0; lra).
  assert (Hd0 : 0 <= d).
  { eapply Rle_trans; [|exact Hd]. apply Rmult_le_pos; [lra|]. apply Rmult_le_pos; [lra|apply pos_INR]. }
  assert (D1 : W * (p - d) <= W * pl) by (apply Rmult_le_compat_l; lra).
  assert (D2 : W * pu <= W * (p + d)) by (apply Rmult_le_compat_l; lra).
  assert (D3 : W * d <= 1 * d) by (apply Rmult_le_compat_r; lra).
  assert (D4 : (1 - W) * p <= (1 - W) * 1) by (apply Rmult_le_compat_l; lra).
  assert (D5 : 0 <= (1 - W) * p) by (apply Rmult_le_pos; lra).
  exists (fun us => exists j, (j < m)%nat /\ cell sw_low j us).
  exists (fun us => (exists j, (j < m)%nat /\ cell sw_up j us) /\ (exists j, (j < m)%nat /\ cell sw_all j us) \/ ~ (exists j, (j < m)%nat /\ cell sw_all j us)).
  exists (W * pl), (W * pu + (1 - W)).
  split; [intros; apply below; auto|]. split; [|split; [exact P1|split; [|lra]]].
  - intros l Hl _ HE. destruct (above l Hl HE) as [H|H]; auto.
    destruct (Classical_Prop.classic (exists j, (j < m)%nat /\ cell sw_all j l)); auto.
  - apply is_prob_or.
    + intros l _ _ ((_ & H1) & H2). auto.
    + eapply is_prob_ext; [|exact P2]. intros l Hl _. split; [|tauto].
      intros (j & Hj & H). split; exists j; split; auto. apply up_all; auto.
    + apply is_prob_not. exact P0.
Qed.
End Sandwich.

Theorem ecdf_inside_prob b B p : valid_boundary b -> valid_boundary B -> is_noncrossing_probability b B p ->
  has_prob (S (length b)) (ecdf_inside b B) p.
Proof.
  intros Vb VB Hp eps He. set (n := length b). assert (LB : length B = n) by (destruct Hp; auto).
  set (D := 2 * eps + 8 * (INR (fact n) * INR n) + 6 * INR n + 1).
  assert (F0 : 0 < INR (fact n)) by apply INR_fact_lt_0. assert (N0 : 0 <= INR n) by apply pos_INR.
  assert (FN : 0 <= INR (fact n) * INR n) by (apply Rmult_le_pos; lra).
  assert (HD : 0 < D) by (unfold D; lra).
  set (q := eps / D). assert (Hq : 0 < q) by (apply Rdiv_lt_0_compat; auto).
  assert (Eq : q * D = eps) by (unfold q; field; lra).
  assert (X1 : q * (2 * eps) <= q * D) by (apply Rmult_le_compat_l; unfold D; lra).
  assert (X2 : q * (8 * (INR (fact n) * INR n)) <= q * D) by (apply Rmult_le_compat_l; unfold D; lra).
  assert (X3 : q * (6 * INR n) <= q * D) by (apply Rmult_le_compat_l; unfold D; lra).
  rewrite Eq in X1, X2, X3. clearbody q D.
  assert (Q2 : q <= / 2).
  { apply Rmult_le_reg_r with (2 * eps); [lra|]. lra. }
  set (rho := / (1 - q)).
  assert (Hr : 1 < rho) by (unfold rho; rewrite <- Rinv_1; apply Rinv_lt_contravar; lra).
  assert (Hr2 : rho - 1 <= 2 * q).
  { unfold rho. apply Rmult_le_reg_r with (1 - q); [lra|]. rewrite Rmult_minus_distr_r, Rinv_l by lra.
    assert (q * q <= q * / 2) by (apply Rmult_le_compat_l; lra). lra. }
  set (t0 := eps / 6). assert (Ht0 : 0 < t0) by (unfold t0; lra).
  set (z := INR (S n) * INR (S n) / (eps / 6)).
  assert (Hz : 0 < z) by (unfold z; apply Rdiv_lt_0_compat; [apply Rmult_lt_0_compat; apply lt_0_INR; lia|lra]).
  destruct (Pow_x_infinity rho ltac:(rewrite Rabs_right; lra) (z / t0)) as (m & Hm). specialize (Hm m (Nat.le_refl m)).
  rewrite Rabs_right in Hm by (apply Rle_ge, pow_le; lra).
  assert (Hg : z <= t0 * rho ^ m).
  { apply Rge_le in Hm. apply (Rmult_le_compat_l t0) in Hm; [|lra]. replace (t0 * (z / t0)) with z in Hm by (field; lra). exact Hm. }
  assert (Tm : tail n (t0 * rho ^ m) <= eps / 6).
  { eapply Rle_trans; [apply tail_large; lra|]. unfold Rdiv at 1.
    apply Rmult_le_reg_r with (t0 * rho ^ m); [lra|]. rewrite Rmult_assoc, Rinv_l, Rmult_1_r by lra.
    apply Rle_trans with (eps / 6 * z); [right; unfold z; field; lra|]. apply Rmult_le_compat_l; lra. }
  pose proof (tail_small n t0 ltac:(lra)) as Ts.
  assert (X : 1 - INR n * q <= (/ rho) ^ n).
  { unfold rho. rewrite Rinv_involutive by lra. apply bernoulli. lra. }
  assert (X' : 0 <= (/ rho) ^ n <= 1).
  { assert (I : 0 < / rho) by (apply Rinv_0_lt_compat; lra). split; [apply pow_le; lra|].
    pose proof (pow_incr (/ rho) 1 n) as I2. rewrite pow1 in I2. apply I2. split; [lra|].
    unfold rho. rewrite Rinv_involutive by lra. lra. }
  destruct (sandwich b B n eq_refl LB (proj2 Vb) (proj2 VB) rho t0 m Hr Ht0 p (eps / 2) (eps / 2) Hp Vb VB) as (A1 & A2 & p1 & p2 & H1 & H2 & H3 & H4 & H5 & H6).
  - assert (INR (fact n) * INR n * (2 * (rho - 1)) <= INR (fact n) * INR n * (2 * (2 * q))) by (apply Rmult_le_compat_l; lra). lra.
  - assert (Y : (/ rho) ^ n * (1 - (t0 + eps / 6)) <= (/ rho) ^ n * (tail n t0 - tail n (t0 * rho ^ m))) by (apply Rmult_le_compat_l; lra).
    assert (Y2 : (/ rho) ^ n * (t0 + eps / 6) <= 1 * (t0 + eps / 6)) by (apply Rmult_le_compat_r; lra).
    unfold t0 in *. lra.
  - exists A1, A2, p1, p2. do 4 (split; [assumption|]). lra.
Qed.

(** ** Boundaries of other lengths *)
Lemma total_nonneg es : Forall (fun x : R => 0 <= x) es -> 0 <= total es.
Proof. induction 1 as [|x l Hx F IH]; unfold total in *; simpl; lra. Qed.

Lemma ln_nonpos u : 0 <= u <= 1 -> 0 <= - ln u.
Proof.
  intros H. destruct (Rle_lt_dec u 0) as [L|L].
  - assert (E : ln u = 0); [|lra]. unfold ln. destruct (Rlt_dec 0 u); [exfalso; lra|reflexivity].
  - destruct (Rle_lt_dec 1 u) as [L'|L']; [replace u with 1 by lra; rewrite ln_1; lra|].
    pose proof (ln_increasing u 1 L L') as H2. rewrite ln_1 in H2. lra.
Qed.

Lemma sample_range n us i : length us = S n -> (i < n)%nat -> Forall (fun x : R => 0 <= x <= 1) us -> 0 <= nth i (ordered_sample us) 0 <= 1.
Proof.
  intros L Hi F. rewrite (sample_nth n) by auto. set (es := map (fun u => - ln u) us).
  assert (P : Forall (fun x : R => 0 <= x) es).
  { unfold es. apply Forall_map. eapply Forall_impl; [|exact F]. intros u Hu. apply ln_nonpos; auto. }
  assert (S1 : total es = total (firstn (S i) es) + total (skipn (S i) es)) by (rewrite <- McFacts.total_app, firstn_skipn; auto).
  assert (P1 : 0 <= total (firstn (S i) es)).
  { apply total_nonneg. rewrite <- (firstn_skipn (S i) es) in P. apply Forall_app in P. apply P. }
  assert (P2 : 0 <= total (skipn (S i) es)).
  { apply total_nonneg. rewrite <- (firstn_skipn (S i) es) in P. apply Forall_app in P. apply P. }
  destruct (Req_dec (total es) 0) as [Z|Z].
  - replace (total (firstn (S i) es)) with 0 by lra. unfold Rdiv. rewrite Rmult_0_l. lra.
  - assert (0 < total es) by lra. split.
    + apply Rmult_le_pos; auto. left. apply Rinv_0_lt_compat; auto.
    + apply Rmult_le_reg_r with (total es); auto. unfold Rdiv. rewrite Rmult_assoc, Rinv_l; lra.
Qed.

(** A missing lower-boundary entry stands for 1, a missing b for zeros. *)
Theorem ecdf_inside_prob_padded b B n p : valid_boundary b -> valid_boundary B ->
  b = [] \/ length b = n -> (length B <= n)%nat ->
  is_noncrossing_probability (if b then repeat 0 n else b) (B ++ repeat 1 (n - length B)) p ->
  has_prob (S n) (ecdf_inside b B) p.
Proof.
  intros Vb VB Lb LB Hp. set (b' := if b then repeat 0 n else b) in *. set (B' := B ++ repeat 1 (n - length B)) in *.
  assert (Lb' : length b' = n).
  { unfold b'. destruct b; [apply repeat_length|]. destruct Lb; [discriminate|auto]. }
  assert (LB' : length B' = n) by (unfold B'; rewrite app_length, repeat_length; lia).
  assert (Vb' : valid_boundary b').
  { unfold b'. destruct b; auto. split.
    - apply StronglySorted_Sorted. clear. induction n as [|k IH]; simpl; constructor; auto.
      apply Forall_forall. intros y Hy. apply repeat_spec in Hy. lra.
    - apply Forall_forall. intros y Hy. apply repeat_spec in Hy. lra. }
  pose proof (ecdf_inside_prob b' B' p Vb' (valid_pad B _ VB) Hp) as H. rewrite Lb' in H.
  eapply has_prob_ext; [|exact H]. intros us L F. unfold ecdf_inside, stays_inside.
  rewrite (sample_length n), Lb', LB' by auto. split.
  - intros (_ & HB & Hb). split; [lia|]. split.
    + intros i Hi. specialize (HB i ltac:(lia)). unfold B' in HB. rewrite app_nth1 in HB by auto. exact HB.
    + destruct b as [|x b0]; auto. right. split; [destruct Lb as [Lb|Lb]; [discriminate|lia]|].
      destruct Hb as [Hb|(_ & Hb)]; [discriminate|]. exact Hb.
  - intros (_ & HB & Hb). split; [lia|]. split.
    + intros i Hi. unfold B'. destruct (Nat.lt_ge_cases i (length B)) as [C|C].
      * rewrite app_nth1 by auto. auto.
      * rewrite app_nth2 by auto. rewrite (nth_indep (repeat 1 (n - length B)) 0 1) by (rewrite repeat_length; lia). rewrite nth_repeat.
        apply (sample_range n us i L Hi F).
    + right. split; [lia|]. intros i Hi. unfold b'. destruct b as [|x b0].
      * rewrite nth_repeat. apply (sample_range n us i L Hi F).
      * destruct Hb as [Hb|(_ & Hb)]; [discriminate|]. auto.
Qed.
