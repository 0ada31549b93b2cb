(** * UniformWalk: sums of exponential waiting times made from uniform random numbers. *)
From Coquelicot Require Import Coquelicot.
From Coq Require Import ZArith Reals List Bool Lia Lra.
From Verif Require Import Base Num RSum Spec SpecFacts OrderVol.
Import List. Import ListNotations.
Local Open Scope R_scope.

(** From position s the uniforms u_1, u_2, ... make jumps of length -ln u_i.  The first
    positions lie between the given bounds and below t; the next one satisfies [fin]. *)
Fixpoint inside (fin : R -> Prop) (t : R) (cs : list (R * R)) (s : R) (us : list R) : Prop :=
  match cs, us with
  | [], [u] => fin (s - ln u)
  | (l, h) :: r, u :: us => (l <= s - ln u <= h /\ s - ln u <= t) /\ inside fin t r (s - ln u) us
  | _, _ => False
  end.

Definition in_dec (l h t x : R) : {l <= x <= h /\ x <= t} + {~ (l <= x <= h /\ x <= t)}.
Proof.
  destruct (Rle_dec l x), (Rle_dec x h), (Rle_dec x t); (left; lra) || (right; lra).
Defined.

Lemma exp_minus_ln s u : 0 < u -> exp (s - ln u) = exp s / u.
Proof. intros. unfold Rminus, Rdiv. rewrite exp_plus, exp_Ropp, exp_ln by lra. reflexivity. Qed.

Lemma ln_lt_exp s x u : 0 < u -> u < exp (s - x) -> x < s - ln u.
Proof. intros H0 H. apply ln_increasing in H; [|lra]. rewrite ln_exp in H. lra. Qed.
Lemma ln_gt_exp s x u : 0 < u -> exp (s - x) < u -> s - ln u < x.
Proof. intros H0 H. apply ln_increasing in H; [|apply exp_pos]. rewrite ln_exp in H. lra. Qed.

Lemma exp_le x y : x <= y -> exp x <= exp y.
Proof. intros [H| ->]; [left; apply exp_increasing; auto|lra]. Qed.

Lemma is_RInt_zero (f : R -> R) a b : a <= b -> (forall x, a < x < b -> f x = 0) -> is_RInt f a b 0.
Proof.
  intros Hab H. eapply is_RInt_ext; [|apply (is_RInt_const_eq 0); ring].
  intros x Hx. rewrite Rmin_left, Rmax_right in Hx by lra. symmetry. apply H. lra.
Qed.

Lemma walk_integral (V : R -> R) s t l h w : (forall x, continuous V x) -> s <= t ->
  is_RInt (fun u => if in_dec l h t (s - ln u) then w * exp (s - ln u) * V (s - ln u) else 0) 0 1
    (w * exp s * rint V (Rmin (Rmax s l) (Rmin t h)) (Rmin t h)).
Proof.
  intros HV Hst. set (c := Rmin t h). set (a := Rmin (Rmax s l) c).
  assert (Hct : c <= t) by apply Rmin_l. assert (Hch : c <= h) by apply Rmin_r.
  assert (Hac : a <= c) by apply Rmin_r.
  assert (Hle : forall x, x <= t -> x <= h -> x <= c) by (intros; apply Rmin_glb; auto).
  destruct (Rlt_le_dec c s) as [Hcs|Hcs].
  - assert (E : a = c) by (apply Rmin_right; apply Rle_trans with s; [lra|apply Rmax_l]).
    rewrite E. unfold rint. rewrite (RInt_point (V := R_CompleteNormedModule)).
    change (@zero R_CompleteNormedModule) with 0. rewrite Rmult_0_r. apply is_RInt_zero; [lra|].
    intros u Hu. destruct (in_dec l h t (s - ln u)) as [(H1 & H2)|]; [|reflexivity].
    assert (ln u < 0) by (rewrite <- ln_1; apply ln_increasing; lra).
    assert (s - ln u <= c) by (apply Hle; lra). lra.
  - assert (Has : s <= a) by (apply Rmin_glb; [apply Rmax_l|auto]).
    assert (Hal : a <= Rmax s l) by apply Rmin_l.
    assert (Hla : l <= c -> l <= a) by (intros; apply Rmin_glb; [apply Rmax_r|auto]).
    assert (E1 : 0 < exp (s - c)) by apply exp_pos.
    assert (E2 : exp (s - c) <= exp (s - a)) by (apply exp_le; lra).
    assert (E3 : exp (s - a) <= 1) by (rewrite <- exp_0; apply exp_le; lra).
    apply (is_RInt_Chasles_R _ 0 (exp (s - c)) 1 0 (w * exp s * rint V a c)); [| |ring].
    { apply is_RInt_zero; [lra|]. intros u Hu.
      destruct (in_dec l h t (s - ln u)) as [(H1 & H2)|]; [|reflexivity].
      assert (c < s - ln u) by (apply ln_lt_exp; lra).
      assert (s - ln u <= c) by (apply Hle; lra). lra. }
    apply (is_RInt_Chasles_R _ (exp (s - c)) (exp (s - a)) 1 (w * exp s * rint V a c) 0); [| |ring].
    2:{ apply is_RInt_zero; [lra|]. intros u Hu.
      destruct (in_dec l h t (s - ln u)) as [(H1 & H2)|]; [|reflexivity].
      assert (s - ln u < a) by (apply ln_gt_exp; lra).
      assert (ln u < 0) by (rewrite <- ln_1; apply ln_increasing; lra).
      revert Hal. unfold Rmax. destruct (Rle_dec s l); lra. }
    replace (w * exp s * rint V a c) with (scal (- (w * exp s)) (RInt V (s - ln (exp (s - c))) (s - ln (exp (s - a))))).
    2:{ rewrite !ln_exp. replace (s - (s - c)) with c by ring. replace (s - (s - a)) with a by ring.
        rewrite <- (opp_RInt_swap (V := R_CompleteNormedModule)).
        2:{ apply (ex_RInt_continuous (V := R_CompleteNormedModule)). auto. }
        unfold scal, rint; simpl. unfold mult; simpl. unfold opp; simpl.
        generalize (RInt V a c). intros v. match goal with |- @eq _ ?u ?v => change (@eq R u v) end.
        change (CompleteSpace.sort R_CompleteNormedModule) with R in v. ring. }
    eapply is_RInt_ext.
    2:{ apply (is_RInt_scal (V := R_NormedModule)).
        apply (is_RInt_comp (V := R_CompleteNormedModule) V (fun u => s - ln u) (fun u => - / u)).
        - intros; apply HV.
        - intros u Hu. rewrite Rmin_left in Hu by lra. split.
          + auto_derive; [lra|]. ring.
          + apply (ex_derive_continuous (V := R_NormedModule)). auto_derive. apply Rgt_not_eq. lra. }
    intros u Hu. rewrite Rmin_left, Rmax_right in Hu by lra.
    assert (U1 : s - ln u < c) by (apply ln_gt_exp; lra).
    assert (U2 : a < s - ln u) by (apply ln_lt_exp; lra).
    destruct (in_dec l h t (s - ln u)) as [|N].
    + unfold scal; simpl. unfold mult; simpl. rewrite exp_minus_ln by lra. field. lra.
    + exfalso. apply N. destruct (Rle_dec l c) as [L|L].
      * specialize (Hla L). split; [split|]; lra.
      * assert (a = c); [|lra]. apply Rmin_right. apply Rle_trans with l; [lra|apply Rmax_r].
Qed.

(** The probability of such a path: a constant times exp s times the volume of the positions. *)
Theorem inside_prob fin t w :
  (forall s, s <= t -> is_prob 1 (inside fin t [] s) (w * exp s)) ->
  forall cs s, s <= t -> is_prob (S (length cs)) (inside fin t cs s) (w * exp s * vol t cs s).
Proof.
  intros Hfin. induction cs as [|[l h] r IH]; intros s Hs.
  - cbn [vol length]. rewrite Rmult_1_r. apply Hfin; auto.
  - change (length ((l, h) :: r)) with (S (length r)).
    exists (fun u => if in_dec l h t (s - ln u) then w * exp (s - ln u) * vol t r (s - ln u) else 0). split.
    + intros u Hu. destruct (in_dec l h t (s - ln u)) as [H|H].
      * eapply is_prob_ext; [|apply IH; apply H]. intros us _ _. cbn [inside]. tauto.
      * apply is_prob_empty. intros us _ _. cbn [inside]. tauto.
    + apply (walk_integral (vol t r)); [apply vol_continuous|exact Hs].
Qed.

Lemma is_RInt_one (f : R -> R) a b : a <= b -> (forall x, a < x < b -> f x = 1) -> is_RInt f a b (b - a).
Proof.
  intros Hab H. eapply is_RInt_ext; [|apply (is_RInt_const_eq 1); ring].
  intros x Hx. rewrite Rmin_left, Rmax_right in Hx by lra. symmetry. apply H. lra.
Qed.

(** The last position lies in (t, t']. *)
Lemma fin_interval t t' s : t <= t' -> s <= t ->
  is_prob 1 (inside (fun x => t < x <= t') t [] s) ((exp (- t) - exp (- t')) * exp s).
Proof.
  intros Htt Hs.
  exists (fun u => if Rlt_dec t (s - ln u) then if Rle_dec (s - ln u) t' then 1 else 0 else 0). split.
  - intros u Hu. cbn [is_prob inside]. destruct (Rlt_dec t (s - ln u)), (Rle_dec (s - ln u) t'); tauto.
  - assert (E1 : 0 < exp (s - t')) by apply exp_pos.
    assert (E2 : exp (s - t') <= exp (s - t)) by (apply exp_le; lra).
    assert (E3 : exp (s - t) <= 1) by (rewrite <- exp_0; apply exp_le; lra).
    replace ((exp (- t) - exp (- t')) * exp s) with (exp (s - t) - exp (s - t')).
    2:{ unfold Rminus at 2 3. rewrite !exp_plus. ring. }
    apply (is_RInt_Chasles_R _ 0 (exp (s - t')) 1 0 (exp (s - t) - exp (s - t'))); [| |ring].
    { apply is_RInt_zero; [lra|]. intros u Hu. assert (t' < s - ln u) by (apply ln_lt_exp; lra).
      destruct (Rlt_dec t (s - ln u)), (Rle_dec (s - ln u) t'); lra. }
    apply (is_RInt_Chasles_R _ _ (exp (s - t)) 1 (exp (s - t) - exp (s - t')) 0); [| |ring].
    { apply is_RInt_one; [lra|]. intros u Hu. assert (t < s - ln u) by (apply ln_lt_exp; lra).
      assert (s - ln u < t') by (apply ln_gt_exp; lra).
      destruct (Rlt_dec t (s - ln u)), (Rle_dec (s - ln u) t'); lra. }
    apply is_RInt_zero; [lra|]. intros u Hu. assert (s - ln u < t) by (apply ln_gt_exp; lra).
    destruct (Rlt_dec t (s - ln u)); lra.
Qed.

(** The last position lies beyond t. *)
Lemma fin_beyond t s : s <= t -> is_prob 1 (inside (fun x => t < x) t [] s) (exp (- t) * exp s).
Proof.
  intros Hs. exists (fun u => if Rlt_dec t (s - ln u) then 1 else 0). split.
  - intros u Hu. cbn [is_prob inside]. destruct (Rlt_dec t (s - ln u)); tauto.
  - assert (E2 : 0 < exp (s - t)) by apply exp_pos.
    assert (E3 : exp (s - t) <= 1) by (rewrite <- exp_0; apply exp_le; lra).
    replace (exp (- t) * exp s) with (exp (s - t)) by (unfold Rminus; rewrite exp_plus; ring).
    apply (is_RInt_Chasles_R _ 0 (exp (s - t)) 1 (exp (s - t) - 0) 0); [| |ring].
    { apply is_RInt_one; [lra|]. intros u Hu. assert (t < s - ln u) by (apply ln_lt_exp; lra).
      destruct (Rlt_dec t (s - ln u)); lra. }
    apply is_RInt_zero; [lra|]. intros u Hu. assert (s - ln u < t) by (apply ln_gt_exp; lra).
    destruct (Rlt_dec t (s - ln u)); lra.
Qed.

Theorem cell_prob t t' cs s : t <= t' -> s <= t ->
  is_prob (S (length cs)) (inside (fun x => t < x <= t') t cs s) ((exp (- t) - exp (- t')) * exp s * vol t cs s).
Proof. intros Htt Hs. apply inside_prob; auto. intros; apply fin_interval; auto. Qed.

Theorem beyond_prob t cs s : s <= t ->
  is_prob (S (length cs)) (inside (fun x => t < x) t cs s) (exp (- t) * exp s * vol t cs s).
Proof. intros Hs. apply inside_prob; auto. intros; apply fin_beyond; auto. Qed.

(** ** Scaling *)
Definition scale (t : R) (cs : list (R * R)) : list (R * R) := map (fun c => (t * fst c, t * snd c)) cs.

Lemma Rmin_scale t x y : 0 <= t -> Rmin (t * x) (t * y) = t * Rmin x y.
Proof.
  intros. destruct (Rle_dec x y).
  - rewrite !Rmin_left; auto. apply Rmult_le_compat_l; lra.
  - rewrite !Rmin_right; try lra. apply Rmult_le_compat_l; lra.
Qed.
Lemma Rmax_scale t x y : 0 <= t -> Rmax (t * x) (t * y) = t * Rmax x y.
Proof.
  intros. destruct (Rle_dec x y).
  - rewrite !Rmax_right; auto. apply Rmult_le_compat_l; lra.
  - rewrite !Rmax_left; try lra. apply Rmult_le_compat_l; lra.
Qed.

Lemma vol_scale t cs : 0 <= t -> forall s, vol t (scale t cs) (t * s) = t ^ length cs * vol 1 cs s.
Proof.
  intros Ht. induction cs as [|[l h] r IH]; intros s; cbn [scale map vol length fst snd].
  - simpl. ring.
  - replace (Rmin t (t * h)) with (t * Rmin 1 h) by (rewrite <- Rmin_scale by auto; f_equal; ring).
    rewrite Rmax_scale, Rmin_scale by auto.
    set (c := Rmin 1 h). set (a := Rmin (Rmax s l) c). unfold rint.
    fold (scale t r).
    pose proof (vol_is t (scale t r) (t * a + 0) (t * c + 0)) as HI.
    apply (is_RInt_comp_lin (V := R_NormedModule)) in HI.
    rewrite !Rplus_0_r in HI. apply (is_RInt_unique (V := R_CompleteNormedModule)) in HI.
    rewrite <- HI. simpl pow. rewrite Rmult_assoc.
    apply is_RInt_unique.
    eapply is_RInt_ext with (f := fun y => scal (t * t ^ length r) (vol 1 r y)).
    { intros y _. unfold scal; simpl. unfold mult; simpl. rewrite Rplus_0_r, IH. ring. }
    rewrite <- Rmult_assoc. apply (is_RInt_scal (V := R_NormedModule)). apply vol_is.
Qed.
