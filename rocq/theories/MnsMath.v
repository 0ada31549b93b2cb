(** * MnsMath: the polynomials of ecdf1_mns2016, as pure mathematics. *)
From Coquelicot Require Import Coquelicot.
From Flocq Require Import Core.Raux.
From Coq Require Import ZArith Reals List Bool Lia Lra Permutation Sorted Factorial.
From Verif Require Import Base Num RSum Spec SpecFacts Cells Events XEcdf2 NewMath Reflect.
Import List.
Local Open Scope R_scope.

Lemma is_derive_rsum n (f : nat -> R -> R) (df : nat -> R) x :
  (forall i, (i < n)%nat -> is_derive (f i) x (df i)) ->
  is_derive (fun y => rsum n (fun i => f i y)) x (rsum n df).
Proof.
  induction n as [|n IH]; intros H.
  - simpl. apply is_derive_ext with (f := fun _ : R => 0); [reflexivity|].
    apply (is_derive_const (V := R_NormedModule)).
  - eapply is_derive_ext; [intros t; symmetry; apply rsum_S|]. rewrite rsum_S.
    apply (is_derive_plus (V := R_NormedModule)); [apply IH; auto|apply H; lia].
Qed.

Lemma is_derive_shift_pow (a c x : R) k :
  is_derive (fun y : R => c * (y + a) ^ (S k)) x (c * (INR (S k) * (x + a) ^ k)).
Proof.
  auto_derive; [exact I|]. change (match k with O => 1 | S _ => INR k + 1 end) with (INR (S k)). ring.
Qed.

Lemma is_derive_mono (p x : R) k :
  is_derive (fun y : R => mono (y - p) (S k)) x (mono (x - p) k).
Proof.
  assert (H : mono (x - p) k = / INR (fact (S k)) * (INR (S k) * (x + - p) ^ k)).
  { unfold mono. rewrite fact_simpl, mult_INR. unfold Rminus. field. split; [apply fact_neq|].
    apply not_0_INR. lia. }
  rewrite H. eapply is_derive_ext; [|apply (is_derive_shift_pow (- p) (/ INR (fact (S k))) x k)].
  intros t. match goal with |- @eq _ ?u ?v => change (@eq R u v) end. unfold mono, Rdiv, Rminus. ring.
Qed.

Lemma antiderivative_unique (f g : R -> R) (c : R) :
  (forall x, exists d : R, is_derive f x d /\ is_derive g x d) -> f c = g c -> forall x, f x = g x.
Proof.
  intros H Hc x.
  assert (Hd : forall t, is_derive (fun y : R => f y - g y) t 0).
  { intros t. destruct (H t) as (d & H1 & H2).
    pose proof (is_derive_minus f g t d d H1 H2) as H3.
    unfold minus, plus, opp in H3. simpl in H3. rewrite Rplus_opp_r in H3. exact H3. }
  assert (Hx : f x - g x = f c - g c).
  { destruct (Rtotal_order x c) as [Hlt|[->|Hgt]]; auto.
    - apply (eq_is_derive (fun y : R => f y - g y) x c); auto.
    - symmetry. apply (eq_is_derive (fun y : R => f y - g y) c x); auto. }
  lra.
Qed.

Section MnsMath.
Variables (n : nat) (b : list R).
Notation bf := (Bf b).
Notation prevloc := (prevloc b).

(** volumes of o points that respect the first k lower constraints up to b_{k-1} *)
Fixpoint U (k : nat) : nat -> R :=
  match k with
  | O => delta 0
  | S k' => u_next (bf k') (prevloc k') bSTEP k' 0 (U k')
  end.

Lemma U_high k o : (k < o)%nat \/ (0 < k /\ o = k)%nat -> U k o = 0.
Proof.
  destruct k as [|k]; simpl; intros H.
  - unfold delta. destruct (Nat.eqb_spec o 0); auto; lia.
  - unfold u_next. simpl. destruct (Nat.leb_spec o k); auto; lia.
Qed.
Lemma U_S k o : (o <= k)%nat -> U (S k) o = conv (mono (bf k - prevloc k)) (U k) o.
Proof. intros H. simpl. unfold u_next. simpl. destruct (Nat.leb_spec o k); auto; lia. Qed.

(** h k x: volume of the ordered k-point samples in [0,x] *)
Definition h (k : nat) (x : R) : R := conv (mono (x - prevloc k)) (U k) k.

Lemma h_0 x : h 0 x = 1.
Proof. unfold h, conv. simpl. rewrite mono_0. unfold delta. simpl. ring. Qed.

Lemma h_at k : h (S k) (bf k) = 0.
Proof.
  unfold h. simpl prevloc. replace (bf k - bf k) with 0 by ring. unfold conv.
  rewrite (rsum_single (S (S k)) 0); [|lia|].
  - rewrite Nat.sub_0_r, U_high by lia. ring.
  - intros i Hi Hne. rewrite mono_zero. destruct (Nat.eqb_spec i 0); [lia|ring].
Qed.

Lemma h_derive k x : is_derive (h (S k)) x (h k x).
Proof.
  unfold h at 1. simpl prevloc. unfold conv.
  eapply is_derive_ext.
  { intros t. symmetry. rewrite rsum_first, Nat.sub_0_r, U_high by lia. rewrite Rmult_0_r, Rplus_0_l. reflexivity. }
  replace (h k x) with (rsum (S k) (fun i => mono (x - bf k) i * U (S k) (k - i)%nat)).
  - apply is_derive_rsum. intros i Hi.
    eapply is_derive_ext; [intros t; apply Rmult_comm|]. rewrite Rmult_comm.
    replace (S k - S i)%nat with (k - i)%nat by lia.
    apply (is_derive_scal (fun y => mono (y - bf k) (S i)) x (U (S k) (k - i)) (mono (x - bf k) i)).
    apply is_derive_mono.
  - unfold h.
    rewrite (rsum_ext (S k) _ (fun i => mono (x - bf k) i * conv (mono (bf k - prevloc k)) (U k) (k - i)))
      by (intros i Hi; rewrite U_S by lia; reflexivity).
    change (conv (mono (x - bf k)) (conv (mono (bf k - prevloc k)) (U k)) k = conv (mono (x - prevloc k)) (U k) k).
    rewrite <- conv_assoc. apply conv_ext; [|reflexivity]. intros i Hi. rewrite conv_mono. f_equal. ring.
Qed.

(** ** ... and D *)
Definition bsteps : list (R * bound_tag) := map (fun x => (x, bSTEP)) b.
Definition ones (k : nat) : list (R * bound_tag) := map (fun x => (x, BSTEP)) (repeat 1 k) ++ [(1, END)].

Lemma D_ones_at k : forall gamma o N, (gamma + k = n)%nat -> (o + N = n)%nat ->
  D o n gamma 1 (ones k) N = if (N =? 0)%nat then 1 else 0.
Proof.
  induction k as [|k IH]; intros gamma o N Hg Ho; unfold ones; cbn [repeat map app D next_b next_B].
  - rewrite (rsum_single (S N) 0); [|lia|].
    + replace (1 - 1) with 0 by ring. rewrite mono_zero. simpl Nat.eqb at 1. cbv iota.
      rewrite Nat.add_0_r, Nat.sub_0_r, Rmult_1_l.
      destruct (Nat.leb_spec gamma o), (Nat.leb_spec o n), (Nat.eqb_spec N 0); cbn [andb]; auto; lia.
    + intros j Hj Hne. replace (1 - 1) with 0 by ring. rewrite mono_zero.
      destruct (Nat.eqb_spec j 0); [lia|ring].
  - rewrite (rsum_single (S N) 0); [|lia|].
    + replace (1 - 1) with 0 by ring. rewrite mono_zero. simpl Nat.eqb at 1. cbv iota.
      rewrite Nat.add_0_r, Nat.sub_0_r, Rmult_1_l. fold (ones k). rewrite IH by lia.
      destruct (Nat.leb_spec (S gamma) o), (Nat.leb_spec o n), (Nat.eqb_spec N 0); cbn [andb]; auto; lia.
    + intros j Hj Hne. replace (1 - 1) with 0 by ring. rewrite mono_zero.
      destruct (Nat.eqb_spec j 0); [lia|ring].
Qed.

Lemma D_ones prev o : (o <= n)%nat -> D o n 0 prev (ones n) (n - o) = mono (1 - prev) (n - o).
Proof.
  intros Ho.
  assert (H : exists t r g, ones n = (1, t) :: r /\ next_b t n = n /\ g = next_B t 0 /\ (g <= n)%nat /\
     (forall o' N, (o' + N = n)%nat -> D o' n g 1 r N = if (N =? 0)%nat then 1 else 0)).
  { unfold ones. destruct n as [|m] eqn:En.
    - exists END, [], 0%nat. repeat split; auto. 
    - exists BSTEP, (map (fun x => (x, BSTEP)) (repeat 1 m) ++ [(1, END)]), 1%nat.
      repeat split; auto; [lia|]. intros o' N HN. rewrite <- En. apply (D_ones_at m); lia. }
  destruct H as (t & r & g & -> & Hb & Hg & Hgn & Hr). cbn [D]. rewrite Hb, <- Hg.
  rewrite (rsum_single (S (n - o)) (n - o)); [|lia|].
  - rewrite Hr by lia. rewrite Nat.sub_diag. simpl.
    destruct (Nat.leb_spec g (o + (n - o))), (Nat.leb_spec (o + (n - o)) n); cbn [andb]; try lia. ring.
  - intros j Hj Hne. rewrite Hr by lia. destruct (Nat.eqb_spec (n - o - j) 0); [lia|].
    destruct (_ && _)%bool; ring.
Qed.

Lemma U_D k : (k <= length b)%nat -> length b = n ->
  rsum (S n) (fun o => U k o * D o k 0 (prevloc k) (skipn k bsteps ++ ones n) (n - o)) =
  D 0 0 0 0 (bsteps ++ ones n) n.
Proof.
  intros Hk Hb. induction k as [|k IH].
  - rewrite (rsum_single (S n) 0); [|lia|].
    + simpl skipn. rewrite Nat.sub_0_r. simpl U. unfold delta. simpl Nat.eqb. cbv iota. simpl prevloc. ring.
    + intros o Ho Hne. simpl. unfold delta. destruct (Nat.eqb_spec o 0); [lia|ring].
  - rewrite <- IH by lia.
    assert (Hsk : skipn k bsteps = (bf k, bSTEP) :: skipn (S k) bsteps).
    { unfold bsteps, Bf. clear - Hk. revert k Hk. induction b as [|x l IH]; intros [|k] Hk; simpl in *; try lia; auto.
      rewrite IH by lia. reflexivity. }
    rewrite Hsk. cbn [app]. rewrite u_next_sum. cbn [next_b next_B]. reflexivity.
Qed.

Lemma h_D : length b = n -> h n 1 = D 0 0 0 0 (bsteps ++ ones n) n.
Proof.
  intros Hb. rewrite <- (U_D n) by lia.
  assert (Hsk : skipn n bsteps = []) by (apply skipn_all2; unfold bsteps; rewrite map_length; lia).
  rewrite Hsk. cbn [app]. unfold h. rewrite conv_comm. unfold conv. apply rsum_ext. intros o Ho.
  rewrite D_ones by lia. reflexivity.
Qed.

Lemma arranged_ones : valid_boundary b ->
  arranged b (repeat 1 (length b)) (bsteps ++ map (fun x => (x, BSTEP)) (repeat 1 (length b))).
Proof.
  intros [HS HF]. split; [apply Permutation_refl|]. unfold loc_sorted, bsteps. apply Sorted_strong in HS.
  generalize (length b) as k. intros k. revert HF. induction HS as [|x l HS IH Hx]; intros HF; cbn [map app].
  - induction k as [|k IH]; simpl; constructor; auto.
    apply Forall_map, Forall_forall. intros y Hy. apply repeat_spec in Hy. subst; simpl; lra.
  - inversion HF; subst. constructor; auto. apply Forall_app. split.
    + apply Forall_map. exact Hx.
    + apply Forall_map, Forall_forall. intros y Hy. apply repeat_spec in Hy. subst; simpl; lra.
Qed.

Lemma prob_is_D_b : valid_boundary b -> length b = n ->
  is_prob n (noncrossing_b b) (INR (fact n) * h n 1).
Proof.
  intros HV Hn.
  pose proof (prob_is_D b (repeat 1 (length b)) _ HV (valid_repeat 1 (length b) ltac:(lra))
     (eq_sym (repeat_length _ _)) (arranged_ones HV)) as [_ HP].
  rewrite h_D by auto. rewrite <- app_assoc in HP. rewrite Hn in HP.
  eapply is_prob_ext; [|exact HP].
  intros l Hl HF. rewrite <- Hn. apply one_sided_b; auto. lia.
Qed.
End MnsMath.
