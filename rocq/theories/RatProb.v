(** * RatProb: the exact probability for boundaries that are multiples of 1/M, computed with integers. *)
From Coquelicot Require Import Coquelicot.
From Coq Require Import ZArith Reals List Bool Lia Lra Permutation Sorted Factorial.
From Verif Require Import Base Num RSum Spec SpecFacts Cells Events XEcdf2 ExactFacts.
Import List. Import ListNotations.
Local Open Scope R_scope.

(** ** Binomial coefficients *)
Fixpoint add_lists (l r : list Z) : list Z :=
  match l, r with x :: l, y :: r => (x + y)%Z :: add_lists l r | _, _ => [] end.
Fixpoint pascal_row (m : nat) : list Z :=
  match m with O => [1%Z] | S m => let r := pascal_row m in add_lists (0%Z :: r) (r ++ [0%Z]) end.

Lemma add_lists_length l : forall r, length l = length r -> length (add_lists l r) = length l.
Proof. induction l as [|x l IH]; intros [|y r] H; simpl in *; try lia. rewrite IH; lia. Qed.
Lemma add_lists_nth l : forall r k, length l = length r -> nth k (add_lists l r) 0%Z = (nth k l 0 + nth k r 0)%Z.
Proof.
  induction l as [|x l IH]; intros [|y r] k H; simpl in *; try lia; destruct k; try reflexivity.
  apply IH. lia.
Qed.
Lemma pascal_row_length m : length (pascal_row m) = S m.
Proof.
  induction m as [|m IH]; [reflexivity|]. cbn [pascal_row]. rewrite add_lists_length; [simpl; lia|].
  rewrite app_length. simpl. lia.
Qed.
Lemma binomial_range m k : (k <= m)%nat -> Binomial.C m k = INR (fact m) / (INR (fact k) * INR (fact (m - k))).
Proof. reflexivity. Qed.
Lemma binomial_0 m : Binomial.C m 0 = 1.
Proof. unfold Binomial.C. rewrite Nat.sub_0_r. simpl (fact 0). pose proof (INR_fact_neq_0 m). simpl INR. field. exact H. Qed.
Lemma binomial_n m : Binomial.C m m = 1.
Proof. unfold Binomial.C. rewrite Nat.sub_diag. simpl (fact 0). pose proof (INR_fact_neq_0 m). simpl INR. field. exact H. Qed.
Lemma pascal_row_nth m : forall k, (k <= m)%nat -> IZR (nth k (pascal_row m) 0%Z) = Binomial.C m k.
Proof.
  induction m as [|m IH]; intros k Hk.
  - assert (k = 0)%nat as -> by lia. simpl. rewrite binomial_0. reflexivity.
  - cbn [pascal_row]. rewrite add_lists_nth by (rewrite app_length; simpl; lia).
    destruct k as [|k].
    + rewrite app_nth1 by (rewrite pascal_row_length; lia). cbn [nth]. rewrite Z.add_0_l, IH, !binomial_0 by lia. reflexivity.
    + cbn [nth]. rewrite plus_IZR, IH by lia. destruct (Nat.eq_dec k m) as [->|Hn].
      * rewrite app_nth2 by (rewrite pascal_row_length; lia). rewrite pascal_row_length, Nat.sub_diag.
        cbn [nth]. rewrite !binomial_n. lra.
      * rewrite app_nth1 by (rewrite pascal_row_length; lia). rewrite IH by lia. apply Binomial.pascal. lia.
Qed.

(** ** sum over k of c_k u_k W^(m-k) *)
Fixpoint horner (W : Z) (cs us : list Z) (acc : Z) : Z :=
  match cs, us with c :: cs, u :: us => horner W cs us (acc * W + c * u) | _, _ => acc end.
Lemma horner_sum W : forall cs us acc, (length cs <= length us)%nat ->
  IZR (horner W cs us acc) = IZR acc * IZR W ^ length cs +
    rsum (length cs) (fun k => IZR (nth k cs 0%Z) * IZR (nth k us 0%Z) * IZR W ^ (length cs - 1 - k)).
Proof.
  induction cs as [|c cs IH]; intros us acc H; [simpl; ring|]. destruct us as [|u us]; [simpl in H; lia|].
  cbn [horner]. rewrite IH by (simpl in H; lia). rewrite plus_IZR, !mult_IZR. cbn [List.length]. rewrite rsum_first. cbn [nth].
  rewrite (rsum_ext (length cs) (fun i => IZR (nth i cs 0%Z) * IZR (nth i us 0%Z) * IZR W ^ (S (length cs) - 1 - S i))
    (fun k => IZR (nth k cs 0%Z) * IZR (nth k us 0%Z) * IZR W ^ (length cs - 1 - k))).
  2:{ intros i Hi. do 2 f_equal. lia. }
  replace (S (length cs) - 1 - 0)%nat with (length cs) by lia. simpl pow. ring.
Qed.

Section Grid.
Variable M : Z.
Hypothesis HM : (0 < M)%Z.
Variable n : nat.

Definition grid (z : Z) : R := IZR z / IZR M.
Definition gridstep (s : Z * bound_tag) : R * bound_tag := (grid (fst s), snd s).

Definition advance (beta gamma : nat) (W : Z) (us : list Z) : list Z :=
  map (fun m => if ((gamma <=? m) && (m <=? beta))%nat%bool then horner W (pascal_row m) us 0 else 0%Z) (seq 0 (S n)).
Fixpoint forward (beta gamma : nat) (prev : Z) (us : list Z) (rest : list (Z * bound_tag)) : Z :=
  match rest with
  | [] => nth n us 0%Z
  | (x, t) :: rest => forward (next_b t beta) (next_B t gamma) x (advance beta (next_B t gamma) (x - prev) us) rest
  end.

Definition mass (us : list Z) (o : nat) : R := IZR (nth o us 0%Z) / (IZR M ^ o * INR (fact o)).

Lemma M_pos : 0 < IZR M.
Proof. apply IZR_lt. exact HM. Qed.
Lemma M_pow k : IZR M ^ k <> 0.
Proof. apply pow_nonzero. pose proof M_pos. lra. Qed.

Lemma advance_length beta gamma W us : length (advance beta gamma W us) = S n.
Proof. unfold advance. rewrite map_length, seq_length. reflexivity. Qed.
Lemma advance_nth beta gamma W us o : (o <= n)%nat -> nth o (advance beta gamma W us) 0%Z =
  if ((gamma <=? o) && (o <=? beta))%nat%bool then horner W (pascal_row o) us 0 else 0%Z.
Proof.
  intros Ho. unfold advance.
  set (f := fun m => if ((gamma <=? m) && (m <=? beta))%nat%bool then horner W (pascal_row m) us 0 else 0%Z).
  rewrite (nth_indep _ 0%Z (f 0%nat)) by (rewrite map_length, seq_length; lia).
  rewrite map_nth, seq_nth by lia. reflexivity.
Qed.

Lemma advance_mass x prev t beta gamma us o : length us = S n -> (o <= n)%nat ->
  u_next (grid x) (grid prev) t beta gamma (mass us) o = mass (advance beta (next_B t gamma) (x - prev) us) o.
Proof.
  intros HL Ho. unfold u_next. unfold mass at 2. rewrite advance_nth by exact Ho.
  destruct (_ && _)%bool; [|unfold Rdiv; rewrite Rmult_0_l; reflexivity].
  rewrite horner_sum by (rewrite pascal_row_length; lia). rewrite pascal_row_length, Rmult_0_l, Rplus_0_l.
  rewrite conv_comm. unfold conv, Rdiv. rewrite <- rsum_scal_r. apply rsum_ext. intros k Hk.
  rewrite pascal_row_nth by lia. unfold mass, mono, grid, Binomial.C.
  replace (S o - 1 - k)%nat with (o - k)%nat by lia.
  replace (IZR x / IZR M - IZR prev / IZR M) with (IZR (x - prev) * / IZR M) by (rewrite minus_IZR; field; pose proof M_pos; lra).
  rewrite Rpow_mult_distr, pow_inv by (pose proof M_pos; lra).
  replace (IZR M ^ o) with (IZR M ^ k * IZR M ^ (o - k)) by (rewrite <- pow_add; f_equal; lia).
  pose proof (M_pow k). pose proof (M_pow (o - k)). pose proof (INR_fact_neq_0 k). pose proof (INR_fact_neq_0 (o - k)).
  pose proof (INR_fact_neq_0 o). field. auto.
Qed.

Lemma forward_ok : forall rest beta gamma prev us, length us = S n ->
  rsum (S n) (fun o => mass us o * D o beta gamma (grid prev) (map gridstep rest) (n - o)) =
  IZR (forward beta gamma prev us rest) / (IZR M ^ n * INR (fact n)).
Proof.
  induction rest as [|[x t] rest IH]; intros beta gamma prev us HL.
  - cbn [map forward]. rewrite (rsum_single (S n) n); [|lia|].
    + cbn [D]. rewrite Nat.sub_diag. simpl (0 =? 0)%nat. cbv iota. unfold mass. ring.
    + intros i Hi Hne. cbn [D]. destruct (Nat.eqb_spec (n - i) 0); [lia|ring].
  - cbn [map forward]. unfold gridstep at 1. cbn [fst snd]. rewrite u_next_sum.
    rewrite <- IH by apply advance_length. apply rsum_ext. intros o Ho. rewrite advance_mass by lia. reflexivity.
Qed.

Lemma D_grid rest : INR (fact n) * D 0 0 0 0 (map gridstep rest) n =
  IZR (forward 0 0 0 (1%Z :: repeat 0%Z n) rest) / IZR M ^ n.
Proof.
  pose proof (forward_ok rest 0 0 0 (1%Z :: repeat 0%Z n)) as H. cbn [List.length] in H. rewrite repeat_length in H.
  specialize (H eq_refl). rewrite (rsum_single (S n) 0) in H; [|lia|].
  - unfold mass in H. cbn [nth] in H. unfold grid in H. rewrite Nat.sub_0_r in H. simpl (fact 0) in H. simpl pow in H at 1. simpl INR in H at 1.
    replace (0 / IZR M) with 0 in H by (unfold Rdiv; ring). replace (1 / (1 * 1)) with 1 in H by field. rewrite Rmult_1_l in H.
    rewrite H. pose proof (M_pow n). pose proof (INR_fact_neq_0 n). field. auto.
  - intros i Hi Hne. unfold mass. destruct i as [|i]; [congruence|]. cbn [nth].
    replace (nth i (repeat 0%Z n) 0%Z) with 0%Z; [unfold Rdiv; ring|].
    clear. revert n. induction i as [|i IH]; intros [|n]; simpl; auto.
Qed.
End Grid.

(** ** Arranging the steps *)
Fixpoint insert_step (s : Z * bound_tag) (l : list (Z * bound_tag)) : list (Z * bound_tag) :=
  match l with [] => [s] | t :: r => if (fst s <=? fst t)%Z then s :: l else t :: insert_step s r end.
Fixpoint sort_steps (l : list (Z * bound_tag)) : list (Z * bound_tag) :=
  match l with [] => [] | s :: r => insert_step s (sort_steps r) end.
Lemma insert_step_perm s l : Permutation (s :: l) (insert_step s l).
Proof.
  induction l as [|t r IH]; [reflexivity|]. simpl. destruct (_ <=? _)%Z; [reflexivity|].
  eapply perm_trans; [apply perm_swap|]. apply perm_skip. exact IH.
Qed.
Lemma sort_steps_perm l : Permutation l (sort_steps l).
Proof. induction l as [|s r IH]; [constructor|]. simpl. eapply perm_trans; [apply perm_skip, IH|apply insert_step_perm]. Qed.
Lemma sort_steps_sorted l : StronglySorted (fun s t => (fst s <= fst t)%Z) (sort_steps l).
Proof.
  induction l as [|s r IH]; [constructor|]. simpl. induction (sort_steps r) as [|t q IHq]; [repeat constructor|].
  simpl. inversion IH as [|? ? S F]; subst. destruct (Z.leb_spec (fst s) (fst t)) as [L|L].
  - constructor; [exact IH|]. constructor; [exact L|]. eapply Forall_impl; [|exact F]. simpl. intros; lia.
  - constructor; [apply IHq; exact S|]. eapply Permutation_Forall; [apply insert_step_perm|]. constructor; [lia|exact F].
Qed.

(** The number of grid paths; the probability is that number over M^n. *)
Definition grid_count (M : Z) (zb zB : list Z) : Z :=
  forward (length zb) 0 0 0 (1%Z :: repeat 0%Z (length zb))
    (sort_steps (map (fun z => (z, bSTEP)) zb ++ map (fun z => (z, BSTEP)) zB) ++ [(M, END)]).
Fixpoint increasing (lo hi : Z) (l : list Z) : bool :=
  match l with [] => (lo <=? hi)%Z | z :: r => (lo <=? z)%Z && increasing z hi r end.

Lemma increasing_bounds hi : forall l lo, increasing lo hi l = true -> Forall (fun z => lo <= z <= hi)%Z l /\ (lo <= hi)%Z.
Proof.
  induction l as [|z r IH]; intros lo H; simpl in H.
  - split; [constructor|]. apply Z.leb_le. exact H.
  - apply andb_true_iff in H as [H1 H2]. apply Z.leb_le in H1. destruct (IH z H2) as [F L]. split; [|lia].
    constructor; [lia|]. eapply Forall_impl; [|exact F]. simpl. intros; lia.
Qed.
Lemma increasing_valid M l : (0 < M)%Z -> increasing 0 M l = true -> valid_boundary (map (grid M) l).
Proof.
  intros HM H. pose proof (IZR_lt 0 M HM) as PM. split.
  - assert (G : forall l lo, increasing lo M l = true -> Sorted Rle (map (grid M) l) /\ (forall z, (z <= lo)%Z -> HdRel Rle (grid M z) (map (grid M) l))).
    { clear - PM. induction l as [|z r IH]; intros lo H; simpl in *; [split; constructor|]. apply andb_true_iff in H as [H1 H2]. apply Z.leb_le in H1.
      destruct (IH z H2) as [S R]. split; [constructor; [exact S|apply R; lia]|]. intros y Hy. constructor. unfold grid, Rdiv.
      apply Rmult_le_compat_r; [left; apply Rinv_0_lt_compat; exact PM|apply IZR_le; lia]. }
    apply (G l 0%Z H).
  - destruct (increasing_bounds M l 0 H) as [F _]. apply Forall_map. eapply Forall_impl; [|exact F]. simpl. intros z Hz. unfold grid, Rdiv. split.
    + apply Rmult_le_pos; [apply IZR_le; lia|left; apply Rinv_0_lt_compat; exact PM].
    + apply Rmult_le_reg_r with (IZR M); [exact PM|]. rewrite Rmult_assoc, Rinv_l, Rmult_1_r, Rmult_1_l by lra. apply IZR_le. lia.
Qed.

Theorem grid_prob M zb zB : (0 < M)%Z -> increasing 0 M zb = true -> increasing 0 M zB = true -> length zb = length zB ->
  is_noncrossing_probability (map (grid M) zb) (map (grid M) zB) (IZR (grid_count M zb zB) / IZR M ^ length zb).
Proof.
  intros HM Hb HB HL. pose proof (IZR_lt 0 M HM) as PM.
  set (steps := sort_steps (map (fun z => (z, bSTEP)) zb ++ map (fun z => (z, BSTEP)) zB)).
  pose proof (prob_is_D (map (grid M) zb) (map (grid M) zB) (map (gridstep M) steps)
    (increasing_valid M zb HM Hb) (increasing_valid M zB HM HB)) as H.
  rewrite !map_length in H. specialize (H HL). unfold grid_count. fold steps. rewrite <- (D_grid M HM).
  rewrite map_app. cbn [map]. unfold gridstep at 2. cbn [fst snd]. unfold grid at 3.
  replace (IZR M / IZR M) with 1 by (field; lra). apply H. split.
  - rewrite !map_map. eapply perm_trans; [|apply Permutation_map; apply sort_steps_perm]. rewrite map_app, !map_map. apply Permutation_refl.
  - unfold loc_sorted. pose proof (sort_steps_sorted (map (fun z => (z, bSTEP)) zb ++ map (fun z => (z, BSTEP)) zB)) as S. fold steps in S.
    clear - S PM. induction S as [|s l S IH F]; [constructor|]. cbn [map]. constructor; [exact IH|].
    apply Forall_map. eapply Forall_impl; [|exact F]. simpl. intros t Ht. unfold grid, Rdiv.
    apply Rmult_le_compat_r; [left; apply Rinv_0_lt_compat; exact PM|apply IZR_le; exact Ht].
Qed.
