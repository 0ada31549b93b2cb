(** * McEstimate: the number of crossing simulations is binomially distributed. *)
From Coquelicot Require Import Coquelicot.
From Coq Require Import ZArith Reals List Bool Lia Lra Permutation Sorted Factorial.
From Verif Require Import Base Num XReal TinyMT MonteCarlo RSum Spec SpecFacts OrderVol UniformWalk ProbSums McSpec McProbSpec McFacts McLoop McMore McPoissonProb McEcdfProb.
Import List. Import ListNotations.
Local Open Scope R_scope.

(** ** Independent blocks of uniforms *)
Lemma is_prob_product n : forall m (A X : list R -> Prop) p q, is_prob n A p -> is_prob m X q ->
  is_prob (n + m) (fun l => A (firstn n l) /\ X (skipn n l)) (p * q).
Proof.
  induction n as [|n IH]; intros m A X p q; cbn [is_prob Nat.add].
  - intros [(H & ->)|(H & ->)] HX; simpl.
    + rewrite Rmult_1_l. eapply is_prob_ext; [|exact HX]. intros; tauto.
    + rewrite Rmult_0_l. apply is_prob_empty. tauto.
  - intros (f & Hf & If) HX. exists (fun x => q * f x). split.
    + intros x Hx. rewrite Rmult_comm. cbn [firstn skipn]. apply (IH m (fun l => A (x :: l)) X (f x) q); auto.
    + rewrite Rmult_comm. exact (is_RInt_scal f 0 1 q p If).
Qed.

Lemma is_prob_diff n (A1 A2 : list R -> Prop) p1 p2 :
  (forall l, length l = n -> Forall (fun x : R => 0 <= x <= 1) l -> A1 l -> A2 l) ->
  is_prob n A1 p1 -> is_prob n A2 p2 -> is_prob n (fun l => A2 l /\ ~ A1 l) (p2 - p1).
Proof.
  intros H H1 H2. replace (p2 - p1) with (1 - ((1 - p2) + p1)) by ring.
  eapply is_prob_ext; [|apply is_prob_not, is_prob_or; [|apply is_prob_not; exact H2|exact H1]].
  - intros l Hl Hr. simpl. specialize (H l Hl Hr). split; [|tauto]. intros N. destruct (Classical_Prop.classic (A2 l)); tauto.
  - intros l Hl Hr (N & Y). apply N. auto.
Qed.

Lemma has_prob_range n A p : has_prob n A p -> 0 <= p <= 1.
Proof.
  intros H. split; apply le_epsilon; intros eps He; destruct (H eps He) as (A1 & A2 & p1 & p2 & _ & _ & P1 & P2 & E1 & E2).
  - apply is_prob_range in P2. lra.
  - apply is_prob_range in P1. lra.
Qed.

Lemma Forall_firstn_R (P : R -> Prop) k l : Forall P l -> Forall P (firstn k l).
Proof. intros H. rewrite <- (firstn_skipn k l) in H. apply Forall_app in H. apply H. Qed.
Lemma Forall_skipn_R (P : R -> Prop) k l : Forall P l -> Forall P (skipn k l).
Proof. intros H. rewrite <- (firstn_skipn k l) in H. apply Forall_app in H. apply H. Qed.

(** A first block decides which event of the remaining ones counts. *)
Theorem has_prob_case n m (A X Y : list R -> Prop) p x y : has_prob n A p -> has_prob m X x -> has_prob m Y y ->
  has_prob (n + m) (fun l => (A (firstn n l) /\ X (skipn n l)) \/ (~ A (firstn n l) /\ Y (skipn n l))) (p * x + (1 - p) * y).
Proof.
  intros HA HX HY eps He.
  pose proof (has_prob_range _ _ _ HA) as Rp. pose proof (has_prob_range _ _ _ HX) as Rx. pose proof (has_prob_range _ _ _ HY) as Ry.
  set (e := eps / 6). assert (He' : 0 < e) by (unfold e; lra).
  destruct (HA e He') as (A1 & A2 & p1 & p2 & IA1 & IA2 & PA1 & PA2 & EA1 & EA2).
  destruct (HX e He') as (X1 & X2 & x1 & x2 & IX1 & IX2 & PX1 & PX2 & EX1 & EX2).
  destruct (HY e He') as (Y1 & Y2 & y1 & y2 & IY1 & IY2 & PY1 & PY2 & EY1 & EY2).
  assert (I12 : forall l, length l = n -> Forall (fun x : R => 0 <= x <= 1) l -> A1 l -> A2 l) by (intros; auto).
  assert (M12 : p1 <= p2) by (eapply is_prob_mono; [|exact PA1|exact PA2]; auto).
  pose proof (is_prob_range _ _ _ PA1) as Rp1. pose proof (is_prob_range _ _ _ PA2) as Rp2.
  pose proof (is_prob_range _ _ _ PX1) as Rx1. pose proof (is_prob_range _ _ _ PX2) as Rx2.
  pose proof (is_prob_range _ _ _ PY1) as Ry1. pose proof (is_prob_range _ _ _ PY2) as Ry2.
  assert (LEN : forall l : list R, length l = (n + m)%nat -> length (firstn n l) = n /\ length (skipn n l) = m).
  { intros l Hl. rewrite firstn_length, skipn_length. lia. }
  exists (fun l => (A1 (firstn n l) /\ X1 (skipn n l)) \/ (~ A2 (firstn n l) /\ Y1 (skipn n l))).
  exists (fun l => ((A1 (firstn n l) /\ X2 (skipn n l)) \/ (~ A2 (firstn n l) /\ Y2 (skipn n l))) \/
                   ((A2 (firstn n l) /\ ~ A1 (firstn n l)) /\ True)).
  exists (p1 * x1 + (1 - p2) * y1), (p1 * x2 + (1 - p2) * y2 + (p2 - p1) * 1).
  split; [|split; [|split; [|split; [|split]]]].
  - intros l Hl Hr. destruct (LEN l Hl) as (L1 & L2).
    pose proof (Forall_firstn_R _ n l Hr) as F1. pose proof (Forall_skipn_R _ n l Hr) as F2.
    intros [(Ha & Hx)|(Ha & Hy)]; [left|right]; split; auto.
  - intros l Hl Hr. destruct (LEN l Hl) as (L1 & L2).
    pose proof (Forall_firstn_R _ n l Hr) as F1. pose proof (Forall_skipn_R _ n l Hr) as F2.
    destruct (Classical_Prop.classic (A1 (firstn n l))) as [C1|C1].
    + intros [(Ha & Hx)|(Ha & Hy)]; [left; left; auto|]. exfalso. apply Ha. auto.
    + destruct (Classical_Prop.classic (A2 (firstn n l))) as [C2|C2]; [intros; right; auto|].
      intros [(Ha & Hx)|(Ha & Hy)]; [exfalso; auto|left; right; auto].
  - apply is_prob_or.
    + intros l Hl Hr ((H1 & _) & (H2 & _)). destruct (LEN l Hl) as (L1 & L2). apply H2. apply I12; auto. apply Forall_firstn_R; auto.
    + apply is_prob_product; auto.
    + apply (is_prob_product n m (fun l => ~ A2 l) Y1); auto. apply is_prob_not. auto.
  - apply is_prob_or.
    + intros l Hl Hr ([(H1 & _)|(H1 & _)] & (H2 & _)); tauto.
    + apply is_prob_or.
      * intros l Hl Hr ((H1 & _) & (H2 & _)). destruct (LEN l Hl) as (L1 & L2). apply H2. apply I12; auto. apply Forall_firstn_R; auto.
      * apply is_prob_product; auto.
      * apply (is_prob_product n m (fun l => ~ A2 l) Y2); auto. apply is_prob_not. auto.
    + apply (is_prob_product n m (fun l => A2 l /\ ~ A1 l) (fun _ => True)); [apply is_prob_diff; auto|apply is_prob_full; auto].
  - assert (p * (x - x1) <= p * e) by (apply Rmult_le_compat_l; lra). assert (p * e <= 1 * e) by (apply Rmult_le_compat_r; lra).
    assert ((p - p1) * x1 <= e * x1) by (apply Rmult_le_compat_r; lra). assert (e * x1 <= e * 1) by (apply Rmult_le_compat_l; lra).
    assert ((1 - p) * (y - y1) <= (1 - p) * e) by (apply Rmult_le_compat_l; lra). assert ((1 - p) * e <= 1 * e) by (apply Rmult_le_compat_r; lra).
    assert ((p2 - p) * y1 <= e * y1) by (apply Rmult_le_compat_r; lra). assert (e * y1 <= e * 1) by (apply Rmult_le_compat_l; lra).
    unfold e in *. lra.
  - assert (p1 * (x2 - x) <= p1 * e) by (apply Rmult_le_compat_l; lra). assert (p1 * e <= 1 * e) by (apply Rmult_le_compat_r; lra).
    assert ((p1 - p) * x <= e * x).
    { apply Rmult_le_compat_r; [lra|]. assert (p1 <= p + e); [|lra]. lra. }
    assert (e * x <= e * 1) by (apply Rmult_le_compat_l; lra).
    assert ((1 - p2) * (y2 - y) <= (1 - p2) * e) by (apply Rmult_le_compat_l; lra). assert ((1 - p2) * e <= 1 * e) by (apply Rmult_le_compat_r; lra).
    assert ((p - p2) * y <= e * y).
    { apply Rmult_le_compat_r; [lra|]. assert (p - e <= p2); [|lra]. lra. }
    assert (e * y <= e * 1) by (apply Rmult_le_compat_l; lra).
    unfold e in *. lra.
Qed.

(** ** Counting crossings *)
(** the mean of g(K) for a binomial K: num trials, success probability 1 - p *)
Fixpoint binom (p : R) (num : nat) (g : nat -> R) : R :=
  match num with
  | O => g O
  | S num => p * binom p num g + (1 - p) * binom p num (fun j => g (S j))
  end.

Definition ncross (cs : list bool) : nat := length (filter (fun c => c) cs).

Theorem count_law k A p : has_prob k A p -> forall num (Q : nat -> bool),
  has_prob (num * k) (fun us => exists cs, length cs = num /\ outcomes k A cs us /\ Q (ncross cs) = true)
    (binom p num (fun j => if Q j then 1 else 0)).
Proof.
  intros HA. induction num as [|num IH]; intros Q.
  - apply is_prob_has_prob. cbn [Nat.mul binom is_prob]. destruct (Q 0%nat) eqn:E.
    + left. split; auto. exists []. simpl. auto.
    + right. split; auto. intros (cs & L & _ & H). destruct cs; [|discriminate]. change (Q 0%nat = true) in H. congruence.
  - cbn [Nat.mul binom].
    eapply has_prob_ext; [|apply (has_prob_case k (num * k) A _ _ p _ _ HA (IH Q) (IH (fun j => Q (S j))))].
    intros us _ _. split.
    + intros [(Ha & cs & L & O & H)|(Ha & cs & L & O & H)].
      * exists (false :: cs). simpl. repeat split; auto.
      * exists (true :: cs). simpl. repeat split; auto; intros; [discriminate|tauto].
    + intros (cs & L & O & H). destruct cs as [|c cs]; [discriminate|]. simpl in L, O. destruct O as (O1 & O2).
      destruct c.
      * right. split; [intros Ha; apply O1 in Ha; discriminate|]. exists cs. split; [lia|]. split; auto.
      * left. split; [apply O1; auto|]. exists cs. split; [lia|]. split; auto.
Qed.

Lemma binom_ext p num : forall g h, (forall j, (j <= num)%nat -> g j = h j) -> binom p num g = binom p num h.
Proof.
  induction num as [|num IH]; intros g h H; simpl; [apply H; lia|].
  rewrite (IH g h), (IH (fun j => g (S j)) (fun j => h (S j))); auto; intros; apply H; lia.
Qed.
Lemma binom_lin p num : forall g h a, binom p num (fun j => g j + a * h j) = binom p num g + a * binom p num h.
Proof. induction num as [|num IH]; intros g h a; simpl; [ring|]. rewrite (IH g h a), (IH (fun j => g (S j)) (fun j => h (S j)) a). ring. Qed.
Lemma binom_const p num : forall c, binom p num (fun _ => c) = c.
Proof. induction num as [|num IH]; intros c; simpl; [reflexivity|]. rewrite IH. ring. Qed.
Lemma binom_mono p num : 0 <= p <= 1 -> forall g h, (forall j, (j <= num)%nat -> g j <= h j) -> binom p num g <= binom p num h.
Proof.
  intros Hp. induction num as [|num IH]; intros g h H; simpl; [apply H; lia|].
  apply Rplus_le_compat; apply Rmult_le_compat_l; try lra; apply IH; intros; apply H; lia.
Qed.

(** one outcome count has the usual binomial probability *)
Lemma C_S_0 n : C n 0 = 1.
Proof. unfold C. simpl. rewrite Nat.sub_0_r. field. apply fact_neq. Qed.
Lemma C_n_n n : C n n = 1.
Proof. unfold C. rewrite Nat.sub_diag. simpl. field. apply fact_neq. Qed.

Lemma binom_point p num : forall j, (j <= num)%nat ->
  binom p num (fun i => if (i =? j)%nat then 1 else 0) = C num j * (1 - p) ^ j * p ^ (num - j).
Proof.
  assert (Z : forall num j, (num < j)%nat -> binom p num (fun i => if (i =? j)%nat then 1 else 0) = 0).
  { intros m j H. rewrite (binom_ext p m _ (fun _ => 0)); [apply binom_const|].
    intros i Hi. destruct (Nat.eqb_spec i j); [lia|reflexivity]. }
  induction num as [|num IH]; intros j Hj.
  - replace j with 0%nat by lia. simpl. rewrite C_S_0. ring.
  - cbn [binom]. destruct j as [|j].
    + rewrite IH by lia. rewrite (binom_ext p num (fun i => if (S i =? 0)%nat then 1 else 0) (fun _ => 0)) by auto.
      rewrite binom_const, !C_S_0, !Nat.sub_0_r. simpl. ring.
    + change (fun i => if (S i =? S j)%nat then 1 else 0) with (fun i => if (i =? j)%nat then 1 else 0).
      rewrite (IH j) by lia. destruct (Nat.eq_dec j num) as [->|NE].
      * rewrite Z by lia. rewrite !C_n_n. replace (S num - S num)%nat with 0%nat by lia. rewrite Nat.sub_diag. simpl. ring.
      * rewrite (IH (S j)) by lia. rewrite <- pascal by lia.
        replace (num - j)%nat with (S (num - S j)) by lia. replace (S num - S j)%nat with (S (num - S j)) by lia. simpl. ring.
Qed.

(** mean and variance *)
Lemma binom_mean p num : forall a, binom p num (fun j => INR j + a) = INR num * (1 - p) + a.
Proof.
  induction num as [|num IH]; intros a; [simpl; ring|]. cbn [binom]. rewrite IH.
  rewrite (binom_ext p num (fun j => INR (S j) + a) (fun j => INR j + (a + 1))) by (intros; rewrite S_INR; ring).
  rewrite IH, S_INR. ring.
Qed.
Lemma binom_square p num : forall a, binom p num (fun j => (INR j + a) ^ 2) = (INR num * (1 - p) + a) ^ 2 + INR num * (p * (1 - p)).
Proof.
  induction num as [|num IH]; intros a; [simpl; ring|]. cbn [binom]. rewrite IH.
  rewrite (binom_ext p num (fun j => (INR (S j) + a) ^ 2) (fun j => (INR j + (a + 1)) ^ 2)) by (intros; rewrite S_INR; ring).
  rewrite IH, S_INR. ring.
Qed.

Lemma chebyshev p num eps : 0 <= p <= 1 -> 0 < eps -> (1 <= num)%nat ->
  binom p num (fun j => if Rlt_dec eps (Rabs (INR j / INR num - (1 - p))) then 1 else 0) <= p * (1 - p) / (INR num * eps ^ 2).
Proof.
  intros Hp He Hn. assert (N0 : 0 < INR num) by (apply lt_0_INR; lia).
  set (c := INR num * eps). assert (C0 : 0 < c) by (apply Rmult_lt_0_compat; auto).
  apply Rle_trans with (binom p num (fun j => 0 + / c ^ 2 * (INR j + - (INR num * (1 - p))) ^ 2)).
  - apply binom_mono; auto. intros j _. destruct (Rlt_dec eps (Rabs (INR j / INR num - (1 - p)))) as [H|H].
    + assert (G : c <= Rabs (INR j + - (INR num * (1 - p)))).
      { replace (INR j + - (INR num * (1 - p))) with (INR num * (INR j / INR num - (1 - p))) by (field; lra).
        rewrite Rabs_mult, (Rabs_right (INR num)) by lra. unfold c. apply Rmult_le_compat_l; lra. }
      rewrite Rplus_0_l. apply Rmult_le_reg_l with (c ^ 2); [apply pow_lt; auto|].
      rewrite <- Rmult_assoc, Rinv_r, Rmult_1_l, Rmult_1_r by (apply pow_nonzero; lra).
      rewrite <- (pow2_abs (INR j + - (INR num * (1 - p)))). apply pow_incr. lra.
    + rewrite Rplus_0_l. apply Rmult_le_pos; [left; apply Rinv_0_lt_compat, pow_lt; auto|apply pow2_ge_0].
  - rewrite (binom_lin p num (fun _ => 0)), binom_const, binom_square. unfold c. right. field. split; lra.
Qed.

(** ** The law of the estimate *)
Theorem crossings_binomial b B p num j : valid_boundary b -> valid_boundary B -> is_noncrossing_probability b B p -> (j <= num)%nat ->
  has_prob (num * S (length b))
    (fun us => exists cs, length cs = num /\ outcomes (S (length b)) (ecdf_inside b B) cs us /\ crossings cs = Z.of_nat j)
    (C num j * (1 - p) ^ j * p ^ (num - j)).
Proof.
  intros Vb VB Hp Hj. rewrite <- binom_point by auto.
  eapply has_prob_ext; [|apply (count_law _ _ _ (ecdf_inside_prob b B p Vb VB Hp) num (fun i => (i =? j)%nat))].
  intros us _ _. unfold crossings, ncross. split; intros (cs & L & O & H); exists cs; split; auto; split; auto.
  - apply Nat.eqb_eq in H. congruence.
  - apply Nat.eqb_eq. lia.
Qed.

Theorem estimate_close b B p num eps : valid_boundary b -> valid_boundary B -> is_noncrossing_probability b B p -> (1 <= num)%nat -> 0 < eps ->
  exists q, q <= p * (1 - p) / (INR num * eps ^ 2) /\
  has_prob (num * S (length b))
    (fun us => exists cs, length cs = num /\ outcomes (S (length b)) (ecdf_inside b B) cs us /\
       eps < Rabs (IZR (crossings cs) / INR num - (1 - p))) q.
Proof.
  intros Vb VB Hp Hn He. pose proof (has_prob_range _ _ _ (ecdf_inside_prob b B p Vb VB Hp)) as Rp.
  eexists. split; [apply (chebyshev p num eps Rp He Hn)|].
  eapply has_prob_ext; [|pose proof (count_law _ _ _ (ecdf_inside_prob b B p Vb VB Hp) num
    (fun j => if Rlt_dec eps (Rabs (INR j / INR num - (1 - p))) then true else false)) as H].
  2:{ rewrite (binom_ext p num _ (fun j => if Rlt_dec eps (Rabs (INR j / INR num - (1 - p))) then 1 else 0)) in H; [exact H|].
      intros j _. destruct Rlt_dec; reflexivity. }
  intros us _ _. split; intros (cs & L & O & H); exists cs; split; auto; split; auto.
  - destruct Rlt_dec as [G|G]; [|discriminate]. unfold crossings. rewrite <- INR_IZR_INZ. exact G.
  - unfold crossings in H. rewrite <- INR_IZR_INZ in H. destruct Rlt_dec; auto.
Qed.

(** ** The program *)
Section Code.
Context {frexp : xr -> Z}.
Notation XN := (Xnum frexp).

Lemma ordered_sample_is (us x : list R) n : length us = S n -> length x = n ->
  (forall k, (k < length x)%nat -> nth k x 0 = total (map (fun u => - ln u) (firstn (S k) us)) / total (map (fun u => - ln u) us)) ->
  x = ordered_sample us.
Proof.
  intros L Lx H. apply (nth_ext _ _ 0 0); [rewrite (sample_length n); auto|].
  intros k Hk. rewrite H by auto. rewrite (sample_nth n) by lia. rewrite firstn_map. reflexivity.
Qed.

Theorem ecdf_decides (b B us : list R) n r r1 : Forall (fun u => 0 < u < 1) us -> length us = S n -> (1 <= n)%nat ->
  draws (N := XN) r (map Fin us) r1 ->
  exists c, does_random_ecdf_cross (N := XN) (map Fin b) (map Fin B) n r = Ok (c, r1) /\ (c = false <-> ecdf_inside b B us).
Proof.
  intros F L Hn D. destruct (ecdf_simulation (frexp := frexp) b B us r r1 F ltac:(lia) D) as (x & c & H & Lx & _ & _ & V & S).
  replace (length us - 1)%nat with n in * by lia. exists c. split; auto.
  unfold ecdf_inside. rewrite <- (ordered_sample_is us x n); auto.
Qed.

Lemma filter_le (cs : list bool) : (length (filter (fun c => c) cs) <= length cs)%nat.
Proof. induction cs as [|[] cs IH]; simpl; lia. Qed.

Lemma simulations_det sim : forall r cs cs', simulations sim r cs -> simulations sim r cs' -> length cs = length cs' -> cs = cs'.
Proof.
  intros r cs cs' H. revert cs'. induction H as [|r c r1 cs E H IH]; intros cs' H' L.
  - destruct cs'; [reflexivity|discriminate].
  - inversion H' as [|? c' r1' cs0 E' H0]; subst; [discriminate|]. rewrite E in E'. injection E' as <- <-.
    f_equal. apply IH; auto.
Qed.

Lemma block_simulations (b B : list R) n : (1 <= n)%nat -> forall num us r r1, Forall (fun u => 0 < u < 1) us ->
  length us = (num * S n)%nat -> draws (N := XN) r (map Fin us) r1 ->
  exists cs, length cs = num /\ outcomes (S n) (ecdf_inside b B) cs us /\
    simulations (does_random_ecdf_cross (N := XN) (map Fin b) (map Fin B) n) r cs.
Proof.
  intros Hn. induction num as [|num IH]; intros us r r1 F L D.
  - exists []. repeat split; auto. constructor.
  - cbn [Nat.mul] in L.
    rewrite <- (firstn_skipn (S n) us), map_app in D. destruct (draws_split _ _ _ _ D) as (r2 & D1 & D2).
    destruct (ecdf_decides b B (firstn (S n) us) n r r2) as (c & E & HC); auto.
    { apply Forall_firstn_R; auto. }
    { apply firstn_length_le. lia. }
    destruct (IH (skipn (S n) us) r2 r1) as (cs & Lc & O & S); auto.
    { apply Forall_skipn_R; auto. }
    { rewrite skipn_length. lia. }
    exists (c :: cs). simpl length. split; [lia|]. split; [split; auto|]. econstructor; eauto.
Qed.

Theorem estimate_program (b B us : list R) (n num : nat) uninit now r1 : (1 <= n)%nat -> (length B <= n)%nat ->
  b = [] \/ (n <= length b)%nat -> (1 <= num)%nat -> (Z.of_nat num <= INT_MAX)%Z ->
  Forall (fun u => 0 < u < 1) us -> length us = (num * S n)%nat ->
  draws (N := XN) (rng_make uninit (now + Z.of_nat n * 2 ^ 20)) (map Fin us) r1 ->
  exists cs, length cs = num /\ outcomes (S n) (ecdf_inside b B) cs us /\
    forall fuel, (num <= fuel)%nat ->
      ecdf_crossing_probability_montecarlo (N := XN) fuel uninit now (Z.of_nat n) (map Fin b) (map Fin B) (Z.of_nat num) =
        Ok (Fin (IZR (crossings cs) / INR num)).
Proof.
  intros Hn HB Hb H1 H2 F L D.
  destruct (block_simulations b B n Hn num us _ r1 F L D) as (cs & Lc & O & S).
  destruct (ecdf_estimate (N := XN) uninit now (Z.of_nat n) (map Fin b) (map Fin B) (Z.of_nat num)) as (cs' & Lc' & S' & R).
  - lia.
  - rewrite size_Fin. lia.
  - destruct Hb as [->|Hb]; [left; reflexivity|right]. rewrite size_Fin. lia.
  - lia.
  - rewrite Nat2Z.id in S', R. assert (E : cs' = cs) by (eapply simulations_det; eauto; lia). subst cs'.
    exists cs. split; auto. split; auto. intros fuel Hf. rewrite (R fuel Hf). f_equal.
    destruct (frequency_exact (frexp := frexp) (crossings cs) (Z.of_nat num)) as (E & _); [|lia|].
    + unfold crossings. pose proof (filter_le cs). lia.
    + rewrite E, INR_IZR_INZ. reflexivity.
Qed.
End Code.
