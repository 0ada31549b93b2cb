(** * Cells: the probability of the non-crossing event as a finite recursion.

    The breakpoints b_i, B_i cut [0,1] into cells; the event only depends on how many
    sample points fall into each cell.  The result of this file is [prob_is_D]: the
    probability is n! * D, where D is defined by recursion over the breakpoints. *)
From Coquelicot Require Import Coquelicot.
From Coq Require Import Reals List Permutation Sorted Lia Lra Arith Factorial.
From Verif Require Import Spec SpecFacts RSum Num.
Import ListNotations.
Local Open Scope R_scope.

Section Msum.
Context {S : Type}.

Fixpoint wsum (cs : list (R * S)) (g : S -> R) : R :=
  match cs with
  | [] => 0
  | (w, s) :: r => w * g s + wsum r g
  end.

Fixpoint msum (cs : list (R * S)) (n : nat) (f : list S -> R) : R :=
  match n with
  | O => f []
  | Datatypes.S n => wsum cs (fun s => msum cs n (fun l => f (s :: l)))
  end.

Lemma wsum_ext cs g h : (forall s, In s (map snd cs) -> g s = h s) -> wsum cs g = wsum cs h.
Proof.
  induction cs as [|[w s] cs IH]; intros H; simpl; auto.
  rewrite (H s) by (simpl; auto). rewrite IH; auto. intros; apply H; simpl; auto.
Qed.

Lemma wsum_plus cs g h : wsum cs (fun s => g s + h s) = wsum cs g + wsum cs h.
Proof. induction cs as [|[w s] cs IH]; simpl; [ring|]. rewrite IH. ring. Qed.

Lemma wsum_scal cs c g : wsum cs (fun s => c * g s) = c * wsum cs g.
Proof. induction cs as [|[w s] cs IH]; simpl; [ring|]. rewrite IH. ring. Qed.

Lemma wsum_rsum cs n (g : S -> nat -> R) :
  wsum cs (fun s => rsum n (g s)) = rsum n (fun i => wsum cs (fun s => g s i)).
Proof.
  induction n as [|n IH]; simpl.
  - induction cs as [|[w s] cs IH']; simpl; [auto|]. rewrite IH'. ring.
  - rewrite wsum_plus, IH. reflexivity.
Qed.

Lemma msum_ext cs n : forall f g,
  (forall l, length l = n -> Forall (fun s => In s (map snd cs)) l -> f l = g l) ->
  msum cs n f = msum cs n g.
Proof.
  induction n as [|n IH]; intros f g H; simpl; auto.
  apply wsum_ext. intros s Hs. apply IH. intros l Hl HF. apply H; simpl; auto.
Qed.

Lemma msum_0 cs n : forall f,
  (forall l, length l = n -> Forall (fun s => In s (map snd cs)) l -> f l = 0) -> msum cs n f = 0.
Proof.
  intros f H. rewrite (msum_ext cs n f (fun _ => 0)) by auto.
  clear. induction n as [|n IH]; simpl; auto.
  rewrite (wsum_ext _ _ (fun s => 0 * 0)); [rewrite wsum_scal; ring|]. intros; rewrite IH; ring.
Qed.

(** Splitting off the first cell: j of the n points fall into it. *)
Lemma msum_split w s cs n : forall f,
  (forall l l', Permutation l l' -> f l = f l') ->
  msum ((w, s) :: cs) n f =
  rsum (Datatypes.S n) (fun j => C n j * w ^ j * msum cs (n - j) (fun l => f (repeat s j ++ l))).
Proof.
  induction n as [|n IH]; intros f Hf.
  - simpl. unfold C; simpl. field.
  - cbn [msum wsum].
    rewrite (IH (fun l => f (s :: l))) by (intros; apply Hf; auto).
    rewrite (wsum_ext cs _ (fun s' => rsum (Datatypes.S n) (fun j => C n j * w ^ j *
        msum cs (n - j) (fun l => f (repeat s j ++ s' :: l))))).
    2:{ intros s' Hs'. rewrite (IH (fun l => f (s' :: l))) by (intros; apply Hf; auto).
        apply rsum_ext. intros j Hj. f_equal. apply msum_ext. intros l _ _. apply Hf.
        apply Permutation_middle. }
    rewrite wsum_rsum.
    rewrite (rsum_ext (Datatypes.S n)
      (fun i => wsum cs (fun s' => C n i * w ^ i * msum cs (n - i) (fun l => f (repeat s i ++ s' :: l))))
      (fun j => C n j * w ^ j * msum cs (Datatypes.S n - j) (fun l => f (repeat s j ++ l)))).
    2:{ intros j Hj.
        rewrite (wsum_scal cs (C n j * w ^ j) (fun s' => msum cs (n - j) (fun l => f (repeat s j ++ s' :: l)))).
        f_equal.
        replace (Datatypes.S n - j)%nat with (Datatypes.S (n - j)) by lia. reflexivity. }
    set (M j := msum cs (Datatypes.S n - j) (fun l => f (repeat s j ++ l))).
    change (w * rsum (Datatypes.S n) (fun j => C n j * w ^ j * msum cs (n - j) (fun l => f (s :: repeat s j ++ l)))
            + rsum (Datatypes.S n) (fun j => C n j * w ^ j * M j)
            = rsum (Datatypes.S (Datatypes.S n)) (fun j => C (Datatypes.S n) j * w ^ j * M j)).
    rewrite <- rsum_scal.
    rewrite (rsum_ext (Datatypes.S n) (fun i => w * _) (fun j => C n j * w ^ (Datatypes.S j) * M (Datatypes.S j))).
    2:{ intros j Hj. unfold M. replace (Datatypes.S n - Datatypes.S j)%nat with (n - j)%nat by lia.
        simpl. ring. }
    rewrite (rsum_first (Datatypes.S n) (fun j => C (Datatypes.S n) j * w ^ j * M j)).
    rewrite (rsum_first n (fun j => C n j * w ^ j * M j)).
    rewrite !rsum_S.
    rewrite (rsum_ext n (fun i => C (Datatypes.S n) (Datatypes.S i) * w ^ Datatypes.S i * M (Datatypes.S i))
       (fun j => C n j * w ^ (Datatypes.S j) * M (Datatypes.S j) + C n (Datatypes.S j) * w ^ (Datatypes.S j) * M (Datatypes.S j))).
    2:{ intros j Hj. rewrite <- (pascal n j) by lia. ring. }
    rewrite rsum_plus.
    replace (C (Datatypes.S n) (Datatypes.S n)) with (C n n) by (rewrite !C_n_n; reflexivity).
    replace (C (Datatypes.S n) 0) with (C n 0).
    2:{ unfold C. rewrite !Nat.sub_0_r. field. repeat split; apply fact_neq. }
    fold M. ring.
Qed.
End Msum.

(** If the event is a function of the labels kappa x_i, and integrals of functions of the
    label are weighted sums over the cells, its probability is a multiple sum. *)
Lemma is_prob_classifier {S} (kappa : R -> S) (cs : list (R * S)) :
  (forall g : S -> R, is_RInt (fun x => g (kappa x)) 0 1 (wsum cs g)) ->
  forall n (A : list R -> Prop) (f : list S -> R),
  (forall l, length l = n -> Forall (fun x : R => 0 <= x <= 1) l ->
     (A l /\ f (map kappa l) = 1) \/ (~ A l /\ f (map kappa l) = 0)) ->
  is_prob n A (msum cs n f).
Proof.
  intros Hint n; induction n as [|n IH]; intros A f H; cbn [is_prob msum].
  - apply (H []); auto.
  - exists (fun x => msum cs n (fun l => f (kappa x :: l))). split.
    + intros x Hx. apply (IH (fun l => A (x :: l)) (fun l => f (kappa x :: l))).
      intros l Hl HF. apply (H (x :: l)); simpl; auto.
    + apply (Hint (fun s => msum cs n (fun l => f (s :: l)))).
Qed.

(** ** Breakpoints *)
Notation step := (R * bound_tag)%type.
Definition next_b (t : bound_tag) (beta : nat) : nat := match t with bSTEP => S beta | _ => beta end.
Definition next_B (t : bound_tag) (gamma : nat) : nat := match t with BSTEP => S gamma | _ => gamma end.

(** widths and states (number of b's and of B's passed) of the cells *)
Fixpoint cells (prev : R) (beta gamma : nat) (steps : list step) : list (R * (nat * nat)) :=
  match steps with
  | [] => []
  | (loc, t) :: r => (loc - prev, (beta, gamma)) :: cells loc (next_b t beta) (next_B t gamma) r
  end.

(** D o beta gamma prev steps N: weight of the ways to place N further points, o points
    having been placed before prev, such that the constraints at all remaining steps hold. *)
Fixpoint D (o beta gamma : nat) (prev : R) (steps : list step) (N : nat) : R :=
  match steps with
  | [] => if (N =? 0)%nat then 1 else 0
  | (loc, t) :: r =>
      rsum (S N) (fun j => mono (loc - prev) j *
        (if ((next_B t gamma <=? o + j) && (o + j <=? beta))%nat%bool
         then D (o + j) (next_b t beta) (next_B t gamma) loc r (N - j) else 0))
  end.

Definition count_b (steps : list step) : nat :=
  length (filter (fun s => match snd s with bSTEP => true | _ => false end) steps).
Definition count_B (steps : list step) : nat :=
  length (filter (fun s => match snd s with BSTEP => true | _ => false end) steps).

(** The event in terms of labels (beta, gamma). *)
Definition nlabel (P : nat * nat -> bool) (l : list (nat * nat)) : nat := length (filter P l).
Definition ev (n : nat) (l : list (nat * nat)) : Prop :=
  forall i, (i < n)%nat -> (nlabel (fun s => fst s <=? i) l <= i)%nat /\
                           (i < nlabel (fun s => snd s <=? i) l)%nat.
Definition evb (n : nat) (l : list (nat * nat)) : bool :=
  forallb (fun i => (nlabel (fun s => fst s <=? i)%nat l <=? i)%nat &&
                    (i <? nlabel (fun s => snd s <=? i)%nat l)%nat)%bool (seq 0 n).
Definition fev (n : nat) (l : list (nat * nat)) : R := if evb n l then 1 else 0.

Lemma evb_ev n l : evb n l = true <-> ev n l.
Proof.
  unfold evb, ev. rewrite forallb_forall. split; intros H i Hi.
  - specialize (H i). rewrite in_seq in H. specialize (H ltac:(lia)).
    apply andb_prop in H. destruct H as [H1 H2].
    apply Nat.leb_le in H1. apply Nat.ltb_lt in H2. auto.
  - apply in_seq in Hi. destruct (H i) as [H1 H2]; [lia|].
    apply andb_true_intro. split; [apply Nat.leb_le|apply Nat.ltb_lt]; auto.
Qed.

Lemma fev_1 n l : ev n l -> fev n l = 1.
Proof. intros H. apply evb_ev in H. unfold fev. rewrite H. reflexivity. Qed.
Lemma fev_0 n l : ~ ev n l -> fev n l = 0.
Proof. intros H. unfold fev. destruct (evb n l) eqn:E; auto. apply evb_ev in E. tauto. Qed.

Lemma nlabel_app P l l' : nlabel P (l ++ l') = (nlabel P l + nlabel P l')%nat.
Proof. unfold nlabel. rewrite filter_app, app_length. reflexivity. Qed.

Lemma nlabel_perm P l l' : Permutation l l' -> nlabel P l = nlabel P l'.
Proof.
  unfold nlabel. induction 1 as [|x l l' H IH|x y l|l l' l'' H1 IH1 H2 IH2]; simpl; auto.
  - destruct (P x); simpl; auto.
  - destruct (P x), (P y); simpl; auto.
  - congruence.
Qed.

Lemma nlabel_le P l : (nlabel P l <= length l)%nat.
Proof. unfold nlabel. induction l as [|x l IH]; simpl; auto. destruct (P x); simpl; lia. Qed.

Lemma nlabel_all P l : Forall (fun s => P s = true) l -> nlabel P l = length l.
Proof. unfold nlabel. induction 1 as [|x l Hx H IH]; simpl; auto. rewrite Hx; simpl; lia. Qed.

Lemma nlabel_none P l : Forall (fun s => P s = false) l -> nlabel P l = 0%nat.
Proof. unfold nlabel. induction 1 as [|x l Hx H IH]; simpl; auto. rewrite Hx; simpl; lia. Qed.

Lemma fev_perm n l l' : Permutation l l' -> fev n l = fev n l'.
Proof.
  intros H. unfold fev, evb.
  replace (forallb _ (seq 0 n)) with
    (forallb (fun i => (nlabel (fun s => fst s <=? i)%nat l' <=? i)%nat &&
                    (i <? nlabel (fun s => snd s <=? i)%nat l')%nat)%bool (seq 0 n)); auto.

  induction (seq 0 n) as [|i r IH]; simpl; auto.
  rewrite IH, !(nlabel_perm _ _ _ H). reflexivity.
Qed.

Lemma cells_states prev beta gamma steps :
  Forall (fun c => (beta <= fst (snd c))%nat /\ (gamma <= snd (snd c))%nat) (cells prev beta gamma steps).
Proof.
  revert prev beta gamma. induction steps as [|[loc t] r IH]; intros; simpl; constructor; simpl; auto.
  eapply Forall_impl; [|apply IH]. intros c [H1 H2]. destruct t; simpl in *; lia.
Qed.

Lemma cells_labels prev beta gamma steps l :
  Forall (fun s => In s (map snd (cells prev beta gamma steps))) l ->
  Forall (fun s : nat * nat => (beta <= fst s)%nat /\ (gamma <= snd s)%nat) l.
Proof.
  intros H. eapply Forall_impl; [|exact H]. intros s Hs. apply in_map_iff in Hs.
  destruct Hs as (c & <- & Hc). pose proof (cells_states prev beta gamma steps) as HF.
  rewrite Forall_forall in HF. apply HF; auto.
Qed.

Lemma msum_nil n (f : list (nat * nat) -> R) : msum [] n f = if (n =? 0)%nat then f [] else 0.
Proof. destruct n; reflexivity. Qed.

Lemma C_fact N j : (j <= N)%nat -> C N j * INR (fact (N - j)) = INR (fact N) / INR (fact j).
Proof. intros. unfold C. field. split; apply fact_neq. Qed.

(** The multiple sum over the cells is N! D. *)
Lemma msum_is_D n steps : forall beta gamma prev p N,
  (length p + N = n)%nat ->
  (beta + count_b steps = n)%nat -> (gamma + count_B steps = n)%nat ->
  Forall (fun s => (fst s <= beta)%nat /\ (snd s <= gamma)%nat) p ->
  (forall i, (i < beta)%nat -> (nlabel (fun s => fst s <=? i) p <= i)%nat) ->
  (forall i, (i < gamma)%nat -> (i < nlabel (fun s => snd s <=? i) p)%nat) ->
  msum (cells prev beta gamma steps) N (fun l => fev n (p ++ l)) =
  INR (fact N) * D (length p) beta gamma prev steps N.
Proof.
  induction steps as [|[loc t] r IH]; intros beta gamma prev p N Hlen Hb HB Hp Hib HiB.
  - simpl cells. rewrite msum_nil. cbn [D]. unfold count_b, count_B in *. simpl in Hb, HB.
    destruct (Nat.eqb_spec N 0) as [->|Hne]; [|ring].
    rewrite app_nil_r, fev_1; [simpl; ring|].
    intros i Hi. split; [apply Hib|apply HiB]; lia.
  - cbn [cells D].
    rewrite msum_split by (intros l l' HP; apply fev_perm; apply Permutation_app_head; exact HP).
    rewrite <- rsum_scal. apply rsum_ext. intros j Hj.
    set (s := (beta, gamma)). set (b' := next_b t beta). set (B' := next_B t gamma).
    assert (Hlenp : length (p ++ repeat s j) = (length p + j)%nat)
      by (rewrite app_length, repeat_length; reflexivity).
    assert (Hb' : (b' + count_b r = n)%nat).
    { unfold b', count_b in *. destruct t; simpl in *; lia. }
    assert (HB' : (B' + count_B r = n)%nat).
    { unfold B', count_B in *. destruct t; simpl in *; lia. }
    assert (Hbb : (beta <= b')%nat) by (unfold b'; destruct t; simpl; lia).
    assert (HBB : (gamma <= B' <= S gamma)%nat) by (unfold B'; destruct t; simpl; lia).
    rewrite (msum_ext _ _ _ (fun l => fev n ((p ++ repeat s j) ++ l))).
    2:{ intros l _ _. rewrite <- app_assoc. reflexivity. }
    assert (Hp' : Forall (fun s0 => (fst s0 <= beta)%nat /\ (snd s0 <= gamma)%nat) (p ++ repeat s j)).
    { apply Forall_app; split; auto. apply Forall_forall. intros x Hx.
      apply repeat_spec in Hx. subst x. simpl. lia. }
    destruct ((B' <=? length p + j) && (length p + j <=? beta))%nat%bool eqn:Eg.
    + apply andb_prop in Eg. destruct Eg as [E1 E2].
      apply Nat.leb_le in E1. apply Nat.leb_le in E2.
      rewrite (IH b' B' loc (p ++ repeat s j) (N - j)%nat).
      * rewrite Hlenp. 
        transitivity ((C N j * INR (fact (N - j))) * (loc - prev) ^ j * D (length p + j) b' B' loc r (N - j)); [ring|].
        rewrite C_fact by lia. unfold mono. field. apply fact_neq.
      * rewrite Hlenp. lia.
      * exact Hb'.
      * exact HB'.
      * eapply Forall_impl; [|exact Hp']. simpl. intros a. lia.
      * intros i Hi. destruct (Nat.lt_ge_cases i beta) as [Hlt|Hge].
        -- rewrite nlabel_app, (nlabel_none _ (repeat s j)).
           ++ rewrite Nat.add_0_r. apply Hib. exact Hlt.
           ++ apply Forall_forall. intros x Hx. apply repeat_spec in Hx. subst x. simpl.
              apply Nat.leb_gt. exact Hlt.
        -- pose proof (nlabel_le (fun s => fst s <=? i)%nat (p ++ repeat s j)). lia.
      * intros i Hi. destruct (Nat.lt_ge_cases i gamma) as [Hlt|Hge].
        -- rewrite nlabel_app. specialize (HiB i Hlt). lia.
        -- rewrite nlabel_all; [lia|]. eapply Forall_impl; [|exact Hp']. simpl. intros a Ha.
           apply Nat.leb_le. lia.
    + rewrite msum_0; [ring|]. intros l Hl HF. apply fev_0. intros Hev.
      apply cells_labels in HF. fold b' B' in HF.
      apply Bool.andb_false_iff in Eg. destruct Eg as [E|E]; apply Nat.leb_gt in E.
      * destruct (Nat.eq_dec B' gamma) as [Heq|Hne].
        -- (* impossible: already o >= gamma *)
           destruct (Nat.eq_dec gamma 0) as [H0|H0]; [lia|].
           specialize (HiB (gamma - 1)%nat ltac:(lia)).
           pose proof (nlabel_le (fun s => snd s <=? gamma - 1)%nat p). lia.
        -- destruct (Hev gamma) as [_ H]; [unfold count_B in *; lia|].
           rewrite nlabel_app, (nlabel_none _ l) in H.
           ++ pose proof (nlabel_le (fun s => snd s <=? gamma)%nat (p ++ repeat s j)). lia.
           ++ eapply Forall_impl; [|exact HF]. simpl. intros a Ha. apply Nat.leb_gt. lia.
      * assert (beta < n)%nat by lia.
        destruct (Hev beta) as [H1 _]; [auto|].
        rewrite nlabel_app, (nlabel_all _ (p ++ repeat s j)) in H1; [lia|].
        eapply Forall_impl; [|exact Hp']. simpl. intros a Ha. apply Nat.leb_le. lia.
Qed.
