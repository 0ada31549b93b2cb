(** * XCommon: validation of boundary vectors in exact arithmetic. *)
From Coquelicot Require Import Rbar.
From Flocq Require Import Core.Raux.
From Coq Require Import ZArith Reals List Bool Lia Lra String Sorted.
From Verif Require Import Base Num Hoare XReal Common Spec Events.
Local Open Scope Z_scope.

(** NaN-free values are extended reals. *)
Definition to_Rbar (x : xr) : option Rbar :=
  match x with Fin r => Some (Finite r) | PInf => Some p_infty | NInf => Some m_infty | NaN => None end.
Definition of_Rbar (x : Rbar) : xr :=
  match x with Finite r => Fin r | p_infty => PInf | m_infty => NInf end.

Section XCommon.
Context {frexp : xr -> Z}.
Notation XN := (Xnum frexp).

Lemma xlt_Rbar x y : xlt (of_Rbar x) (of_Rbar y) = true <-> Rbar_lt x y.
Proof.
  destruct x, y; simpl; try (split; intros; try tauto; try discriminate; reflexivity).
  apply Rlt_bool_iff.
Qed.

Lemma xlt_Rbar_false x y : xlt (of_Rbar x) (of_Rbar y) = false <-> Rbar_le y x.
Proof.
  destruct x, y; simpl; try (split; intros; try tauto; try discriminate; reflexivity).
  apply Rlt_bool_niff.
Qed.

Lemma is_monotone_from_Rbar v : forall p,
  is_monotone_from (N := XN) (of_Rbar p) (map of_Rbar v) = true <-> Sorted Rbar_le v /\ HdRel Rbar_le p v.
Proof.
  induction v as [|x v IH]; intros p; simpl.
  - split; auto.
  - destruct (xlt (of_Rbar x) (of_Rbar p)) eqn:Ex.
    + split; [discriminate|]. intros [_ H]. inversion H; subst.
      apply xlt_Rbar_false in H1. congruence.
    + apply xlt_Rbar_false in Ex. rewrite IH. split.
      * intros [H1 H2]. split; constructor; auto.
      * intros [H1 H2]. inversion H1; auto.
Qed.

Lemma is_monotone_Rbar v :
  is_monotone_increasing (N := XN) (map of_Rbar v) = true <-> Sorted Rbar_le v.
Proof.
  unfold is_monotone_increasing. change (@n_ninf XN) with (of_Rbar m_infty).
  rewrite is_monotone_from_Rbar. split; [tauto|]. intros H; split; auto.
  destruct v; constructor. destruct r; simpl; auto.
Qed.

Lemma sorted_range v : Sorted Rbar_le v -> forall x, In x v ->
  Rbar_le (hd (Finite 0) v) x /\ Rbar_le x (last v (Finite 0)).
Proof.
  intros H x Hx.
  assert (HS : StronglySorted Rbar_le v).
  { apply Sorted_StronglySorted; auto. intros a b c; apply Rbar_le_trans. }
  clear H. revert x Hx. induction HS as [|y v HS IH HF]; intros x Hx; [destruct Hx|].
  rewrite Forall_forall in HF. split.
  - simpl. destruct Hx as [->|Hx]; [apply Rbar_le_refl|auto].
  - destruct v as [|z v].
    + destruct Hx as [->|[]]. simpl. apply Rbar_le_refl.
    + change (last (y :: z :: v) (Finite 0)) with (last (z :: v) (Finite 0)).
      destruct Hx as [->|Hx].
      * eapply Rbar_le_trans; [apply HF; left; reflexivity|]. apply IH. left; auto.
      * apply IH. auto.
Qed.

Lemma rd_back (v : list Rbar) : v <> [] ->
  rd (map of_Rbar v) (size (map of_Rbar v) - 1) = Ok (of_Rbar (last v (Finite 0))).
Proof.
  intros Hv. assert (0 < size (map of_Rbar v)).
  { unfold size. rewrite map_length. destruct v; [congruence|simpl; lia]. }
  rewrite (rd_get (of_Rbar (Finite 0))) by lia. f_equal. unfold get, size in *.
  rewrite map_nth. f_equal. rewrite map_length.
  replace (Z.to_nat (Z.of_nat (Datatypes.length v) - 1)) with (List.length v - 1)%nat by lia.
  clear. induction v as [|x [|y v] IH]; auto. simpl in *. rewrite Nat.sub_0_r in IH. exact IH.
Qed.

(** In the unit interval: every element between 0 and 1 (hence finite). *)
Definition in_unit (v : list Rbar) : Prop := Forall (fun x => Rbar_le (Finite 0) x /\ Rbar_le x (Finite 1)) v.

Lemma last_In (v : list Rbar) d : v <> [] -> In (last v d) v.
Proof.
  induction v as [|x [|y v] IH]; intros H; [congruence|left; reflexivity|].
  right. apply IH. discriminate.
Qed.

Lemma check_boundary_vector_cases name n (v : list Rbar) :
  (size v <> n /\ check_boundary_vector (N := XN) name n (map of_Rbar v) = Throw (RuntimeError (msg_length name n (size v)))) \/
  (size v = n /\ ~ Sorted Rbar_le v /\
     check_boundary_vector (N := XN) name n (map of_Rbar v) = Throw (RuntimeError (msg_monotone name n))) \/
  (size v = n /\ Sorted Rbar_le v /\ ~ in_unit v /\
     check_boundary_vector (N := XN) name n (map of_Rbar v) = Throw (RuntimeError (msg_range name n))) \/
  (size v = n /\ Sorted Rbar_le v /\ in_unit v /\
     check_boundary_vector (N := XN) name n (map of_Rbar v) = Ok tt).
Proof.
  unfold check_boundary_vector.
  assert (Hsz : size (map of_Rbar v) = size v) by (unfold size; rewrite map_length; reflexivity).
  change (@size (car XN) (map of_Rbar v)) with (@size xr (map of_Rbar v)). rewrite Hsz.
  destruct (Z.eqb_spec (size v) n) as [Hn|Hn]; simpl negb; cbv iota; [right|left; auto].
  destruct (is_monotone_increasing (N := XN) (map of_Rbar v)) eqn:Em; simpl negb; cbv iota.
  2:{ left. split; auto. split; auto. intros HS. apply is_monotone_Rbar in HS. congruence. }
  apply is_monotone_Rbar in Em. right.
  destruct v as [|x v'].
  - right. simpl in *. repeat split; auto. constructor.
  - set (v := x :: v') in *. assert (Hne : v <> []) by discriminate.
    assert (0 < size v) by (unfold size, v; simpl; lia).
    destruct (Z.ltb_spec 0 (size v)); [|lia].
    unfold front, back. change (car XN) with xr.
    rewrite (rd_back v Hne).
    change (rd (map of_Rbar v) 0) with (@Ok xr (of_Rbar x)). cbn [bind].
    change (@n_lt XN) with xlt.
    change (@n0 XN) with (of_Rbar (Finite 0)). change (@n1 XN) with (of_Rbar (Finite 1)).
    destruct (xlt (of_Rbar x) (of_Rbar (Finite 0))) eqn:E0.
    + left. apply xlt_Rbar in E0. repeat split; auto. intros Hu. inversion Hu; subst.
      destruct H3 as [H3 _]. apply Rbar_le_not_lt in H3. tauto.
    + apply xlt_Rbar_false in E0.
      destruct (xlt (of_Rbar (Finite 1)) (of_Rbar (last v (Finite 0)))) eqn:E1.
      * left. apply xlt_Rbar in E1. repeat split; auto. intros Hu.
        unfold in_unit in Hu. rewrite Forall_forall in Hu.
        destruct (Hu _ (last_In v (Finite 0) Hne)) as [_ H3]. apply Rbar_le_not_lt in H3. tauto.
      * right. apply xlt_Rbar_false in E1. repeat split; auto.
        unfold in_unit. rewrite Forall_forall. intros y Hy.
        destruct (sorted_range v Em y Hy) as [H1 H2]. split.
        -- eapply Rbar_le_trans; [exact E0|]. exact H1.
        -- eapply Rbar_le_trans; [exact H2|]. exact E1.
Qed.

Lemma valid_boundary_Rbar (r : list R) :
  valid_boundary r <-> Sorted Rbar_le (map Finite r) /\ in_unit (map Finite r).
Proof.
  unfold valid_boundary, in_unit. rewrite Forall_map.
  assert (Sorted Rbar_le (map Finite r) <-> Sorted Rle r).
  { split; induction r as [|x r IH]; simpl; intros HS; constructor; inversion HS; subst; auto.
    - destruct r; constructor. inversion H2; auto.
    - destruct r; constructor. inversion H2; auto. }
  rewrite H. reflexivity.
Qed.

Lemma in_unit_finite v : in_unit v -> exists r, v = map Finite r.
Proof.
  induction 1 as [|x v [H1 H2] H [r ->]]; [exists []; reflexivity|].
  destruct x as [x| |]; simpl in *; try tauto. exists (x :: r). reflexivity.
Qed.

Lemma map_Fin_of_Rbar (r : list R) : map Fin r = map of_Rbar (map Finite r).
Proof. rewrite map_map. reflexivity. Qed.

Lemma check_valid name (r : list R) : valid_boundary r ->
  check_boundary_vector (N := XN) name (size r) (map Fin r) = Ok tt.
Proof.
  intros Hv. apply valid_boundary_Rbar in Hv. rewrite map_Fin_of_Rbar.
  assert (Hs : size (map Finite r) = size r) by (unfold size; rewrite map_length; reflexivity).
  destruct (check_boundary_vector_cases name (size r) (map Finite r)) as
    [[H _]|[(_ & H & _)|[(_ & _ & H & _)|(_ & _ & _ & H)]]]; tauto.
Qed.
End XCommon.
