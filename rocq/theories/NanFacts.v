(** * NanFacts: exactly which vectors validation accepts when NaN is allowed. *)
From Coquelicot Require Import Coquelicot.
From Flocq Require Import Core.Raux.
From Coq Require Import ZArith Reals List Bool String Lia Lra.
From Verif Require Import Base Num XReal Common Hoare.
Import List. Import ListNotations.
Local Open Scope R_scope.

(** x < y among the reals with infinities and NaN (never true for NaN). *)
Inductive below : xr -> xr -> Prop :=
| below_fin a b : a < b -> below (Fin a) (Fin b)
| below_minus a : below NInf (Fin a)
| below_plus a : below (Fin a) PInf
| below_inf : below NInf PInf.

Lemma xlt_below x y : xlt x y = true <-> below x y.
Proof.
  split.
  - destruct x, y; simpl; try discriminate; intros H; try constructor.
    revert H. case Rlt_bool_spec; [auto|discriminate].
  - intros []; simpl; auto. apply Rlt_bool_true; assumption.
Qed.

Section N.
Context {frexp : xr -> Z}.
Notation XN := (Xnum frexp).
Lemma monotone_from prev (v : list xr) : is_monotone_from (N := XN) prev v = true <->
  forall i, (i < length v)%nat -> ~ below (nth i v NaN) (nth i (prev :: v) NaN).
Proof.
  revert prev; induction v as [|x v IH]; intros prev; simpl.
  - split; [intros; lia|reflexivity].
  - change (@n_lt XN x prev) with (xlt x prev). destruct (xlt x prev) eqn:X.
    + apply xlt_below in X. split; [discriminate|]. intros H. destruct (H 0%nat ltac:(lia) X).
    + rewrite IH. split.
      * intros H [|i] Hi; [intros B; apply xlt_below in B; congruence|apply (H i); lia].
      * intros H i Hi. apply (H (S i)). lia.
Qed.
Lemma below_nothing x : ~ below x NInf.
Proof. intros H; inversion H. Qed.
Lemma monotone_pairs (v : list xr) : is_monotone_increasing (N := XN) v = true <->
  forall i, (S i < length v)%nat -> ~ below (nth (S i) v NaN) (nth i v NaN).
Proof.
  unfold is_monotone_increasing. rewrite (monotone_from NInf v). split; intros H.
  - intros i Hi. exact (H (S i) Hi).
  - intros [|i] Hi; [apply below_nothing|exact (H i Hi)].
Qed.

Lemma accepted_iff name (v : list xr) : check_boundary_vector (N := XN) name (Z.of_nat (length v)) v = Ok tt <->
  (forall i, (S i < length v)%nat -> ~ below (nth (S i) v NaN) (nth i v NaN)) /\
  ~ below (nth 0 v NaN) (Fin 0) /\ ~ below (Fin 1) (nth (length v - 1) v NaN).
Proof.
  unfold check_boundary_vector. change (@size (car XN) v) with (Z.of_nat (length v)). rewrite Z.eqb_refl. cbn [negb].
  rewrite <- monotone_pairs. destruct (is_monotone_increasing (N := XN) v); cbn [negb];
    [|split; [discriminate|intros (? & _); discriminate]].
  destruct v as [|x v].
  - cbn. split; [|reflexivity]. intros _. repeat split; intros H; inversion H.
  - set (w := x :: v). assert (L : (0 < Z.of_nat (length w))%Z) by (unfold w; simpl length; lia).
    rewrite (proj2 (Z.ltb_lt _ _) L). unfold front, back.
    assert (R0 : @rd (car XN) w 0 = Ok x) by reflexivity. rewrite R0. cbn [bind].
    change (@size (car XN) w) with (Z.of_nat (length w)).
    assert (R1 : @rd (car XN) w (Z.of_nat (length w) - 1) = Ok (nth (length w - 1) w NaN)).
    { rewrite (rd_get NaN) by (unfold size; lia). f_equal. unfold get. f_equal. lia. }
    change (@n_lt XN x n0) with (xlt x (Fin 0)). change (nth 0 w NaN) with x.
    destruct (xlt x (Fin 0)) eqn:X0.
    + apply xlt_below in X0. split; [discriminate|intros (_ & H & _); contradiction].
    + rewrite R1. cbn [bind]. change (@n_lt XN n1) with (xlt (Fin 1)).
      destruct (xlt (Fin 1) (nth (length w - 1) w NaN)) eqn:X1.
      * apply xlt_below in X1. split; [discriminate|intros (_ & _ & H); contradiction].
      * split; [intros _|reflexivity]. split; [reflexivity|]. split; intros B; apply xlt_below in B; congruence.
Qed.
Lemma nan_hides : check_boundary_vector (N := XN) "b" 5 [Fin 0; Fin 7; NaN; Fin (-3); Fin 1] = Ok tt.
Proof.
  apply (accepted_iff "b" [Fin 0; Fin 7; NaN; Fin (-3); Fin 1]). split; [|split].
  - intros [|[|[|[|i]]]] Hi B; simpl in *; inversion B; subst; lra || lia.
  - intros B; inversion B; subst. lra.
  - intros B; inversion B; subst. lra.
Qed.
End N.
