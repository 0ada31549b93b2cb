(** * AccNewMath: the steps of ecdf1_new as linear maps that do not enlarge errors. *)
From Flocq Require Import Core.Raux.
From Coq Require Import ZArith Reals List Bool Lia Lra Permutation Sorted Factorial.
From Verif Require Import Base Num RSum Spec SpecFacts Cells Events XEcdf2 NewMath ErrBound FftMath.
Import List.
Local Open Scope R_scope.

Lemma conv_sup l x j e : 0 <= l -> (forall k, (k <= j)%nat -> Rabs (x k) <= e) -> Rabs (conv (pois l) x j) <= e.
Proof.
  intros Hl Hx. unfold conv. eapply Rle_trans; [apply rsum_abs|].
  apply Rle_trans with (rsum (S j) (fun k => e * pois l k)).
  - apply rsum_le. intros k Hk. rewrite Rabs_mult, (Rabs_pos_eq (pois l k)) by (apply pois_pos, Hl). rewrite Rmult_comm.
    apply Rmult_le_compat_r; [apply pois_pos, Hl|]. apply Hx. lia.
  - rewrite rsum_scal. pose proof (pois_sum l (S j) Hl) as H1.
    assert (0 <= e) by (eapply Rle_trans; [apply Rabs_pos|apply (Hx O); lia]).
    apply Rle_trans with (e * 1); [apply Rmult_le_compat_l; auto|lra].
Qed.

Lemma conv_abs_le l x j : 0 <= l -> Rabs (conv (pois l) x j) <= conv (pois l) (fun k => Rabs (x k)) j.
Proof.
  intros Hl. unfold conv. eapply Rle_trans; [apply rsum_abs|]. apply rsum_le. intros k _.
  rewrite Rabs_mult, (Rabs_pos_eq (pois l k)) by (apply pois_pos, Hl). lra.
Qed.

Lemma conv_minus_r f g g' N : conv f (fun k => g k - g' k) N = conv f g N - conv f g' N.
Proof. rewrite conv_comm, conv_minus_l, (conv_comm g), (conv_comm g'). reflexivity. Qed.

(** replacing the first sequence *)
Lemma conv_first f f' g j e M : 0 <= M -> (forall k, (k <= j)%nat -> Rabs (g k) <= M) ->
  rsum (S j) (fun k => Rabs (f k - f' k)) <= e -> Rabs (conv f g j - conv f' g j) <= M * e.
Proof.
  intros HM Hg He. rewrite <- conv_minus_l. unfold conv. eapply Rle_trans; [apply rsum_abs|].
  apply Rle_trans with (rsum (S j) (fun k => M * Rabs (f k - f' k))).
  - apply rsum_le. intros k Hk. rewrite Rabs_mult, Rmult_comm. apply Rmult_le_compat_r; [apply Rabs_pos|]. apply Hg. lia.
  - rewrite rsum_scal. apply Rmult_le_compat_l; auto.
Qed.

Section Maps.
Variables (n : nat) (B : list R).
Notation Bf := (Bf B).
Notation prevloc := (prevloc B).
Notation W := (W n B).

(** one step of the walk applied to any sequence *)
Definition G (i : nat) (v : nat -> R) (j : nat) : R :=
  if (i <? j)%nat then conv (pois (rn n * (Bf i - prevloc i))) v j else 0.
Fixpoint V (P : nat) (v : nat -> R) (m : nat) : nat -> R :=
  match m with O => v | S m => G (P + m) (V P v m) end.

Lemma W_V P m : forall j, W (P + m) j = V P (W P) m j.
Proof.
  induction m as [|m IH]; intros j; [rewrite Nat.add_0_r; reflexivity|].
  rewrite Nat.add_succ_r. cbn [V NewMath.W]. unfold G. destruct (_ <? _)%nat; [|reflexivity].
  apply conv_ext; auto.
Qed.

Hypothesis Hup : forall i, (i < n)%nat -> prevloc i <= Bf i.

Lemma lam_pos i : (i < n)%nat -> 0 <= rn n * (Bf i - prevloc i).
Proof. intros Hi. apply Rmult_le_pos; [unfold rn; apply IZR_le; lia|]. specialize (Hup i Hi). lra. Qed.

Lemma G_minus i v w j : G i (fun k => v k - w k) j = G i v j - G i w j.
Proof. unfold G. destruct (_ <? _)%nat; [apply conv_minus_r|ring]. Qed.

Lemma G_sup i v j e : (i < n)%nat -> (forall k, (k <= j)%nat -> Rabs (v k) <= e) -> Rabs (G i v j) <= e.
Proof.
  intros Hi Hv. unfold G. destruct (_ <? _)%nat; [apply conv_sup; auto; apply lam_pos, Hi|].
  rewrite Rabs_R0. eapply Rle_trans; [apply Rabs_pos|apply (Hv O); lia].
Qed.

Lemma G_l1 i v M : (i < n)%nat -> rsum (S M) (fun j => Rabs (G i v j)) <= rsum (S M) (fun j => Rabs (v j)).
Proof.
  intros Hi. eapply Rle_trans; [|apply (conv_mass (rn n * (Bf i - prevloc i)) (fun j => Rabs (v j)) M)].
  - apply rsum_le. intros j _. unfold G. destruct (_ <? _)%nat; [apply conv_abs_le, lam_pos, Hi|].
    rewrite Rabs_R0. apply conv_nonneg; intros; [apply pois_pos, lam_pos, Hi|apply Rabs_pos].
  - apply lam_pos, Hi.
  - intros; apply Rabs_pos.
Qed.

Lemma V_minus P v w m : forall j, V P (fun k => v k - w k) m j = V P v m j - V P w m j.
Proof.
  induction m as [|m IH]; intros j; [reflexivity|]. cbn [V]. rewrite <- G_minus.
  unfold G. destruct (_ <? _)%nat; [|reflexivity]. apply conv_ext; auto.
Qed.

Lemma V_sup P v e m : (P + m <= n)%nat -> forall j, (forall k, (k <= j)%nat -> Rabs (v k) <= e) -> Rabs (V P v m j) <= e.
Proof.
  induction m as [|m IH]; intros Hm j Hv; [apply Hv; lia|]. cbn [V]. apply G_sup; [lia|].
  intros k Hk. apply IH; [lia|]. intros i Hi. apply Hv. lia.
Qed.

Lemma V_l1 P v m M : (P + m <= n)%nat -> rsum (S M) (fun j => Rabs (V P v m j)) <= rsum (S M) (fun j => Rabs (v j)).
Proof.
  induction m as [|m IH]; intros Hm; [apply Rle_refl|]. cbn [V].
  eapply Rle_trans; [apply G_l1; lia|apply IH; lia].
Qed.

(** an error in the starting sequence stays as small as it was *)
Lemma V_close P v e m : (P + m <= n)%nat -> (forall k, (k <= n)%nat -> Rabs (v k - W P k) <= e) ->
  forall j, (j <= n)%nat -> Rabs (V P v m j - W (P + m) j) <= e.
Proof.
  intros Hm Hv j Hj. rewrite W_V, <- V_minus. apply V_sup; [exact Hm|]. intros k Hk. apply Hv. lia.
Qed.

Lemma V_low P v m j : (forall k, (k < P)%nat -> v k = 0) -> (j < P + m)%nat -> V P v m j = 0.
Proof.
  intros Hv Hj. destruct m as [|m]; [apply Hv; lia|]. cbn [V]. unfold G.
  destruct (Nat.ltb_spec (P + m) j); [lia|reflexivity].
Qed.

(** what the walk started from [v] at step [P] would hold after step I without exits from step P+m on *)
Definition Tv P v m I : nat -> R := conv (pois (rn n * (Bf I - prevloc (P + m)))) (V P v m).
Definition prev P v m : nat -> R := conv (pois (rn n * (Bf (P + m) - prevloc (P + m)))) (V P v m).

Lemma Vlow_conv f P v m j : (forall k, (k < P)%nat -> v k = 0) -> (j < P + m)%nat -> conv f (V P v m) j = 0.
Proof. intros Hv Hj. apply conv_low with (i := (P + m)%nat); auto. intros i Hi. apply V_low; auto. Qed.

Lemma V_S P v m j : V P v (S m) j = if (P + m <? j)%nat then prev P v m j else 0.
Proof. reflexivity. Qed.

Lemma prev_split P v m N : (forall k, (k < P)%nat -> v k = 0) ->
  prev P v m N = V P v (S m) N + prev P v m (P + m) * delta (P + m) N.
Proof.
  intros Hv. rewrite V_S. unfold delta. destruct (Nat.ltb_spec (P + m) N), (Nat.eqb_spec N (P + m)); subst; try lia; try ring.
  unfold prev. rewrite (Vlow_conv _ P v m N) by (auto; lia). ring.
Qed.

Lemma Tv_step P v m I j : (forall k, (k < P)%nat -> v k = 0) -> (P + m <= j)%nat ->
  Tv P v (S m) I j = Tv P v m I j - prev P v m (P + m) * pois (rn n * (Bf I - Bf (P + m))) (j - (P + m)).
Proof.
  intros Hv Hj. unfold Tv at 2. set (i := (P + m)%nat) in *.
  replace (rn n * (Bf I - prevloc i)) with (rn n * (Bf I - Bf i) + rn n * (Bf i - prevloc i)) by ring.
  rewrite (conv_ext _ (conv (pois (rn n * (Bf I - Bf i))) (pois (rn n * (Bf i - prevloc i)))) (V P v m) (V P v m) j);
    [|intros k Hk; symmetry; apply conv_pois|reflexivity].
  rewrite conv_assoc. change (conv (pois (rn n * (Bf i - prevloc i))) (V P v m)) with (prev P v m).
  rewrite (conv_comm _ (prev P v m)).
  rewrite (conv_ext (prev P v m) (fun N => V P v (S m) N + prev P v m i * delta i N) (pois (rn n * (Bf I - Bf i)))
    (pois (rn n * (Bf I - Bf i))) j); [|intros; apply prev_split, Hv|reflexivity].
  rewrite conv_plus_l, conv_scal_l, conv_delta.
  destruct (Nat.leb_spec i j); [|lia]. unfold Tv. replace (P + S m)%nat with (S i) by lia. simpl NewMath.prevloc.
  rewrite conv_comm. ring.
Qed.

(** ** Sizes *)
Lemma W_nonneg i j : (i <= n)%nat -> 0 <= W i j.
Proof.
  revert j. induction i as [|i IH]; intros j Hi.
  - simpl. unfold delta. destruct (_ =? _)%nat; lra.
  - rewrite W_S. destruct (_ <? _)%nat; [|lra]. unfold NewMath.pre. apply conv_nonneg; intros; [apply pois_pos, lam_pos; lia|apply IH; lia].
Qed.
Lemma W_mass i M : (i <= n)%nat -> rsum (S M) (W i) <= 1.
Proof.
  intros Hi. induction i as [|i IH].
  - simpl NewMath.W. rewrite (rsum_single (S M) 0); [unfold delta; simpl; lra|lia|].
    intros k Hk Hne. unfold delta. destruct (Nat.eqb_spec k 0); [congruence|reflexivity].
  - eapply Rle_trans; [|apply IH; lia]. eapply Rle_trans; [|apply (conv_mass (rn n * (Bf i - prevloc i)) (W i) M)].
    + apply rsum_le. intros j _. rewrite W_S. destruct (_ <? _)%nat; [apply Rle_refl|].
      apply conv_nonneg; intros; [apply pois_pos, lam_pos; lia|apply W_nonneg; lia].
    + apply lam_pos. lia.
    + intros; apply W_nonneg; lia.
Qed.
Lemma W_le1 i j : (i <= n)%nat -> 0 <= W i j <= 1.
Proof.
  intros Hi. split; [apply W_nonneg, Hi|]. eapply Rle_trans; [|apply (W_mass i j Hi)].
  apply (rsum_term (S j) (W i) j); [lia|]. intros; apply W_nonneg; auto.
Qed.
End Maps.
