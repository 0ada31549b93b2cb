(** * ExactEnv: an environment that keeps the promises the theorems ask for.

    Shows that the hypotheses [sort_ok] (std::sort sorts) and [fft_ok] (FFTW
    computes the discrete Fourier transform) can be met together. *)
From Flocq Require Import Core.Raux.
From Coq Require Import ZArith Reals List Bool Lia Lra String Permutation Sorted.
From Verif Require Import Base Num XReal RSum Ecdf2 Dft XFft Events.
Import List.
Local Open Scope R_scope.

Definition xval (x : xr) : R := match x with Fin r => r | _ => 0 end.

(** Insertion sort, for any floating-point type. *)
Section Sort.
Context {N : num}.

Fixpoint insert (x : bound N) (l : list (bound N)) : list (bound N) :=
  match l with
  | [] => [x]
  | y :: r => if bound_lt y x then y :: insert x r else x :: l
  end.
Definition isort (l : list (bound N)) : list (bound N) := fold_right insert [] l.

Lemma insert_perm x l : Permutation (x :: l) (insert x l).
Proof.
  induction l as [|y l IH]; cbn [insert]; [apply Permutation_refl|].
  destruct (bound_lt y x); [|apply Permutation_refl].
  eapply perm_trans; [apply perm_swap|]. constructor. exact IH.
Qed.
Lemma isort_perm l : Permutation l (isort l).
Proof.
  induction l as [|x l IH]; simpl; [constructor|].
  eapply perm_trans; [constructor; exact IH|apply insert_perm].
Qed.

(** the two properties of a strict weak ordering insertion sort needs *)
Lemma swo_trans l x y z : strict_weak_order_on (N := N) l = true -> In x l -> In y l -> In z l ->
  bound_lt y x = false -> bound_lt z y = false -> bound_lt z x = false.
Proof.
  intros H Hx Hy Hz H1 H2. unfold strict_weak_order_on in H. rewrite forallb_forall in H.
  destruct (bound_lt z x) eqn:H3; auto.
  destruct (bound_lt x y) eqn:H4.
  - pose proof (H z Hz) as H5. apply andb_true_iff in H5. destruct H5 as [_ H5].
    rewrite forallb_forall in H5. specialize (H5 x Hx). rewrite forallb_forall in H5. specialize (H5 y Hy).
    apply andb_true_iff in H5. destruct H5 as [H5 _]. rewrite H3, H4, H2 in H5. discriminate.
  - destruct (bound_lt y z) eqn:H6.
    + pose proof (H y Hy) as H5. apply andb_true_iff in H5. destruct H5 as [_ H5].
      rewrite forallb_forall in H5. specialize (H5 z Hz). rewrite forallb_forall in H5. specialize (H5 x Hx).
      apply andb_true_iff in H5. destruct H5 as [H5 _]. rewrite H6, H3, H1 in H5. discriminate.
    + pose proof (H x Hx) as H5. apply andb_true_iff in H5. destruct H5 as [_ H5].
      rewrite forallb_forall in H5. specialize (H5 y Hy). rewrite forallb_forall in H5. specialize (H5 z Hz).
      apply andb_true_iff in H5. destruct H5 as [_ H5]. rewrite H4, H1, H6, H2, H3 in H5. cbn [negb andb orb] in H5.
      rewrite andb_false_r in H5. discriminate.
Qed.
Lemma swo_asym l x y : strict_weak_order_on (N := N) l = true -> In x l -> In y l ->
  bound_lt x y = true -> bound_lt y x = false.
Proof.
  intros H Hx Hy H1. destruct (bound_lt y x) eqn:H2; auto.
  unfold strict_weak_order_on in H. rewrite forallb_forall in H.
  pose proof (H x Hx) as H5. apply andb_true_iff in H5. destruct H5 as [H6 H5].
  rewrite forallb_forall in H5. specialize (H5 y Hy). rewrite forallb_forall in H5. specialize (H5 x Hx).
  apply andb_true_iff in H5. destruct H5 as [H5 _]. rewrite H1, H2 in H5. cbn [negb andb orb] in H5.
  rewrite H5 in H6. discriminate.
Qed.

Lemma insert_sorted l0 x l : strict_weak_order_on (N := N) l0 = true -> In x l0 -> (forall y, In y l -> In y l0) ->
  StronglySorted (fun x y => bound_lt y x = false) l -> StronglySorted (fun x y => bound_lt y x = false) (insert x l).
Proof.
  intros Hs Hx Hl. induction 1 as [|y l HS IH HF]; cbn [insert].
  - constructor; constructor.
  - destruct (bound_lt y x) eqn:Hyx.
    + constructor; [apply IH; intros; apply Hl; right; auto|].
      apply (Permutation_Forall (insert_perm x l)). constructor; auto.
      eapply swo_asym; eauto. apply Hl; left; reflexivity.
    + constructor; [constructor; auto|]. constructor; auto.
      rewrite Forall_forall in HF |- *. intros z Hz. eapply (swo_trans l0 x y z); eauto.
      * apply Hl; left; reflexivity.
      * apply Hl; right; auto.
Qed.

Lemma isort_ok (E : env N) : sort_bounds E = isort -> sort_ok E.
Proof.
  intros HE l Hs. rewrite HE. split; [apply isort_perm|].
  assert (H : forall k, (forall y, In y k -> In y l) -> StronglySorted (fun x y => bound_lt y x = false) (isort k)).
  { induction k as [|x k IH]; simpl; intros Hk; [constructor|].
    eapply insert_sorted; eauto.
    intros y Hy. apply Hk. right. apply (Permutation_in y (Permutation_sym (isort_perm k))). exact Hy. }
  apply H. auto.
Qed.
End Sort.

Section Env.
Variable frexp : xr -> Z.
Notation XN := (Xnum frexp).

Definition r2c (l : list xr) : list (xr * xr) :=
  let n := length l in let x j := xval (nth j l (Fin 0)) in
  map (fun k => (Fin (dft_re n x k), Fin (dft_im n x k))) (seq 0 (n / 2 + 1)).
Definition c2r (n : nat) (z : list (xr * xr)) : list xr :=
  map (fun j => Fin (idft n (fun k => xval (fst (nth k z (Fin 0, Fin 0))))
                            (fun k => xval (snd (nth k z (Fin 0, Fin 0)))) j)) (seq 0 n).

Definition exact_env (with_asserts : bool) (memory : nat -> nat -> xr) : env XN :=
  mkEnv XN with_asserts memory isort r2c c2r (fun _ => EmptyString) (exact_ld frexp).

Lemma exact_env_ld a m : long_double_ok (exact_env a m).
Proof. exists frexp. reflexivity. Qed.
Lemma exact_env_sort a m : sort_ok (exact_env a m).
Proof. apply isort_ok. reflexivity. Qed.

Lemma nth_map_Fin (x : list R) j : xval (nth j (map Fin x) (Fin 0)) = nth j x 0.
Proof.
  change (Fin 0) with (Fin 0). rewrite map_nth. reflexivity.
Qed.

Lemma dft_re_ext n f g k : (forall j, (j < n)%nat -> f j = g j) -> dft_re n f k = dft_re n g k.
Proof. intros H. unfold dft_re. apply rsum_ext. intros j Hj. rewrite H by auto. reflexivity. Qed.
Lemma dft_im_ext n f g k : (forall j, (j < n)%nat -> f j = g j) -> dft_im n f k = dft_im n g k.
Proof. intros H. unfold dft_im. apply f_equal. apply rsum_ext. intros j Hj. rewrite H by auto. reflexivity. Qed.

Lemma exact_env_fft a m : fft_ok (exact_env a m).
Proof.
  split.
  - intros x. simpl fft_r2c. unfold r2c. rewrite map_length. apply map_ext. intros k.
    f_equal; f_equal; [apply dft_re_ext|apply dft_im_ext]; intros; apply nth_map_Fin.
  - intros h z Hh Hz. simpl fft_c2r. unfold c2r. apply map_ext. intros j. f_equal.
    assert (H : forall k, nth k (map (fun c : R * R => (Fin (fst c), Fin (snd c))) z) (Fin 0, Fin 0) =
                          (Fin (fst (nth k z (0, 0))), Fin (snd (nth k z (0, 0))))).
    { intros k. change (Fin 0, Fin 0) with ((fun c : R * R => (Fin (fst c), Fin (snd c))) (0, 0)). apply map_nth. }
    unfold idft. cbv beta. rewrite !H. cbn [fst snd xval]. f_equal. f_equal.
    apply rsum_ext. intros i Hi. cbv zeta. rewrite !H. reflexivity.
Qed.
End Env.
