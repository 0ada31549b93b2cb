(** * Cases: concrete boundaries with hand-computed probabilities.

    Two uniforms: Pr[X_(2) >= 1/2] = 3/4 and Pr[X_(1) <= 1/2] = 3/4.  The property
    files use these to show that the hypotheses of the theorems can be met. *)
From Coquelicot Require Import Coquelicot.
From Coq Require Import ZArith Reals List Lia Lra Permutation Sorted.
From Verif Require Import Base Num XReal Spec SpecFacts Reflect ExactEnv ExactFacts.
Import List. Import ListNotations.
Local Open Scope R_scope.

Definition case_b : list R := [0; /2].
Definition case_B : list R := [/2; 1].
Definition zeros2 : list R := [0; 0].
Definition ones2 : list R := [1; 1].

Lemma case_b_valid : valid_boundary case_b.
Proof. split; unfold case_b; repeat constructor; lra. Qed.
Lemma case_B_valid : valid_boundary case_B.
Proof. split; unfold case_B; repeat constructor; lra. Qed.
Lemma zeros2_valid : valid_boundary zeros2.
Proof. split; unfold zeros2; repeat constructor; lra. Qed.
Lemma ones2_valid : valid_boundary ones2.
Proof. split; unfold ones2; repeat constructor; lra. Qed.

Lemma single_valid : valid_boundary [/2].
Proof. split; repeat constructor; lra. Qed.

Lemma event_two x y : 0 <= x <= 1 -> 0 <= y <= 1 -> noncrossing_b case_b [x; y] <-> (/2 <= x \/ /2 <= y).
Proof.
  intros Hx Hy. unfold case_b. split.
  - intros (o & HP & HS & HF). inversion HF as [|? u ? t H0 HF1]; subst. inversion HF1 as [|? v ? t' H1 HF2]; subst.
    inversion HF2; subst. assert (Hin : In v [x; y]) by (apply (Permutation_in _ (Permutation_sym HP)); right; left; reflexivity).
    simpl in Hin. destruct Hin as [->|[->|[]]]; auto.
  - intros H. destruct (Rle_or_lt x y) as [Hxy|Hxy].
    + exists [x; y]. split; [apply Permutation_refl|]. split; [|]; auto; repeat first [apply Sorted_nil|apply Sorted_cons|apply HdRel_nil|apply HdRel_cons|apply Forall2_nil|apply Forall2_cons]; lra.
    + exists [y; x]. split; [apply perm_swap|]. split; [|]; auto; repeat first [apply Sorted_nil|apply Sorted_cons|apply HdRel_nil|apply HdRel_cons|apply Forall2_nil|apply Forall2_cons]; lra.
Qed.

Lemma case_b_prob : is_prob 2 (noncrossing_b case_b) (3/4).
Proof.
  cbn [is_prob]. exists (fun x => if Rle_dec (/2) x then 1 else /2). split.
  - intros x Hx. exists (fun y => if Rle_dec (/2) x then 1 else if Rle_dec (/2) y then 1 else 0). split.
    + intros y Hy. pose proof (event_two x y Hx Hy) as He.
      destruct (Rle_dec (/2) x); [left; split; auto; tauto|].
      destruct (Rle_dec (/2) y); [left; split; auto; tauto|right; split; auto; tauto].
    + destruct (Rle_dec (/2) x).
      * apply is_RInt_const_eq. ring.
      * apply (is_RInt_Chasles_R _ 0 (/2) 1 0 (/2)); [| |lra].
        -- eapply is_RInt_ext; [|apply (is_RInt_const_eq 0); ring].
           intros t Ht. rewrite Rmin_left, Rmax_right in Ht by lra. simpl. destruct (Rle_dec (/2) t); lra.
        -- eapply is_RInt_ext; [|apply (is_RInt_const_eq 1); lra].
           intros t Ht. rewrite Rmin_left, Rmax_right in Ht by lra. simpl. destruct (Rle_dec (/2) t); lra.
  - apply (is_RInt_Chasles_R _ 0 (/2) 1 (/4) (/2)); [| |lra].
    + eapply is_RInt_ext; [|apply (is_RInt_const_eq (/2)); lra].
      intros t Ht. rewrite Rmin_left, Rmax_right in Ht by lra. simpl. destruct (Rle_dec (/2) t); lra.
    + eapply is_RInt_ext; [|apply (is_RInt_const_eq 1); lra].
      intros t Ht. rewrite Rmin_left, Rmax_right in Ht by lra. simpl. destruct (Rle_dec (/2) t); lra.
Qed.

Lemma reflect_case_b : reflect case_B = case_b.
Proof. unfold reflect, case_b, case_B. simpl. f_equal; [lra|]. f_equal. lra. Qed.

Lemma case_B_prob : is_prob 2 (noncrossing_B case_B) (3/4).
Proof. apply prob_B_reflect. rewrite reflect_case_b. apply case_b_prob. Qed.

Lemma case_two_sided_b : is_noncrossing_probability case_b ones2 (3/4).
Proof. exact (proj1 (prob_ones case_b (3/4)) case_b_prob). Qed.
Lemma case_two_sided_B : is_noncrossing_probability zeros2 case_B (3/4).
Proof. exact (proj1 (prob_zeros case_B (3/4)) case_B_prob). Qed.

Lemma case_no_gap : no_gap case_b ones2.
Proof. intros [|[|i]] Hi; simpl in *; try lra; lia. Qed.

(** any exponent function and any memory contents *)
Definition some_frexp : xr -> Z := fun _ => (-3)%Z.
Definition some_memory : nat -> nat -> xr := fun i j => if Nat.even (i + j) then NaN else PInf.
Definition some_env (with_asserts : bool) : env (Xnum some_frexp) := exact_env some_frexp with_asserts some_memory.

(** What the algorithms return on these cases. *)
From Verif Require Import Ecdf2 Ecdf1New Ecdf1Mns XFft XMns XEcdf1NewMain.

Lemma case_ecdf2 a use_fft : ecdf2 (some_env a) (map Fin case_b) (map Fin ones2) use_fft = Ok (Fin (3/4)).
Proof.
  destruct (ecdf2_exact (some_env a) case_b ones2 use_fft) as (p & [_ Hp] & ->); auto using case_b_valid, ones2_valid.
  - apply exact_env_sort.
  - intros _. apply exact_env_fft.
  - intros _. exact case_no_gap.
  - do 2 f_equal. exact (is_prob_unique _ _ _ _ Hp (proj2 case_two_sided_b)).
Qed.
Lemma case_new_B a : ecdf1_new_B (some_env a) (map Fin case_B) = Ok (Fin (3/4)).
Proof.
  destruct (new_B_total (some_env a) case_B) as (p & Hp & ->); auto using case_B_valid.
  - apply exact_env_fft.
  - simpl; lia.
  - simpl. unfold INT_MAX. lia.
  - do 2 f_equal. exact (is_prob_unique _ _ _ _ Hp case_B_prob).
Qed.
Lemma case_new_b a : ecdf1_new_b (some_env a) (map Fin case_b) = Ok (Fin (3/4)).
Proof.
  destruct (new_b_total (some_env a) case_b) as (p & Hp & ->); auto using case_b_valid.
  - apply exact_env_fft.
  - simpl; lia.
  - simpl. unfold INT_MAX. lia.
  - do 2 f_equal. exact (is_prob_unique _ _ _ _ Hp case_b_prob).
Qed.
Lemma case_mns_B a : ecdf1_mns2016_B (some_env a) (map Fin case_B) = Ok (Fin (3/4)).
Proof.
  destruct (mns_B_total (some_env a) case_B) as (p & Hp & ->); auto using case_B_valid; try apply exact_env_ld.
  do 2 f_equal. exact (is_prob_unique _ _ _ _ Hp case_B_prob).
Qed.
Lemma case_mns_b a : ecdf1_mns2016_b (some_env a) (map Fin case_b) = Ok (Fin (3/4)).
Proof.
  destruct (mns_b_total (some_env a) case_b) as (p & Hp & ->); auto using case_b_valid; try apply exact_env_ld.
  do 2 f_equal. exact (is_prob_unique _ _ _ _ Hp case_b_prob).
Qed.

(** boundaries that touch: b = (0, 1/2), B = (1/2, 1/2), probability 0 *)
Definition touch_B : list R := [/2; /2].
Lemma touch_valid : valid_boundary touch_B.
Proof. split; unfold touch_B; repeat constructor; lra. Qed.
Lemma touch_no_gap : no_gap case_b touch_B.
Proof. intros [|[|i]] Hi; simpl in *; try lra; lia. Qed.
Lemma case_touch a use_fft : ecdf2 (some_env a) (map Fin case_b) (map Fin touch_B) use_fft = Ok (Fin 0).
Proof.
  destruct (ecdf2_exact (some_env a) case_b touch_B use_fft) as (p & Hp & Hr); auto using case_b_valid, touch_valid.
  - apply exact_env_sort.
  - intros _. apply exact_env_fft.
  - intros _. exact touch_no_gap.
  - rewrite Hr. f_equal. eapply (ecdf2_touching (some_env a) case_b touch_B use_fft _ 1); eauto using case_b_valid, touch_valid.
    + apply exact_env_sort.
    + intros _. apply exact_env_fft.
    + simpl. lra.
Qed.

(** boundaries with B_2 < b_1: b = (1/2, 1/2), B = (0, 1/4) *)
Definition gap_b : list R := [/2; /2].
Definition gap_B : list R := [0; /4].
Lemma gap_b_valid : valid_boundary gap_b.
Proof. split; unfold gap_b; repeat constructor; lra. Qed.
Lemma gap_B_valid : valid_boundary gap_B.
Proof. split; unfold gap_B; repeat constructor; lra. Qed.
Lemma case_gap use_fft : exists s, ecdf2 (some_env true) (map Fin gap_b) (map Fin gap_B) use_fft = Abort s.
Proof.
  apply (ecdf2_aborts_iff (some_env true) gap_b gap_B use_fft); auto using gap_b_valid, gap_B_valid.
  - apply exact_env_sort.
  - intros _. apply exact_env_fft.
  - exists 0%nat. simpl. split; [lia|lra].
Qed.
