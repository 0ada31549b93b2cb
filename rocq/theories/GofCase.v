(** * GofCase: two points at distance 1/4. *)
From Coq Require Import Reals List Lia Lra Permutation Sorted.
From Verif Require Import Spec SpecFacts GofSpec GofKs.
Import ListNotations.
Local Open Scope R_scope.

Lemma case_lower : ks_lower 2 (1 / 4) = [1 / 4; 3 / 4].
Proof. unfold ks_lower. simpl. rewrite !Rmax_right by lra. f_equal; [lra|]. f_equal. lra. Qed.
Lemma case_upper : ks_upper 2 (1 / 4) = [1 / 4; 3 / 4].
Proof. unfold ks_upper. simpl. rewrite !Rmin_right by lra. f_equal; [lra|]. f_equal. lra. Qed.
Lemma case_at_most : ks_at_most (1 / 4) [3 / 4; 1 / 4].
Proof.
  apply (ks_event 2 (1 / 4)); try reflexivity; try lra; [lia|repeat constructor; lra|]. rewrite case_lower, case_upper.
  exists [1 / 4; 3 / 4]. split; [apply perm_swap|]. split; [repeat constructor; lra|]. split; repeat constructor; lra.
Qed.
Lemma case_not : ~ ks_at_most (1 / 4) [1 / 2; 1 / 2].
Proof.
  intros H. specialize (H (1 / 2) ltac:(lra)). unfold empirical_cdf, number_upto in H. simpl in H.
  destruct (Rle_dec (1 / 2) (1 / 2)) as [_|N]; [|lra]. simpl in H.
  replace ((1 + 1) / (1 + 1) - 1 / 2) with (1 / 2) in H by lra. rewrite Rabs_pos_eq in H; lra.
Qed.
