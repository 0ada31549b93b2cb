(** * Binary64Cases: concrete binary64 inputs meeting the hypotheses of C20. *)
From Coquelicot Require Import Coquelicot.
From Flocq Require Import Core.Core IEEE754.BinarySingleNaN.
From Coq Require Import ZArith Reals List Bool Lia Lra String Permutation Sorted.
From Verif Require Import Base Num Ecdf2 Binary64 Spec SafeFft ExactEnv XEcdf2Main Binary64Facts.
Import List. Import ListNotations.
Local Open Scope R_scope.

(** 0.5, and 0.1 as the compiler reads it: 0x1.999999999999ap-4, not exactly 1/10. *)
Definition f_half : f64 := @B754_finite 53 1024 false 4503599627370496 (-53) eq_refl.
Definition f_tenth : f64 := @B754_finite 53 1024 false 7205759403792794 (-56) eq_refl.
Definition f_one : f64 := @B754_finite 53 1024 false 4503599627370496 (-52) eq_refl.
Definition f_mzero : f64 := B754_zero true.

Lemma v_half : B2R f_half = 1 / 2.
Proof. unfold B2R, f_half, F2R. cbn [Fnum Fexp cond_Zopp]. change (bpow radix2 (-53)) with (/ 9007199254740992). lra. Qed.
Lemma v_tenth : B2R f_tenth = 7205759403792794 / 72057594037927936.
Proof. unfold B2R, f_tenth, F2R. cbn [Fnum Fexp cond_Zopp]. change (bpow radix2 (-56)) with (/ 72057594037927936). lra. Qed.
Lemma v_one : B2R f_one = 1.
Proof. unfold B2R, f_one, F2R. cbn [Fnum Fexp cond_Zopp]. change (bpow radix2 (-52)) with (/ 4503599627370496). lra. Qed.

Definition case64_b : list f64 := [f_mzero; f_tenth; f_half].
Definition case64_B : list f64 := [f_tenth; f_half; f_one].

Lemma case64_accepted : accepted64 case64_b /\ accepted64 case64_B.
Proof.
  pose proof v_half. pose proof v_tenth. pose proof v_one. assert (B2R f_mzero = 0) by reflexivity.
  split; split; try (repeat (apply Forall_cons || apply Forall_nil); reflexivity); cbn [map case64_b case64_B]; split.
  - repeat (apply Sorted_cons || apply Sorted_nil || apply HdRel_cons || apply HdRel_nil); lra.
  - repeat (apply Forall_cons || apply Forall_nil); lra.
  - repeat (apply Sorted_cons || apply Sorted_nil || apply HdRel_cons || apply HdRel_nil); lra.
  - repeat (apply Forall_cons || apply Forall_nil); lra.
Qed.
Lemma case64_good : ~ bad_pair (map B2R case64_b) (map B2R case64_B).
Proof.
  pose proof v_half. pose proof v_tenth. pose proof v_one. assert (B2R f_mzero = 0) by reflexivity.
  intros (i & Hi & Hlt). cbn [map List.length case64_b case64_B] in *.
  destruct i as [|[|[|i]]]; cbn [nth] in Hlt; try lra; lia.
Qed.

(** An environment: insertion sort, transforms of the right lengths. *)
Definition env64 (L : libm) (a : bool) : env (Bnum L) :=
  mkEnv (Bnum L) a (fun _ _ => B754_nan) isort
    (fun x => repeat (n0, n0) (List.length x / 2 + 1)) (fun n _ => repeat n0 n) (fun _ => EmptyString)
    (@mkLD (Bnum L) (Bnum L) (fun x => x) (fun x => x)).
Lemma env64_sort L a : sort_ok (env64 L a).
Proof. apply isort_ok. reflexivity. Qed.
Lemma env64_lengths L a : fft_lengths (env64 L a).
Proof. split; intros; simpl; [rewrite repeat_length; reflexivity|apply repeat_length]. Qed.
