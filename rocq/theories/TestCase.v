(** * TestCase: file systems and environments for the theorems about the test suite. *)
From Coquelicot Require Import Coquelicot.
From Flocq Require Import Core.Core IEEE754.BinarySingleNaN.
From Coq Require Import ZArith Reals List Bool Lra String.
From Verif Require Import Base Num XReal Ecdf2 XFft ExactEnv Spec StrtodSpec Binary64 AccPmf AccFft LongDouble AccMnsEval AccMns AccMnsCase AccCliCase.
From Verif Require Import StringSpec ShowSpec ShowMore ShowCases TestSpec TestProb TestCli.
Import List. Import ListNotations.
Local Open Scope R_scope.
Local Open Scope string_scope.

Definition test_fs (f : string) : option string := option_map text (find (fun t => f =? name t) test_files).
Lemma test_fs_ok t : In t test_files -> test_fs (name t) = Some (text t).
Proof. intros H. repeat destruct H as [<-|H]; [reflexivity..|destruct H]. Qed.
Lemma test_env_exact a : show_ok real_of_xr (show_env a) /\ sort_ok (show_env a) /\ fft_ok (show_env a) /\ long_double_ok (show_env a) /\
  (forall t, In t test_files -> test_fs (name t) = Some (text t)).
Proof. destruct (show_env_ok a) as (H1 & H2 & H3 & H4). exact (conj H1 (conj H2 (conj H3 (conj H4 test_fs_ok)))). Qed.
Lemma test_env_binary64 a : strtod_correct text_libm /\ show_ok real_of_f64 (show_text_env a) /\ sort_ok (show_text_env a) /\
  libm_accurate text_libm (bpow radix2 (-53)) /\ fft_accurate (show_text_env a) (bpow radix2 (-53)) /\
  libml_accurate cr_libml (bpow radix2 (-64)) /\ libml_special cr_libml /\ long_dbl (show_text_env a) = x87 text_libm cr_libml /\
  (forall t, In t test_files -> test_fs (name t) = Some (text t)).
Proof.
  destruct (show_text_ok a) as (H1 & H2 & H3).
  exact (conj text_strtod (conj H1 (conj H2 (conj text_accurate (conj H3 (conj cr80_accurate (conj cr80_special (conj eq_refl test_fs_ok)))))))).
Qed.

(** A wrong expectation would be noticed: 0.75 is not the text of the probability of bounds8. *)
Lemma expectation_matters : ~ prints_as bounds8 "0.75".
Proof.
  intros (p & HP & H). destruct text_bounds8 as (p' & HP' & H').
  specialize (H p (show6 p)). specialize (H' p' (show6 p')). rewrite (SpecFacts.is_prob_unique _ _ _ _ (proj2 HP') (proj2 HP)) in H'.
  rewrite Rminus_diag_eq, Rabs_R0 in H, H' by reflexivity.
  specialize (H ltac:(lra) (show6_ok p)). specialize (H' ltac:(lra) (show6_ok p)). rewrite H in H'. discriminate H'.
Qed.
