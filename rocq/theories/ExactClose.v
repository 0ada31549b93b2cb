(** * ExactClose: results of the library functions for boundaries that are close to each other. *)
From Coquelicot Require Import Coquelicot.
From Flocq Require Import Core.Core IEEE754.BinarySingleNaN.
From Coq Require Import ZArith Reals List String Sorted Lia Lra.
From Verif Require Import Base Num XReal Common Ecdf2 Ecdf1New Ecdf1Mns XCommon XFft Spec SpecFacts ExactFacts XEcdf1NewMain XMns Cases ProbLipschitz.
From Verif Require Import Binary64 Binary64Facts Binary64Cases AccCases.
Import List. Import ListNotations.
Local Open Scope R_scope.

Lemma ecdf2_close {frexp frexp' : xr -> Z} (E : env (Xnum frexp)) (E' : env (Xnum frexp')) (b B b' B' : list R) use_fft use_fft' p p' :
  valid_boundary b -> valid_boundary B -> length b = length B ->
  valid_boundary b' -> valid_boundary B' -> length b' = length b -> length B' = length B ->
  sort_ok E -> (use_fft = true -> fft_ok E) ->
  sort_ok E' -> (use_fft' = true -> fft_ok E') ->
  ecdf2 E (map Fin b) (map Fin B) use_fft = Ok (Fin p) ->
  ecdf2 E' (map Fin b') (map Fin B') use_fft' = Ok (Fin p') ->
  Rabs (p - p') <= INR (length b) * (distance b b' + distance B B').
Proof.
  intros V1 V2 L V1' V2' L' L'' Hs Hf Hs' Hf' R1 R2.
  apply ecdf2_returns in R1; auto. apply ecdf2_returns in R2; auto; [|congruence].
  destruct R1 as (q & H1 & H2), R2 as (q' & H1' & H2'). injection H1 as ->. injection H1' as ->.
  apply prob_close; auto; [apply V1|apply V1'|apply V2|apply V2'].
Qed.

Lemma one_sided_close {frexp frexp' : xr -> Z} (E : env (Xnum frexp)) (E' : env (Xnum frexp')) (v v' : list R) :
  valid_boundary v -> valid_boundary v' -> length v' = length v -> fft_ok E -> fft_ok E' -> long_double_ok E -> long_double_ok E' ->
  (2 <= length v)%nat -> (Z.of_nat (length v) <= INT_MAX)%Z ->
  (exists p p', ecdf1_new_B E (map Fin v) = Ok (Fin p) /\ ecdf1_mns2016_B E (map Fin v) = Ok (Fin p) /\
     ecdf1_new_B E' (map Fin v') = Ok (Fin p') /\ ecdf1_mns2016_B E' (map Fin v') = Ok (Fin p') /\
     Rabs (p - p') <= INR (length v) * distance v v') /\
  (exists p p', ecdf1_new_b E (map Fin v) = Ok (Fin p) /\ ecdf1_mns2016_b E (map Fin v) = Ok (Fin p) /\
     ecdf1_new_b E' (map Fin v') = Ok (Fin p') /\ ecdf1_mns2016_b E' (map Fin v') = Ok (Fin p') /\
     Rabs (p - p') <= INR (length v) * distance v v').
Proof.
  intros V V' HL Hf Hf' Hld Hld' H2 Hm. split.
  - destruct (new_B_total E v) as (p & Hp & E1); auto; [lia|].
    destruct (mns_B_total E v) as (q & Hq & E2); auto.
    destruct (new_B_total E' v') as (p' & Hp' & E1'); auto; [lia|lia|lia|].
    destruct (mns_B_total E' v') as (q' & Hq' & E2'); auto.
    rewrite (is_prob_unique _ _ _ _ Hq Hp) in E2. rewrite (is_prob_unique _ _ _ _ Hq' Hp') in E2'.
    exists p, p'. repeat (split; [assumption|]). apply prob_B_close; auto; [apply V|apply V'].
  - destruct (new_b_total E v) as (p & Hp & E1); auto; [lia|].
    destruct (mns_b_total E v) as (q & Hq & E2); auto.
    destruct (new_b_total E' v') as (p' & Hp' & E1'); auto; [lia|lia|lia|].
    destruct (mns_b_total E' v') as (q' & Hq' & E2'); auto.
    rewrite (is_prob_unique _ _ _ _ Hq Hp) in E2. rewrite (is_prob_unique _ _ _ _ Hq' Hp') in E2'.
    exists p, p'. repeat (split; [assumption|]). apply prob_b_close; auto; [apply V|apply V'].
Qed.

(** boundaries at distance 1 with results 3/4 and 0 *)
Lemma case_close : distance case_b case_b + distance ones2 touch_B = 1.
Proof.
  unfold case_b, ones2, touch_B. cbn [distance].
  rewrite !Rminus_eq_0, Rabs_R0, Rabs_pos_eq by lra. field.
Qed.

(** 200 points, the first to stay below 0.1 *)
Definition case200_up : list f64 := f_tenth :: repeat f_one 199.
Lemma case200_up_ok : accepted64 case200_up /\ List.length case200_up = 200%nat.
Proof.
  pose proof v_tenth as Ht. pose proof v_one as Ho.
  destruct (repeat_accepted f_one 199) as [HF [HS HR]]; [reflexivity|lra|].
  split; [|unfold case200_up; simpl List.length; reflexivity].
  unfold case200_up. split; [constructor; [reflexivity|exact HF]|]. split.
  - cbn [map]. constructor; [exact HS|]. cbn [repeat map]. constructor. lra.
  - cbn [map]. constructor; [lra|exact HR].
Qed.
