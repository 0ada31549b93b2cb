(** * ShowCases: environments whose ostream writes numbers as the standards say, and a file with a small
    crossing probability. *)
From Coquelicot Require Import Coquelicot.
From Flocq Require Import Core.Core IEEE754.BinarySingleNaN.
From Coq Require Import ZArith Reals List Bool Lia Lra String Sorted Permutation Ascii.
From Verif Require Import Base Num XReal Ecdf2 StringUtils MonteCarlo Cli Spec StringSpec CliSpec CliFacts XFft ExactEnv SpecFacts Cases TextMore.
From Verif Require Import StrtodSpec Binary64 Binary64Facts B64Round AccPmf AccFft LongDouble AccMnsEval AccMns AccMnsCase AccCases AccCli AccCliCase.
From Verif Require Import UsageSpec UsageFacts ShowSpec ShowFacts ShowMore ShowCli.
Import List. Import ListNotations.
Local Open Scope R_scope.
Local Open Scope string_scope.

Definition show_xr (x : xr) : string := match x with Fin v => show6 v | PInf => "inf" | NInf => "-inf" | NaN => "nan" end.
Definition with_show {N : num} (show : car N -> string) (E : env N) : env N :=
  mkEnv N (asserts E) (junk E) (sort_bounds E) (fft_r2c E) (fft_c2r E) show (long_dbl E).
Definition show_env (a : bool) : env (Xnum some_frexp) := with_show (N := Xnum some_frexp) show_xr (some_env a).
Lemma show_env_ok a : show_ok real_of_xr (show_env a) /\ sort_ok (show_env a) /\ fft_ok (show_env a) /\ long_double_ok (show_env a).
Proof.
  split; [intros x v ->; apply show6_ok|]. split; [exact (exact_env_sort some_frexp a some_memory)|].
  split; [exact (exact_env_fft some_frexp a some_memory)|exact (exact_env_ld some_frexp a some_memory)].
Qed.
Definition show_f64 (x : f64) : string :=
  match x with
  | B754_zero s => if s then "-0" else "0"
  | B754_infinity s => if s then "-inf" else "inf"
  | B754_nan => "nan"
  | B754_finite _ _ _ _ => show6 (B2R x)
  end.
Definition show_text_env (a : bool) : env (Bnum text_libm) := with_show (N := Bnum text_libm) show_f64 (text_env a).
Lemma show_text_ok a : show_ok real_of_f64 (show_text_env a) /\ sort_ok (show_text_env a) /\ fft_accurate (show_text_env a) u64.
Proof.
  split; [|split; [exact (text_sort a)|exact (text_fft a)]].
  intros x v [Fx ->]. destruct (x : f64) as [s|s| |s m e Hm] eqn:EX; try discriminate.
  - apply printed_zero; [reflexivity|]. simpl. destruct s; auto.
  - exact (show6_ok (B2R (B754_finite s m e Hm : f64))).
Qed.

(** Some of the texts. *)
Lemma text_of v d X : 0 < v -> six_digits v d X -> show6 v = general_of d X.
Proof.
  intros Hv HS. apply (printed_unique v); [lra|apply show6_ok|]. apply (printed_pos v d X); [exact Hv|exact HS|]. apply general_of_ok.
  exact (six_nonneg _ _ _ HS).
Qed.
Lemma show_three_quarters : show6 (3/4) = "0.75".
Proof.
  rewrite (text_of (3/4) 750000 (-1)); [reflexivity|lra|]. apply six_within; [rewrite Rabs_pos_eq by lra; simpl; lra| |lia].
  change (5 - -1)%Z with 6%Z. rewrite Rabs_pos_eq, <- power_nat by lra || lia. change (10 ^ 6)%Z with 1000000%Z.
  unfold nearest_integer. replace (3 / 4 * 1000000 - 750000) with 0 by lra. rewrite Rabs_R0. split; [lra|reflexivity].
Qed.
Lemma show_third : show6 (1/3) = "0.333333".
Proof.
  assert (Q : 0 <= 1 / 3 * 1000000 - 333333 <= 4/10) by lra.
  rewrite (text_of (1/3) 333333 (-1)); [reflexivity|lra|]. apply six_within; [rewrite Rabs_pos_eq by lra; simpl; lra| |lia].
  change (5 - -1)%Z with 6%Z. rewrite (Rabs_pos_eq (1/3)), <- power_nat by lra || lia. change (10 ^ 6)%Z with 1000000%Z.
  split; rewrite Rabs_pos_eq by lra; lra.
Qed.
Lemma show_small : show6 (1/30000) = "3.33333e-05".
Proof.
  assert (Q : 0 <= 1 / 30000 * 10000000000 - 333333 <= 4/10) by lra.
  rewrite (text_of (1/30000) 333333 (-5)); [reflexivity|lra|]. apply six_within; [rewrite Rabs_pos_eq by lra; simpl; lra| |lia].
  change (5 - -5)%Z with 10%Z. rewrite (Rabs_pos_eq (1/30000)), <- power_nat by lra || lia. change (10 ^ 10)%Z with 10000000000%Z.
  split; rewrite Rabs_pos_eq by lra; lra.
Qed.

(** ** A crossing probability of 10^-7 *)
Definition tail_text : string := "0" ++ String newline ("0.9999999" ++ String newline "").
Definition tail_B : list R := [9999999/10000000].
Lemma tail_prob : is_noncrossing_probability [0] tail_B (9999999/10000000).
Proof.
  set (c := 9999999/10000000). assert (Hc : 0 < c < 1) by (unfold c; lra). split; [reflexivity|].
  change (is_prob 1 (noncrossing [0] [c]) c). cbn [is_prob].
  exists (fun x => if Rle_dec x c then 1 else 0). split.
  - intros x Hx. destruct (Rle_dec x c) as [L|L]; [left|right]; (split; [|reflexivity]).
    + exists [x]. split; [apply Permutation_refl|]. split; [repeat constructor|]. split; (apply Forall2_cons; [lra|apply Forall2_nil]).
    + intros (o & HP & _ & _ & HF). apply Permutation_length_1_inv in HP. subst o. inversion HF; subst. lra.
  - apply (is_RInt_Chasles_R _ 0 c 1 c 0); [| |lra].
    + eapply is_RInt_ext; [|apply (is_RInt_const_eq 1); lra].
      intros t Ht. rewrite Rmin_left, Rmax_right in Ht by lra. simpl. destruct (Rle_dec t c); lra.
    + eapply is_RInt_ext; [|apply (is_RInt_const_eq 0); lra].
      intros t Ht. rewrite Rmin_left, Rmax_right in Ht by lra. simpl. destruct (Rle_dec t c); lra.
Qed.
Lemma tail_valid : valid_boundary [0] /\ valid_boundary tail_B /\ Forall normal [0] /\ Forall normal tail_B.
Proof.
  unfold tail_B. repeat split; try (repeat constructor; lra).
  apply Forall_cons; [apply big_normal; lra|constructor].
Qed.
Lemma tail_holds frexp : file_holds (N := Xnum frexp) tail_text (map Fin [0]) (map Fin tail_B).
Proof.
  apply holds_only.
  assert (X : read_and_check_boundaries_file (N := Xnum frexp) (only tail_text) "bounds.txt" =
    Ok ([Fin (1 * IZR 0 * powerRZ 10 0)], [Fin (1 * IZR 9999999 * powerRZ 10 (-7))])) by read_text.
  rewrite X. unfold tail_B. cbn [map]. do 4 f_equal; simpl; lra.
Qed.
Lemma tail_exact {frexp} (E : env (Xnum frexp)) fs prog f : fs f = Some tail_text -> show_ok real_of_xr E -> sort_ok E ->
  cli_main E fs [prog; "ecdf2-ks2001"; f] = Ok ([Text "1"], 0%Z).
Proof.
  intros HF HS HO. destruct tail_valid as (V1 & V2 & _).
  destruct (exact_two E fs prog f tail_text HS HF [0] tail_B false (tail_holds frexp) V1 V2 eq_refl HO) as (p & w & HP & _ & _ & _ & _ & K).
  - discriminate.
  - intros _ i Hi. simpl in Hi. lia.
  - apply K. rewrite (is_prob_unique _ _ _ _ (proj2 HP) (proj2 tail_prob)). lra.
Qed.
Lemma tail_rounded (L : libm) (E : env (Bnum L)) fs prog f eps : fs f = Some tail_text ->
  show_ok real_of_f64 E -> sort_ok E -> strtod_correct L -> libm_accurate L eps -> bpow radix2 (-53) <= eps <= 1 / 1000000000000 ->
  @cli_main (Bnum L) E fs [prog; "ecdf2-ks2001"; f] = Ok ([Text "1"], 0%Z).
Proof.
  intros HF HS HO HT HA He. destruct tail_valid as (V1 & V2 & N1 & N2).
  destruct (cli_two64 L E some_frexp fs prog f tail_text HT HF eps eps false [0] tail_B HA) as (p & r & HP & HM & Fr & HR); try assumption.
  - apply He.
  - discriminate.
  - simpl. lra.
  - exact (tail_holds some_frexp).
  - reflexivity.
  - intros _ i Hi. simpl in Hi. lia.
  - rewrite (is_prob_unique _ _ _ _ (proj2 HP) (proj2 tail_prob)) in HR. unfold two_bound in HR. change (INR (List.length [0])) with 1 in HR. cbv iota in HR.
    assert (S : bpow radix2 (-1000) <= 1 / 1000000000).
    { apply Rle_trans with (bpow radix2 (-30)); [apply bpow_le; lia|]. change (-30)%Z with (-(30))%Z. rewrite bpow_opp. change (bpow radix2 30) with 1073741824. lra. }
    apply Rabs_le_inv in HR. change (ecdf2_command false) with "ecdf2-ks2001" in HM.
    pose proof (HS (r : car (Bnum L)) (B2R r) (conj Fr eq_refl)) as P. rewrite (printed_one (B2R r) _ ltac:(lra) P) in HM. exact HM.
Qed.
