(** * FastMnsCli: the command ecdf1-mns2016 of the crossprob program as compiled with -ffast-math. *)
From Coquelicot Require Import Coquelicot.
From Flocq Require Import Core.Core IEEE754.BinarySingleNaN.
From Coq Require Import ZArith Reals List Bool Lia Lra String Permutation Sorted.
From Verif Require Import Base Num XReal StringUtils MonteCarlo Cli Ecdf1Mns.
From Verif Require Import Spec StringSpec CliSpec CliFacts SpecFacts Reflect ExactEnv ExactFacts XEcdf2Main Cases StrtodSpec Binary64 Binary64Facts B64Round AccCli AccCases.
From Verif Require Import LongDouble LdRound AccMnsEval AccMns AccMnsMain AccMnsCase AccCliCase FastMath FastInst FastMain FastFft FastFftMain FastLong FastMnsMain FastMnsCase FastCli.
Import List. Import ListNotations.
Local Open Scope R_scope.

Section Fast.
Context (C : compiler) (L : libm) (E : env (Fnum C L)) (frexp : xr -> Z) (fs : filesystem) (prog f contents : string) (show : f64 -> string).
Context (HS : strtod_correct L) (Hshow : forall r, @show_double (Fnum C L) E r = show (cp_sum C r)) (HF : fs f = Some contents).
Notation FN := (Fnum C L).

Lemma cli_mns_fast (D : lcompiler) (M : libml) (eps : R) (v : list R) :
  libml_accurate M eps -> bpow radix2 (-64) <= eps -> eps <= bpow radix2 (-40) -> long_dbl E = fast87 C L D M ->
  (1 <= List.length v <= 4096)%nat -> valid_boundary v -> Forall plain v ->
  let N := INR (S (List.length v)) in
  let nu := INR (List.length v) * INR (List.length v) * bpow radix2 (-53) in
  (file_holds (N := Xnum frexp) contents (map Fin v) [] ->
   exists p (r : f64), is_prob (List.length v) (noncrossing_b v) p /\
    @cli_main FN E fs [prog; "ecdf1-mns2016"%string; f] = Ok ([Text (show r)], 0%Z) /\
    ((56 * (N * N) + 57 * N) * eps + nu < p ->
     is_finite r = true /\ Rabs (B2R r - p) <= (56 * (N * N) + 410 * N) * eps + bpow radix2 (-52) + nu)) /\
  (file_holds (N := Xnum frexp) contents [] (map Fin v) ->
   exists p (r : f64), is_prob (List.length v) (noncrossing_B v) p /\
    @cli_main FN E fs [prog; "ecdf1-mns2016"%string; f] = Ok ([Text (show r)], 0%Z) /\
    ((56 * (N * N) + 57 * N) * eps + 2 * nu < p ->
     is_finite r = true /\ Rabs (B2R r - p) <= (56 * (N * N) + 410 * N) * eps + bpow radix2 (-52) + 2 * nu)).
Proof.
  intros HM He He1 HLD H1 Hv Nv N nu.
  assert (NE : v <> []) by (destruct v; [simpl in H1; lia|discriminate]).
  split; intros Hh.
  - destruct (file64 L frexp HS contents v []) as (b6 & B6 & Hh6 & A1 & A2 & E1 & E2); auto using plain_normal; try (split; constructor).
    assert (HB6 : B6 = []) by (destruct B6; [reflexivity|discriminate]). subst B6.
    assert (L1 : List.length b6 = List.length v) by (pose proof (f_equal (@List.length R) E1) as HH; rewrite !map_length in HH; exact HH).
    destruct (mns_b_fast C L D M eps E HM He He1 HLD b6 A1 ltac:(lia)) as (p' & r & Hp' & Hr & Hacc).
    unfold err_bound, mns_bound in Hacc. rewrite E1, L1 in *. fold N in Hacc.
    destruct (written_b v p' Hv (plain_normal _ Nv) Hp') as (p & Hp & Hd). change (INR (List.length v) * INR (List.length v) * u64) with nu in Hd.
    exists p, (cp_sum C r). split; [exact Hp|]. split.
    + rewrite <- Hshow. apply cli_success. exists (map lit b6), [], r. split; [apply (read_file_holds fs f contents); auto; apply (ffile C L _ b6 []); exact Hh6|]. split; [|reflexivity].
      refine (eq_ind _ (command_runs E _ _ _) _ _ Hr). apply (@runs_mns_b FN E).
      destruct b6; [destruct v; [congruence|discriminate]|discriminate].
    + intros Hlt. apply Rcomplements.Rabs_le_between in Hd. destruct Hacc as [Fr Vr]; [lra|]. split; [exact Fr|].
      apply Rcomplements.Rabs_le_between in Vr. apply Rcomplements.Rabs_le_between. lra.
  - destruct (file64 L frexp HS contents [] v) as (b6 & B6 & Hh6 & A1 & A2 & E1 & E2); auto using plain_normal; try (split; constructor).
    assert (Hb6 : b6 = []) by (destruct b6; [reflexivity|discriminate]). subst b6.
    assert (L1 : List.length B6 = List.length v) by (pose proof (f_equal (@List.length R) E2) as HH; rewrite !map_length in HH; exact HH).
    destruct (mns_B_fast C L D M eps E HM He He1 HLD B6 A2 (plain_read v B6 E2 Nv) ltac:(lia)) as (p' & r & Hp' & Hr & Hacc).
    unfold err_bound, mns_bound in Hacc. rewrite E2, L1 in *. fold N in Hacc.
    destruct (written_B v p' Hv (plain_normal _ Nv) Hp') as (p & Hp & Hd). change (INR (List.length v) * INR (List.length v) * u64) with nu in Hd, Hacc.
    exists p, (cp_sum C r). split; [exact Hp|]. split.
    + rewrite <- Hshow. apply cli_success. exists [], (map lit B6), r. split; [apply (read_file_holds fs f contents); auto; apply (ffile C L _ [] B6); exact Hh6|]. split; [|reflexivity].
      refine (eq_ind _ (command_runs E _ _ _) _ _ Hr). apply (@runs_mns_B FN E).
      destruct B6; [destruct v; [congruence|discriminate]|discriminate].
    + intros Hlt. apply Rcomplements.Rabs_le_between in Hd. destruct Hacc as [Fr Vr]; [lra|]. split; [exact Fr|].
      apply Rcomplements.Rabs_le_between in Vr. apply Rcomplements.Rabs_le_between. lra.
Qed.
End Fast.

(** ** A case: the files "0.1, 0.3" and "/ 0.8, 1" of AccCliCase.v *)
Definition fast80_text_env (C : compiler) (show : f64 -> string) (a : bool) : env (Fnum C text_libm) :=
  mkEnv (Fnum C text_libm) a (fun _ _ => lit B754_nan) (sort_bounds (fast_text_env C show a)) (fft_r2c (fast_text_env C show a)) (fft_c2r (fast_text_env C show a))
    (fun r => show (cp_sum C r)) (fast87 C text_libm back_compiler cr_libml).

Lemma step_int (c w u : R) : 0 <= c <= 1 -> is_RInt (fun t => if Rle_dec c t then u else w) 0 1 (w * c + u * (1 - c)).
Proof.
  intros Hc. apply (is_RInt_Chasles_R _ 0 c 1 (w * c) (u * (1 - c))); [| |lra].
  - eapply is_RInt_ext; [|apply (is_RInt_const_eq w); ring].
    intros t Ht. rewrite Rmin_left, Rmax_right in Ht by lra. simpl. destruct (Rle_dec c t); lra.
  - eapply is_RInt_ext; [|apply (is_RInt_const_eq u); ring].
    intros t Ht. rewrite Rmin_left, Rmax_right in Ht by lra. simpl. destruct (Rle_dec c t); lra.
Qed.
Lemma is_RInt_val (g : R -> R) (a c u w : R) : is_RInt g a c u -> u = w -> is_RInt g a c w.
Proof. intros H <-. exact H. Qed.
Lemma low_event (c d x y : R) : c <= d -> noncrossing_b [c; d] [x; y] <-> (c <= x /\ d <= y \/ c <= y /\ d <= x).
Proof.
  intros Hcd. split.
  - intros (o & HP & HS & HF). inversion HF as [|? u ? t H0 HF1]; subst. inversion HF1 as [|? v ? t' H1 HF2]; subst. inversion HF2; subst.
    apply Permutation_length_2_inv in HP. destruct HP as [HP|HP]; injection HP as ? ?; subst; auto.
  - intros H. destruct (Rle_or_lt x y) as [Hxy|Hxy].
    + exists [x; y]. split; [apply Permutation_refl|]. split; repeat first [apply Sorted_nil|apply Sorted_cons|apply HdRel_nil|apply HdRel_cons|apply Forall2_nil|apply Forall2_cons]; lra.
    + exists [y; x]. split; [apply perm_swap|]. split; repeat first [apply Sorted_nil|apply Sorted_cons|apply HdRel_nil|apply HdRel_cons|apply Forall2_nil|apply Forall2_cons]; lra.
Qed.
(** two points: Pr[X_(1) >= c, X_(2) >= d] = (1-c)^2 - (d-c)^2 *)
Lemma low_prob (c d : R) : 0 <= c -> c <= d -> d <= 1 -> is_prob 2 (noncrossing_b [c; d]) ((1 - c) * (1 - c) - (d - c) * (d - c)).
Proof.
  intros Hc Hcd Hd. cbn [is_prob]. exists (fun x => if Rle_dec d x then 1 - c else if Rle_dec c x then 1 - d else 0). split.
  - intros x Hx. exists (fun y => if Rle_dec (if Rle_dec d x then c else d) y then (if Rle_dec c x then 1 else 0) else 0). split.
    + intros y Hy. pose proof (low_event c d x y Hcd) as He.
      destruct (Rle_dec d x); destruct (Rle_dec c x); try lra.
      * destruct (Rle_dec c y); [left|right]; (split; [|reflexivity]); rewrite He; lra.
      * destruct (Rle_dec d y); [left|right]; (split; [|reflexivity]); rewrite He; lra.
      * destruct (Rle_dec d y); right; (split; [|reflexivity]); rewrite He; lra.
    + destruct (Rle_dec d x); destruct (Rle_dec c x); try lra;
        match goal with |- is_RInt (fun y => if Rle_dec ?e y then ?u else ?w) 0 1 ?r =>
          apply (is_RInt_val _ _ _ _ _ (step_int e w u ltac:(lra))); ring end.
  - replace ((1 - c) * (1 - c) - (d - c) * (d - c)) with ((0 * c + (1 - d) * (1 - c)) + (0 * d + (d - c) * (1 - d))) by ring.
    eapply is_RInt_ext; [|apply (is_RInt_plus (V := R_NormedModule) _ _ _ _ _ _ (step_int c 0 (1 - d) ltac:(lra)) (step_int d 0 (d - c) ltac:(lra)))].
    intros t _. simpl. unfold plus; simpl. destruct (Rle_dec d t); destruct (Rle_dec c t); lra.
Qed.
Lemma text_b_prob : is_prob 2 (noncrossing_b text_b) (77 / 100).
Proof. pose proof (low_prob (1/10) (3/10) ltac:(lra) ltac:(lra) ltac:(lra)) as H. replace (77 / 100) with ((1 - 1/10) * (1 - 1/10) - (3/10 - 1/10) * (3/10 - 1/10)) by field. exact H. Qed.
Lemma text_B_prob : is_prob 2 (noncrossing_B text_B) (96 / 100).
Proof.
  apply prob_B_reflect. unfold reflect, text_B. cbn [rev app map].
  replace (96 / 100) with ((1 - (1 - 1)) * (1 - (1 - 1)) - ((1 - 8/10) - (1 - 1)) * ((1 - 8/10) - (1 - 1))) by field. apply low_prob; lra.
Qed.

Lemma fast80_text (flush : bool) (show : f64 -> string) :
  let E := fast80_text_env (simd_compiler flush) show true in
  (exists r : f64, cli_main E text_fs ["crossprob"%string; "ecdf1-mns2016"%string; "b.txt"%string] = Ok ([Text (show r)], 0%Z) /\
     is_finite r = true /\ Rabs (B2R r - 77 / 100) <= 1 / 1000000000000) /\
  (exists r : f64, cli_main E text_fs ["crossprob"%string; "ecdf1-mns2016"%string; "B.txt"%string] = Ok ([Text (show r)], 0%Z) /\
     is_finite r = true /\ Rabs (B2R r - 96 / 100) <= 1 / 1000000000000).
Proof.
  intros E.
  assert (Hb : bpow radix2 (-64) <= bpow radix2 (-63)) by (apply bpow_le; lia).
  assert (Hb1 : bpow radix2 (-63) <= bpow radix2 (-40)) by (apply bpow_le; lia).
  assert (V63 : bpow radix2 (-63) = / 9223372036854775808) by reflexivity.
  assert (V53 : bpow radix2 (-53) = / 9007199254740992) by reflexivity.
  assert (V52 : bpow radix2 (-52) = / 4503599627370496) by reflexivity.
  pose proof (fun f c h => cli_mns_fast (simd_compiler flush) text_libm E some_frexp text_fs "crossprob" f c show text_strtod (fun r => eq_refl) h
    back_compiler cr_libml (bpow radix2 (-63))) as H.
  split.
  - destruct (proj1 (H "b.txt"%string one_text eq_refl text_b cr80_63 Hb Hb1 eq_refl ltac:(cbn; lia) (proj1 text_valid) (proj1 text_plain)) one_holds)
      as (p & r & Hp & Hr & Ha).
    rewrite (is_prob_unique _ _ _ _ Hp text_b_prob) in Ha. change (List.length text_b) with 2%nat in Ha. rewrite V63, V53, V52 in Ha. cbn [INR] in Ha.
    exists r. split; [exact Hr|]. destruct Ha as [F V]; [lra|]. split; [exact F|]. eapply Rle_trans; [exact V|]. lra.
  - destruct (proj2 (H "B.txt"%string other_text eq_refl text_B cr80_63 Hb Hb1 eq_refl ltac:(cbn; lia) (proj2 text_valid) (proj2 text_plain)) other_holds)
      as (p & r & Hp & Hr & Ha).
    rewrite (is_prob_unique _ _ _ _ Hp text_B_prob) in Ha. change (List.length text_B) with 2%nat in Ha. rewrite V63, V53, V52 in Ha. cbn [INR] in Ha.
    exists r. split; [exact Hr|]. destruct Ha as [F V]; [lra|]. split; [exact F|]. eapply Rle_trans; [exact V|]. lra.
Qed.
