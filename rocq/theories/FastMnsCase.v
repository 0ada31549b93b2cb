(** * FastMnsCase: agreement of builds, and a compiler for long double. *)
From Coquelicot Require Import Coquelicot.
From Flocq Require Import Core.Core IEEE754.BinarySingleNaN.
From Coq Require Import ZArith Reals List Bool Lia Lra String Permutation Sorted.
From Verif Require Import Base Num Binary64 Binary64Facts Binary64Cases B64Round AccCases LongDouble LdRound Ecdf1Mns AccMnsEval AccMns AccMnsCase AccMnsMain.
From Verif Require Import Spec SpecFacts Cases FastMath FastInst FastMain FastFftMain FastLong FastMnsMain.
Import List. Import ListNotations.
Local Open Scope R_scope.

(** two builds with -ffast-math, and one without *)
Lemma mns_b_builds (C C' : compiler) (L L' : libm) (D D' : lcompiler) (M M' : libml) (E : env (Fnum C L)) (E' : env (Fnum C' L')) (b : list f64) r r' p :
  libml_accurate M (bpow radix2 (-63)) -> long_dbl E = fast87 C L D M ->
  libml_accurate M' (bpow radix2 (-63)) -> long_dbl E' = fast87 C' L' D' M' ->
  accepted64 b -> (List.length b <= 1000)%nat ->
  is_prob (List.length b) (noncrossing_b (map B2R b)) p -> 1 / 100000000000 < p ->
  @ecdf1_mns2016_b (Fnum C L) E (map lit b) = Ok r -> @ecdf1_mns2016_b (Fnum C' L') E' (map lit b) = Ok r' ->
  Rabs (B2R (cp_sum C r) - B2R (cp_sum C' r')) <= 2 / 100000000000.
Proof.
  intros HM HL HM' HL' Hb Hn Hp H1 Hr Hr'.
  destruct (mns_b_fast_1000 C L D M E HM HL b Hb Hn) as (p1 & r1 & P1 & R1 & A1).
  destruct (mns_b_fast_1000 C' L' D' M' E' HM' HL' b Hb Hn) as (p2 & r2 & P2 & R2 & A2).
  rewrite (is_prob_unique _ _ _ _ P1 Hp) in A1. rewrite (is_prob_unique _ _ _ _ P2 Hp) in A2.
  assert (r1 = r) by congruence. assert (r2 = r') by congruence. subst r1 r2.
  destruct (A1 H1) as [_ V1]. destruct (A2 H1) as [_ V2].
  replace (B2R (cp_sum C r) - B2R (cp_sum C' r')) with ((B2R (cp_sum C r) - p) - (B2R (cp_sum C' r') - p)) by ring.
  unfold Rminus at 1. eapply Rle_trans; [apply Rabs_triang|]. rewrite Rabs_Ropp. lra.
Qed.
Lemma mns_b_ieee (C : compiler) (L L' : libm) (D : lcompiler) (M M' : libml) (E : env (Fnum C L)) (E' : env (Bnum L')) (b : list f64) r (r' : f64) p :
  libml_accurate M (bpow radix2 (-63)) -> long_dbl E = fast87 C L D M ->
  libml_accurate M' (bpow radix2 (-63)) -> libml_special M' -> long_dbl E' = x87 L' M' ->
  accepted64 b -> (List.length b <= 1000)%nat ->
  is_prob (List.length b) (noncrossing_b (map B2R b)) p -> 1 / 100000000000 < p ->
  @ecdf1_mns2016_b (Fnum C L) E (map lit b) = Ok r -> @ecdf1_mns2016_b (Bnum L') E' b = Ok r' ->
  Rabs (B2R (cp_sum C r) - B2R r') <= 2 / 100000000000.
Proof.
  intros HM HL HM' HS' HL' Hb Hn Hp H1 Hr Hr'.
  destruct (mns_b_fast_1000 C L D M E HM HL b Hb Hn) as (p1 & r1 & P1 & R1 & A1).
  destruct (mns_b_1000 L' M' E' HM' HS' HL' b Hb Hn) as (p2 & r2 & P2 & R2 & A2).
  rewrite (is_prob_unique _ _ _ _ P1 Hp) in A1. rewrite (is_prob_unique _ _ _ _ P2 Hp) in A2.
  assert (r1 = r) by congruence. subst r1. rewrite R2 in Hr'. injection Hr' as Hr'. subst r'.
  destruct (A1 H1) as [_ V1]. destruct A2 as [[_ V2]|[_ V2]]; [lra|].
  replace (B2R (cp_sum C r) - B2R (r2 : f64)) with ((B2R (cp_sum C r) - p) - (B2R (r2 : f64) - p)) by ring.
  unfold Rminus at 1. eapply Rle_trans; [apply Rabs_triang|]. rewrite Rabs_Ropp. lra.
Qed.

(** ** A compiler that adds from the last term to the first and multiplies with reciprocals *)
Fixpoint back_sum (l : list f80) : f80 :=
  match l with [] => f80_of_Z 0 | x :: r => match r with [] => x | _ => Bplus mode_NE x (back_sum r) end end.
Definition back_div (x y : f80) : f80 := Bmult mode_NE x (Bdiv mode_NE (f80_of_Z 1) y).
Lemma back_sum_ok l : l <> [] -> sums_to l (back_sum l).
Proof.
  induction l as [|x l IH]; intros H; [congruence|]. destruct l as [|y l]; [apply st_one|].
  change (back_sum (x :: y :: l)) with (Bplus mode_NE x (back_sum (y :: l))).
  apply (st_add _ [x] (y :: l)); [apply Permutation_refl|apply st_one|apply IH; discriminate].
Qed.
Lemma back_div_ok x y : quotient_of x y (back_div x y).
Proof. right. reflexivity. Qed.
Definition back_compiler : lcompiler := mkLcompiler back_sum back_div back_sum_ok back_div_ok.

Definition fast80_env (C : compiler) (a : bool) : env (Fnum C cr_libm) :=
  mkEnv (Fnum C cr_libm) a (fun _ _ => lit B754_nan) (sort_bounds (fast_fft_env C cr_libm a)) (fft_r2c (fast_fft_env C cr_libm a)) (fft_c2r (fast_fft_env C cr_libm a))
    (fun _ => EmptyString) (fast87 C cr_libm back_compiler cr_libml).
Lemma cr80_63 : libml_accurate cr_libml (bpow radix2 (-63)).
Proof.
  destruct cr80_accurate as [H4 H1 H2 H3].
  assert (Hu : u80 <= bpow radix2 (-63)) by (unfold u80; apply bpow_le; lia).
  split; intros.
  - destruct (H4 x i H H0 H5) as [F V]. split; [exact F|]. eapply Rle_trans; [exact V|]. apply Rplus_le_compat_r, Rmult_le_compat_r; [apply pow_le; lra|exact Hu].
  - destruct (H1 x H H0) as [F V]. split; [exact F|]. eapply Rle_trans; [exact V|]. apply Rmult_le_compat_r; [apply Rabs_pos|exact Hu].
  - destruct (H2 k H) as [F V]. split; [exact F|]. eapply Rle_trans; [exact V|]. apply Rmult_le_compat_r; [|exact Hu].
    rewrite <- ln_1. apply Rcomplements.ln_le; [lra|]. apply (le_INR 1). pose proof (Factorial.lt_O_fact (Z.to_nat (k - 1))). lia.
  - destruct (H3 x H H0) as [F V]. split; [exact F|]. eapply Rle_trans; [exact V|]. apply Rplus_le_compat_r, Rmult_le_compat_r; [apply Rlt_le, exp_pos|exact Hu].
Qed.

Definition mns_low : list f64 := [f_mzero; f_half].
Definition mns_up : list f64 := [f_half; f_one].
Lemma mns_low_value : map B2R mns_low = case_b.
Proof. unfold mns_low, case_b. cbn [map]. rewrite v_half. f_equal. f_equal. lra. Qed.
Lemma mns_up_value : map B2R mns_up = case_B.
Proof. unfold mns_up, case_B. cbn [map]. rewrite v_half, v_one. f_equal. lra. Qed.
Lemma mns_cases_ok : accepted64 mns_low /\ accepted64 mns_up /\ Forall (fun x : f64 => B2R x = 0 \/ bpow radix2 (-900) <= B2R x) mns_up.
Proof.
  assert (H900 : bpow radix2 (-900) <= / 1024) by (change (/ 1024) with (bpow radix2 (-10)); apply bpow_le; lia).
  split; [|split]; [split|split|].
  - repeat constructor.
  - rewrite mns_low_value. unfold case_b. split; repeat constructor; lra.
  - repeat constructor.
  - rewrite mns_up_value. unfold case_B. split; repeat constructor; lra.
  - unfold mns_up. pose proof v_half. pose proof v_one. repeat (apply Forall_cons || apply Forall_nil); right; lra.
Qed.

Lemma mns_fast_case (flush : bool) : let C := simd_compiler flush in let E := fast80_env C true in
  libml_accurate cr_libml (bpow radix2 (-63)) /\ long_dbl E = fast87 C cr_libm back_compiler cr_libml /\
  (exists r, @ecdf1_mns2016_b (Fnum C cr_libm) E (map lit mns_low) = Ok r /\ is_finite (cp_sum C r) = true /\
     Rabs (B2R (cp_sum C r) - 3 / 4) <= 1 / 100000000000) /\
  (exists r, @ecdf1_mns2016_B (Fnum C cr_libm) E (map lit mns_up) = Ok r /\ is_finite (cp_sum C r) = true /\
     Rabs (B2R (cp_sum C r) - 3 / 4) <= 1 / 1000000000).
Proof.
  intros C E. split; [exact cr80_63|]. split; [reflexivity|]. destruct mns_cases_ok as (A1 & A2 & P2). split.
  - destruct (mns_b_fast_1000 C cr_libm back_compiler cr_libml E cr80_63 eq_refl mns_low A1) as (p & r & Hp & Hr & H); [cbn; lia|].
    exists r. split; [exact Hr|]. rewrite mns_low_value in Hp. rewrite (is_prob_unique _ _ _ _ Hp case_b_prob) in H. apply H. lra.
  - destruct (mns_B_fast_1000 C cr_libm back_compiler cr_libml E cr80_63 eq_refl mns_up A2 P2) as (p & r & Hp & Hr & H); [cbn; lia|].
    exists r. split; [exact Hr|]. rewrite mns_up_value in Hp. rewrite (is_prob_unique _ _ _ _ Hp case_B_prob) in H. apply H. lra.
Qed.
