(** * UsageFacts: the two examples of crossprob's usage text, and blank lines. *)
From Coquelicot Require Import Coquelicot.
From Coq Require Import ZArith Reals List Bool Lia Lra String Ascii Permutation Sorted.
From Verif Require Import Base Num XReal RSum Common Ecdf2 Ecdf1New Ecdf1Mns StringUtils MonteCarlo Cli.
From Verif Require Import Spec SpecFacts XCommon XFft StringSpec CliSpec CliFacts ExactEnv ExactFacts Cases TextMore Events Cells PyFacts StringFacts LineFacts UsageSpec.
Import List. Import ListNotations.
Local Open Scope R_scope.
Local Open Scope string_scope.

Lemma usage_two_prob : is_noncrossing_probability described_b written_B (3173/4000).
Proof.
  assert (Vb : valid_boundary described_b) by (split; unfold described_b; list_tac; lra).
  assert (VB : valid_boundary written_B) by (split; unfold written_B; list_tac; lra).
  pose proof (prob_is_D described_b written_B [(0, bSTEP); (15/100, bSTEP); (5/10, bSTEP); (7/10, BSTEP); (9/10, BSTEP); (1, BSTEP)] Vb VB eq_refl) as H.
  match type of H with _ -> is_noncrossing_probability _ _ ?v => replace (3173/4000) with v; [apply H|] end.
  - split; [apply Permutation_refl|]. unfold loc_sorted. repeat constructor; simpl; lra.
  - cbn [described_b List.length]. simpl. unfold rsum, mono; simpl. lra.
Qed.

Definition lowered_B : list R := [7/10; 7/10; 7/10].
Lemma usage_described_prob : is_prob 3 (noncrossing described_b described_B) (409/2000).
Proof.
  assert (Vb : valid_boundary described_b) by (split; unfold described_b; list_tac; lra).
  assert (VB : valid_boundary lowered_B) by (split; unfold lowered_B; list_tac; lra).
  pose proof (prob_is_D described_b lowered_B [(0, bSTEP); (15/100, bSTEP); (5/10, bSTEP); (7/10, BSTEP); (7/10, BSTEP); (7/10, BSTEP)] Vb VB eq_refl) as H.
  match type of H with _ -> is_noncrossing_probability _ _ ?v => assert (Ev : v = 409/2000) end.
  { cbn [described_b List.length]. simpl. unfold rsum, mono; simpl. lra. }
  rewrite Ev in H. destruct H as (_ & H).
  { split; [apply Permutation_refl|]. unfold loc_sorted. repeat constructor; simpl; lra. }
  eapply is_prob_ext; [|exact H]. intros l _ F. cbn beta.
  assert (E1 : raise 0 described_b = described_b).
  { unfold described_b. cbn [raise]. rewrite (Rmax_right 0 0), (Rmax_right 0 (15/100)), (Rmax_right (15/100) (5/10)) by lra. reflexivity. }
  assert (E2 : lower_from_right described_B = lowered_B).
  { unfold described_B, lowered_B. cbn. rewrite ?(Rmin_right (9/10) (7/10)), ?(Rmin_left (7/10) (7/10)) by lra.
    rewrite ?(Rmin_left (7/10) (7/10)) by lra. reflexivity. }
  rewrite <- E1 at 1. rewrite <- E2. symmetry. apply envelope_event; exact F.
Qed.

Lemma usage_one_prob : is_prob 2 (noncrossing_B one_sided_B) (9/20).
Proof.
  assert (Vb : valid_boundary [0; 0]) by (split; list_tac; lra).
  assert (VB : valid_boundary one_sided_B) by (split; unfold one_sided_B; list_tac; lra).
  pose proof (prob_is_D [0; 0] one_sided_B [(0, bSTEP); (0, bSTEP); (5/10, BSTEP); (7/10, BSTEP)] Vb VB eq_refl) as H.
  match type of H with _ -> is_noncrossing_probability _ _ ?v => assert (Ev : v = 9/20) end.
  { cbn [List.length]. simpl. unfold rsum, mono; simpl. lra. }
  rewrite Ev in H. apply (prob_zeros one_sided_B). apply H.
  split; [apply Permutation_refl|]. unfold loc_sorted. repeat constructor; simpl; lra.
Qed.

(** ** The numbers of the two files *)
Ltac read_tac := unfold read_and_check_boundaries_file; lazy -[IZR powerRZ Rmult Rinv]; reflexivity.

Section Files.
Variable frexp : xr -> Z.

Lemma holds_only t (b B : list xr) :
  read_and_check_boundaries_file (N := Xnum frexp) (only t) "bounds.txt" = Ok (b, B) ->
  file_holds (N := Xnum frexp) t b B.
Proof.
  intros R. destruct (holds_read _ _ _ _ R) as (c & F & H).
  assert (c = t) as -> by (assert (Some c = Some t) by (rewrite <- F; reflexivity); congruence). exact H.
Qed.

Lemma usage_two_holds : file_holds (N := Xnum frexp) usage_two (map Fin described_b) (map Fin written_B).
Proof.
  apply holds_only.
  assert (X : read_and_check_boundaries_file (N := Xnum frexp) (only usage_two) "bounds.txt" =
    Ok ([Fin (1 * IZR 0 * powerRZ 10 0); Fin (1 * IZR 15 * powerRZ 10 (-2)); Fin (1 * IZR 5 * powerRZ 10 (-1))],
        [Fin (1 * IZR 7 * powerRZ 10 (-1)); Fin (1 * IZR 9 * powerRZ 10 (-1)); Fin (1 * IZR 1 * powerRZ 10 0)])) by read_tac.
  rewrite X. unfold described_b, written_B. cbn [map].
  replace (1 * IZR 0 * powerRZ 10 0) with 0 by (simpl; lra). replace (1 * IZR 15 * powerRZ 10 (-2)) with (15/100) by (simpl; lra).
  replace (1 * IZR 5 * powerRZ 10 (-1)) with (5/10) by (simpl; lra). replace (1 * IZR 7 * powerRZ 10 (-1)) with (7/10) by (simpl; lra).
  replace (1 * IZR 9 * powerRZ 10 (-1)) with (9/10) by (simpl; lra). replace (1 * IZR 1 * powerRZ 10 0) with 1 by (simpl; lra).
  reflexivity.
Qed.
Lemma usage_one_holds : file_holds (N := Xnum frexp) usage_one_empty [] (map Fin one_sided_B).
Proof.
  apply holds_only.
  assert (X : read_and_check_boundaries_file (N := Xnum frexp) (only usage_one_empty) "bounds.txt" =
    Ok ([], [Fin (1 * IZR 5 * powerRZ 10 (-1)); Fin (1 * IZR 7 * powerRZ 10 (-1))])) by read_tac.
  rewrite X. cbn [map].
  replace (1 * IZR 5 * powerRZ 10 (-1)) with (5/10) by (simpl; lra). replace (1 * IZR 7 * powerRZ 10 (-1)) with (7/10) by (simpl; lra).
  reflexivity.
Qed.
End Files.

(** ** Lines of white space, and a character after the end of a line *)
Lemma blank_no_numeral s : each blank s -> forall p l rest, s = p ++ rest -> ~ numeral p l.
Proof.
  intros B p l rest -> P. destruct P as [bl sg neg u l B' SG U].
  apply each_app in B as (B & _). apply each_app in B as (_ & B). apply each_app in B as (_ & B).
  destruct (unsigned_first _ _ _ U) as (c0 & r0 & -> & NB & _). apply each_cons in B as (B & _). contradiction.
Qed.
Lemma blank_not c d : blank c -> ~ blank d -> c <> d.
Proof. intros B ND ->. contradiction. Qed.
Lemma comma_not_blank : ~ blank ",".
Proof. unfold blank. simpl. intuition discriminate. Qed.
Lemma nul_not_blank : ~ blank "000".
Proof. unfold blank. simpl. intuition discriminate. Qed.

Lemma blank_line_fails {N : num} l : each blank l -> l <> "" -> forall xs : list (car N), ~ line_holds l xs.
Proof.
  intros B NE xs (ps & qs & F & K & V).
  assert (W : forall d, ~ blank d -> without d l)
    by (intros d ND; eapply each_impl; [|exact B]; intros c Hc; exact (blank_not c d Hc ND)).
  assert (F0 : [l] <> []) by discriminate.
  assert (F1 : fields l [l])
    by (split; [exact F0|split; [constructor; [exact (W _ comma_not_blank)|constructor]|reflexivity]]).
  assert (ps = [l]) as -> by (rewrite <- (fields_split _ _ F); exact (fields_split _ _ F1)).
  rewrite <- (kept_fun [l] qs F0 K), (kept_fun [l] [l] F0 (kept_all [] l NE)) in V.
  inversion V as [|q x qs' xs' HV V']; subst. destruct HV as (t & p & li & rest & C & (Et & P & _) & _).
  rewrite (c_text_fun _ _ C), (c_str_nul_free l (W _ nul_not_blank)) in Et.
  exact (blank_no_numeral l B p li rest Et P).
Qed.

(** One more character that cannot occur in a number changes no reading. *)
Lemma longest_last c t p l : ~ numeral_char c ->
  (exists rest, longest_numeral (t ++ String c "") p l rest) <-> (exists rest, longest_numeral t p l rest).
Proof.
  intros NC.
  assert (Q : forall p' l' rest', t ++ String c "" = p' ++ rest' -> numeral p' l' -> exists r, t = p' ++ r).
  { intros p' l' rest' E P'. destruct (Nat.le_gt_cases (String.length p') (String.length t)) as [L|L].
    - revert p' L E P'. clear. induction t as [|y t IH]; intros [|z p'] L E P'; simpl in *; try lia; eauto.
      injection E as -> E. assert (X : exists r, t = p' ++ r); [|destruct X as (r & ->); eauto].
      revert L E. clear. revert p'. induction t as [|y t IH]; intros [|z' p'] L E; simpl in *; try lia; eauto.
      injection E as -> E. destruct (IH p') as (r & ->); [lia|exact E|]. eauto.
    - exfalso. destruct (app_longer p' t rest' (String c "") L (eq_sym E)) as (d & r & E1 & Ep').
      injection E1 as <- E1. destruct r; [|discriminate E1]. destruct P' as [bl sg neg u l' B SG U].
      assert (A : each numeral_char (sg ++ u)) by (apply each_app; split; [exact (sign_chars _ _ SG)|exact (unsigned_chars _ _ _ U)]).
      destruct (unsigned_first _ _ _ U) as (c0 & r0 & -> & _ & _).
      clear - Ep' A NC. revert t Ep'. induction bl as [|y bl IH]; intros t Ep'.
      + simpl in Ep'. rewrite Ep' in A. apply each_app in A as (_ & A). apply each_cons in A as (A & _). contradiction.
      + destruct t as [|z t]; simpl in Ep'; injection Ep' as -> Ep'; [|exact (IH t Ep')].
        apply sapp_eq_nil in Ep' as (_ & Ep'). apply sapp_eq_nil in Ep' as (_ & Ep'). discriminate. }
  split; intros (rest & E & P & LG).
  - destruct (Q p l rest E P) as (r & Et). exists r. split; [exact Et|]. split; [exact P|].
    intros p' l' rest' E' P'. apply (LG p' l' (rest' ++ String c "")); [|exact P']. rewrite E', sapp_assoc. reflexivity.
  - exists (rest ++ String c ""). split; [rewrite E, sapp_assoc; reflexivity|]. split; [exact P|].
    intros p' l' rest' E' P'. destruct (Q p' l' rest' E' P') as (r & Et). exact (LG p' l' r Et P').
Qed.

Lemma field_last {N : num} c q (x : car N) : ~ numeral_char c ->
  field_value (q ++ String c "") x <-> field_value q x.
Proof.
  intros NC.
  assert (R : forall t t' : string, c_text q t -> c_text (q ++ String c "") t' -> t' = t \/ t' = t ++ String c "").
  { intros t t' (NF & [->|(r & ->)]) C'.
    - destruct (ascii_dec c "000") as [->|Nc].
      + left. symmetry. rewrite (c_text_fun _ _ C'). apply c_text_fun. split; [exact NF|]. right. exists "". reflexivity.
      + right. symmetry. rewrite (c_text_fun _ _ C'). apply c_text_fun. split; [|left; reflexivity].
        apply each_app. split; [exact NF|]. apply each_cons. split; [exact Nc|constructor].
    - left. symmetry. rewrite (c_text_fun _ _ C'). apply c_text_fun. split; [exact NF|]. right.
      exists (r ++ String c ""). rewrite sapp_assoc. reflexivity. }
  split.
  - intros (t' & p & l & rest & C' & LG & S). pose proof (c_str_spec q) as C.
    destruct (R _ _ C C') as [->| ->]; [exists (c_str q), p, l, rest; auto|].
    destruct (proj1 (longest_last c _ p l NC) (ex_intro _ rest LG)) as (rest' & LG'). exists (c_str q), p, l, rest'. auto.
  - intros (t & p & l & rest & C & LG & S). pose proof (c_str_spec (q ++ String c "")) as C'.
    destruct (R _ _ C C') as [Eq|Eq]; [exists t, p, l, rest; rewrite <- Eq at 1; auto|].
    destruct (proj2 (longest_last c _ p l NC) (ex_intro _ rest LG)) as (rest' & LG'). exists (t ++ String c ""), p, l, rest'.
    rewrite <- Eq at 1; auto.
Qed.
Lemma field_empty {N : num} (x : car N) : ~ field_value "" x.
Proof.
  intros (t & p & l & rest & C & (E & P & _) & _). rewrite (c_text_fun _ _ C) in E. cbn in E.
  exact (blank_no_numeral "" (Forall_nil _) p l rest E P).
Qed.

Lemma join_last d ps p s : join d (ps ++ [(p ++ s)%string])%list = join d (ps ++ [p])%list ++ s.
Proof.
  induction ps as [|q ps IH]; [reflexivity|]. cbn [List.app].
  change (join d (q :: ps ++ [(p ++ s)%string])%list) with
    (match (ps ++ [(p ++ s)%string])%list with [] => q | _ => q ++ String d (join d (ps ++ [(p ++ s)%string])%list) end).
  change (join d (q :: ps ++ [p])%list) with
    (match (ps ++ [p])%list with [] => q | _ => q ++ String d (join d (ps ++ [p])%list) end).
  rewrite IH. destruct ps as [|q' ps]; cbn [List.app]; rewrite sapp_assoc; reflexivity.
Qed.
Lemma join_nil_last d ps : ps <> [] -> join d (ps ++ [""])%list = join d ps ++ String d "".
Proof.
  induction ps as [|q [|q' ps] IH]; intros NE; [contradiction|reflexivity|].
  transitivity (q ++ String d (join d ((q' :: ps) ++ [""])%list)); [reflexivity|].
  rewrite IH by discriminate. transitivity ((q ++ String d (join d (q' :: ps))) ++ String d ""); [|reflexivity].
  rewrite sapp_assoc. reflexivity.
Qed.

Lemma complete_fields l ps p : fields l (ps ++ [p])%list -> (complete l <-> p <> "").
Proof.
  intros F. split.
  - intros (NE & NC) ->. destruct F as (_ & W & Ej). destruct ps as [|q ps]; [exact (NE (eq_sym Ej))|].
    rewrite join_nil_last in Ej by discriminate. exact (NC _ (eq_sym Ej)).
  - intros P. split.
    + intros ->. apply P. assert (F' : fields "" ([] ++ [""])%list) by (repeat split; [discriminate|repeat constructor]).
      pose proof (fields_split _ _ F) as E1. rewrite (fields_split _ _ F') in E1.
      apply app_inj_tail in E1 as (_ & E1). symmetry; exact E1.
    + intros l' ->. apply P.
      assert (F' : fields (l' ++ ",") (StringUtils.split l' "," ++ [""])%list).
      { destruct (split_fields l') as (NE & W & Ej). split; [destruct (StringUtils.split l' ","); discriminate|]. split.
        - apply Forall_app. split; [exact W|repeat constructor].
        - rewrite join_nil_last by exact NE. rewrite Ej. reflexivity. }
      pose proof (fields_split _ _ F) as E1. rewrite (fields_split _ _ F') in E1.
      apply app_inj_tail in E1 as (_ & E1). symmetry; exact E1.
Qed.

Lemma line_last {N : num} c l (xs : list (car N)) : ~ numeral_char c -> c <> ","%char ->
  line_holds (l ++ String c "") xs <-> complete l /\ line_holds l xs.
Proof.
  intros NC Nc. destruct (exists_last (proj1 (split_fields l))) as (ps & p & Es).
  pose proof (split_fields l) as F. rewrite Es in F.
  assert (F' : fields (l ++ String c "") (ps ++ [(p ++ String c "")%string])%list).
  { destruct F as (NE & W & Ej). split; [destruct ps; discriminate|]. split.
    - apply Forall_app in W as (W1 & W2). apply Forall_app. split; [exact W1|]. constructor; [|constructor].
      apply each_app. split; [inversion W2; assumption|]. apply each_cons. split; [exact Nc|constructor].
    - rewrite join_last, Ej. reflexivity. }
  assert (NE : p ++ String c "" <> "") by (intros X; apply sapp_eq_nil in X as (_ & X); discriminate).
  rewrite <- (line_read (l ++ String c "")), (read_line_ok _ _ _ F' (kept_all _ _ NE)).
  rewrite (complete_fields l ps p F), <- line_read. split.
  - intros V. apply Forall2_app_inv_l in V as (xs1 & xs2 & V1 & V2 & ->).
    inversion V2 as [|? x ? ? V3 V4]; subst. inversion V4; subst. apply field_last in V3; [|exact NC].
    assert (P : p <> "") by (intros ->; exact (field_empty x V3)). split; [exact P|].
    apply (read_line_ok _ _ _ F (kept_all _ _ P)). apply Forall2_app; [exact V1|]. constructor; [exact V3|constructor].
  - intros (P & V). apply (read_line_ok _ _ _ F (kept_all _ _ P)) in V.
    apply Forall2_app_inv_l in V as (xs1 & xs2 & V1 & V2 & ->).
    inversion V2 as [|? x ? ? V3 V4]; subst. inversion V4; subst. apply Forall2_app; [exact V1|].
    constructor; [apply field_last; assumption|constructor].
Qed.

Lemma crlf_app a b : crlf (a ++ b) = crlf a ++ crlf b.
Proof. induction a as [|c a IH]; [reflexivity|]. cbn. rewrite IH. destruct (Ascii.eqb c newline); reflexivity. Qed.
Lemma crlf_line l : without newline l -> crlf l = l.
Proof.
  induction l as [|c l IH]; intros W; [reflexivity|]. apply each_cons in W as (C & W). cbn.
  destruct (Ascii.eqb_spec c newline); [contradiction|]. rewrite (IH W). reflexivity.
Qed.
Lemma crlf_nl r : crlf (String newline r) = String carriage_return (String newline (crlf r)).
Proof. reflexivity. Qed.
Lemma crlf_two l1 l2 rest : without newline l1 -> without newline l2 ->
  first_two_lines (crlf (l1 ++ String newline (l2 ++ String newline rest)))
    (l1 ++ String carriage_return "") (l2 ++ String carriage_return "").
Proof.
  intros W1 W2. rewrite crlf_app, crlf_nl, crlf_app, crlf_nl, (crlf_line l1 W1), (crlf_line l2 W2).
  replace (l1 ++ String carriage_return (String newline (l2 ++ String carriage_return (String newline (crlf rest)))))
    with ((l1 ++ String carriage_return "") ++ String newline ((l2 ++ String carriage_return "") ++ String newline (crlf rest)))
    by (rewrite !sapp_assoc; reflexivity).
  assert (C : forall l, without newline l -> without newline (l ++ String carriage_return "")).
  { intros l W. apply each_app. split; [exact W|]. apply each_cons. split; [discriminate|constructor]. }
  constructor; auto.
Qed.

Lemma cr_not_numeral : ~ numeral_char carriage_return.
Proof. unfold numeral_char, carriage_return. cbn. intuition discriminate. Qed.

Section Windows.
Context {N : num}.

Lemma two_lines contents l1 l2 (b B : list (car N)) : first_two_lines contents l1 l2 ->
  file_holds contents b B <-> line_holds l1 b /\ line_holds l2 B.
Proof.
  intros H. split; [|intros (Hb & HB); exists l1, l2; auto].
  intros X. pose proof (read_file_holds (only contents) "bounds.txt" contents b B eq_refl X) as R.
  rewrite (read_file_two (only contents) "bounds.txt" contents l1 l2 eq_refl H) in R.
  destruct (@read_comma_delimited_doubles N l1) as [b1|e1|s1|s1|] eqn:R1; cbn [bind] in R; try discriminate.
  destruct (@read_comma_delimited_doubles N l2) as [b2|e2|s2|s2|] eqn:R2; cbn [bind] in R; try discriminate.
  assert (b1 = b /\ b2 = B) as (-> & ->) by (split; congruence).
  split; apply line_read; assumption.
Qed.

Lemma crlf_holds l1 l2 rest (b B : list (car N)) : without newline l1 -> without newline l2 ->
  let contents := l1 ++ String newline (l2 ++ String newline rest) in
  file_holds (crlf contents) b B <-> complete l1 /\ complete l2 /\ file_holds contents b B.
Proof.
  intros W1 W2. cbv zeta.
  rewrite (two_lines _ _ _ b B (crlf_two l1 l2 rest W1 W2)), (two_lines _ _ _ b B (two_closed l1 l2 rest W1 W2)).
  rewrite (line_last carriage_return l1 b cr_not_numeral ltac:(discriminate)).
  rewrite (line_last carriage_return l2 B cr_not_numeral ltac:(discriminate)). tauto.
Qed.

Lemma same_read (E : env N) fs fs' prog c f (b B : list (car N)) :
  read_and_check_boundaries_file fs f = Ok (b, B) -> read_and_check_boundaries_file fs' f = Ok (b, B) ->
  cli_main E fs [prog; c; f] = cli_main E fs' [prog; c; f].
Proof. intros R R'. unfold cli_main. rewrite !cli_handle_eq, R, R'. reflexivity. Qed.

Lemma unreadable_exit (E : env N) fs prog c f contents l1 l2 : fs f = Some contents -> first_two_lines contents l1 l2 ->
  ((forall xs : list (car N), ~ line_holds l1 xs) \/ (forall xs : list (car N), ~ line_holds l2 xs)) ->
  exists w, cli_main E fs [prog; c; f] = Ok ([Text "Error:"; Text w], 3%Z).
Proof.
  intros F H U.
  assert (X : exists w, @read_and_check_boundaries_file N fs f = Throw (RuntimeError w)).
  { apply read_bad. right. exists contents. split; [exact F|]. right. exists l1, l2. auto. }
  destruct X as (w & R). exists w. unfold cli_main. rewrite cli_handle_eq, R. reflexivity.
Qed.

Lemma windows (E : env N) fs fs' prog c f l1 l2 rest :
  let contents := l1 ++ String newline (l2 ++ String newline rest) in
  without newline l1 -> without newline l2 -> fs f = Some contents -> fs' f = Some (crlf contents) ->
  (complete l1 -> complete l2 -> (exists b B : list (car N), file_holds contents b B) ->
     cli_main E fs' [prog; c; f] = cli_main E fs [prog; c; f]) /\
  (~ (complete l1 /\ complete l2) -> exists w, cli_main E fs' [prog; c; f] = Ok ([Text "Error:"; Text w], 3%Z)).
Proof.
  cbv zeta. intros W1 W2 F F'. split.
  - intros C1 C2 (b & B & H). pose proof (proj2 (crlf_holds l1 l2 rest b B W1 W2) (conj C1 (conj C2 H))) as H'.
    apply (same_read E fs' fs prog c f b B); [exact (read_file_holds _ _ _ _ _ F' H')|exact (read_file_holds _ _ _ _ _ F H)].
  - intros NC.
    assert (X : exists w, @read_and_check_boundaries_file N fs' f = Throw (RuntimeError w)).
    { rewrite (read_file_two fs' f _ _ _ F' (crlf_two l1 l2 rest W1 W2)).
      destruct (@read_line_total N (l1 ++ String carriage_return "")) as [(b & R1)|(w & R1)]; rewrite R1; cbn [bind]; [|eauto].
      destruct (@read_line_total N (l2 ++ String carriage_return "")) as [(B & R2)|(w & R2)]; rewrite R2; cbn [bind]; [|eauto].
      exfalso. apply NC. apply line_read in R1, R2.
      split; [exact (proj1 (proj1 (line_last carriage_return l1 b cr_not_numeral ltac:(discriminate)) R1))|].
      exact (proj1 (proj1 (line_last carriage_return l2 B cr_not_numeral ltac:(discriminate)) R2)). }
    destruct X as (w & R). exists w. unfold cli_main. rewrite cli_handle_eq, R. reflexivity.
Qed.

Lemma blank_exit (E : env N) fs prog c f contents l1 l2 : fs f = Some contents -> first_two_lines contents l1 l2 ->
  (each blank l1 /\ l1 <> "") \/ (each blank l2 /\ l2 <> "") ->
  exists w, cli_main E fs [prog; c; f] = Ok ([Text "Error:"; Text w], 3%Z).
Proof.
  intros F H U. apply (unreadable_exit E fs prog c f contents l1 l2 F H).
  destruct U as [(B & NE)|(B & NE)]; [left|right]; apply blank_line_fails; assumption.
Qed.

Lemma usage_crlf (E : env N) fs prog c f :
  (fs f = Some (crlf usage_two) \/ fs f = Some (crlf usage_one_empty)) ->
  exists w, cli_main E fs [prog; c; f] = Ok ([Text "Error:"; Text w], 3%Z).
Proof.
  assert (W : forall l, existsb (fun c => Ascii.eqb c newline) (list_ascii_of_string l) = false -> without newline l).
  { intros l H. apply Forall_forall. intros x I ->. apply Bool.not_true_iff_false in H. apply H, existsb_exists.
    exists newline. split; [exact I|apply Ascii.eqb_refl]. }
  intros [F|F].
  - apply (proj2 (windows E (fun _ => Some usage_two) fs prog c f "    0, 0.15, 0.5," "    0.7, 0.9, 1" ""
      (W "    0, 0.15, 0.5," eq_refl) (W "    0.7, 0.9, 1" eq_refl) eq_refl F)).
    intros ((_ & C) & _). exact (C "    0, 0.15, 0.5" eq_refl).
  - apply (proj2 (windows E (fun _ => Some usage_one_empty) fs prog c f "" "    0.5, 0.7" ""
      (W "" eq_refl) (W "    0.5, 0.7" eq_refl) eq_refl F)).
    intros ((C & _) & _). exact (C eq_refl).
Qed.

Lemma usage_one_verbatim (E : env N) fs prog c f : fs f = Some usage_one ->
  exists w, cli_main E fs [prog; c; f] = Ok ([Text "Error:"; Text w], 3%Z).
Proof.
  intros F. apply (blank_exit E fs prog c f usage_one "            " "    0.5, 0.7" F).
  - apply two_closed; apply Forall_forall; intros x I ->; cbn in I; intuition discriminate.
  - left. split; [|discriminate]. unfold each, blank. cbn [list_ascii_of_string]. repeat (apply Forall_cons; [left; reflexivity|]). constructor.
Qed.
End Windows.

(** ** What the program prints *)
Section Prints.
Context {frexp : xr -> Z} (E : env (Xnum frexp)).

Lemma usage_two_prints fs prog f u : fs f = Some usage_two -> sort_ok E -> (u = true -> fft_ok E) ->
  cli_main E fs [prog; ecdf2_command u; f] = Ok ([Text (show_double E (Fin (3173/4000)))], 0%Z).
Proof.
  intros F Hs Hf.
  assert (Vb : valid_boundary described_b) by (split; unfold described_b; list_tac; lra).
  assert (VB : valid_boundary written_B) by (split; unfold written_B; list_tac; lra).
  destruct (cli_two_sided E fs prog f usage_two described_b written_B u F (usage_two_holds frexp) Vb VB eq_refl Hs Hf)
    as (p & (_ & P) & R).
  - intros _ [|[|[|i]]] Hi; cbn in *; try lra; lia.
  - rewrite <- (is_prob_unique _ _ _ _ P (proj2 usage_two_prob)). exact R.
Qed.
Lemma usage_one_prints fs prog f : fs f = Some usage_one_empty -> fft_ok E ->
  cli_main E fs [prog; "ecdf1-new"; f] = Ok ([Text (show_double E (Fin (9/20)))], 0%Z).
Proof.
  intros F Hf.
  assert (VB : valid_boundary one_sided_B) by (split; unfold one_sided_B; list_tac; lra).
  destruct (cli_new E fs prog f usage_one_empty one_sided_B F VB Hf) as (_ & H); [cbn; lia|unfold INT_MAX; cbn; lia|cbn; lia|].
  destruct (H (usage_one_holds frexp)) as (p & P & R). rewrite <- (is_prob_unique _ _ _ _ P usage_one_prob). exact R.
Qed.
End Prints.

Lemma read_cr {N : num} l (xs : list (car N)) :
  read_comma_delimited_doubles (l ++ String carriage_return "") = Ok xs <->
  complete l /\ read_comma_delimited_doubles l = Ok xs.
Proof. rewrite !line_read. apply line_last; [exact cr_not_numeral|discriminate]. Qed.

(** ** The hypotheses can be met *)
Lemma usage_cases a use_fft :
  cli_main (some_env a) (only usage_two) ["crossprob"; ecdf2_command use_fft; "bounds.txt"] =
    Ok ([Text (show_double (some_env a) (Fin (3173/4000)))], 0%Z) /\
  cli_main (some_env a) (only usage_one_empty) ["crossprob"; "ecdf1-new"; "bounds.txt"] =
    Ok ([Text (show_double (some_env a) (Fin (9/20)))], 0%Z).
Proof.
  split.
  - apply usage_two_prints; [reflexivity|apply exact_env_sort|intros _; apply exact_env_fft].
  - apply usage_one_prints; [reflexivity|apply exact_env_fft].
Qed.

(** The first file without its trailing comma. *)
Definition usage_two_complete : string := "    0, 0.15, 0.5" ++ String newline ("    0.7, 0.9, 1" ++ String newline "").
Lemma windows_case a : cli_main (some_env a) (only (crlf usage_two_complete)) ["crossprob"; "ecdf2-mn2017"; "bounds.txt"] =
  Ok ([Text (show_double (some_env a) (Fin (3173/4000)))], 0%Z).
Proof.
  assert (W1 : without newline "    0, 0.15, 0.5") by (apply Forall_forall; intros x I ->; cbn in I; intuition discriminate).
  assert (W2 : without newline "    0.7, 0.9, 1") by (apply Forall_forall; intros x I ->; cbn in I; intuition discriminate).
  assert (C : forall l s d, l = s ++ String d "" -> d <> ","%char -> complete l).
  { intros l s d -> ND. split; [intros X; apply sapp_eq_nil in X as (_ & X); discriminate|].
    intros l' X. apply ND. assert (L : String.length s = String.length l').
    { apply (f_equal String.length) in X. rewrite !slength_app in X. cbn in X. lia. }
    destruct (sapp_inv_len _ _ _ _ X L) as (_ & Y). congruence. }
  assert (H0 : line_holds (N := Xnum some_frexp) "    0, 0.15, 0.5" (map Fin described_b)).
  { pose proof (proj1 (proj1 (two_lines _ _ _ _ _ (two_closed "    0, 0.15, 0.5," "    0.7, 0.9, 1" "" 
      ltac:(apply Forall_forall; intros x I ->; cbn in I; intuition discriminate) W2)) (usage_two_holds some_frexp))) as H1.
    revert H1. rewrite <- !line_read.
    assert (X : @read_comma_delimited_doubles (Xnum some_frexp) "    0, 0.15, 0.5," = read_comma_delimited_doubles "    0, 0.15, 0.5")
      by (lazy -[IZR powerRZ Rmult Rinv]; reflexivity).
    rewrite X. auto. }
  assert (H : file_holds (N := Xnum some_frexp) usage_two_complete (map Fin described_b) (map Fin written_B)).
  { apply (proj2 (two_lines _ _ _ _ _ (two_closed _ _ "" W1 W2))). split; [exact H0|].
    exact (proj2 (proj1 (two_lines _ _ _ _ _ (two_closed "    0, 0.15, 0.5," "    0.7, 0.9, 1" "" 
      ltac:(apply Forall_forall; intros x I ->; cbn in I; intuition discriminate) W2)) (usage_two_holds some_frexp))). }
  destruct (windows (some_env a) (only usage_two_complete) (only (crlf usage_two_complete)) "crossprob" "ecdf2-mn2017" "bounds.txt"
    _ _ "" W1 W2 eq_refl eq_refl) as (P & _).
  etransitivity; [apply P; [exact (C _ "    0, 0.15, 0." "5"%char eq_refl ltac:(discriminate))|
    exact (C _ "    0.7, 0.9, " "1"%char eq_refl ltac:(discriminate))|eauto]|].
  destruct (proj1 (usage_cases a true)).
  apply (same_read (some_env a) _ _ "crossprob" "ecdf2-mn2017" "bounds.txt" (map Fin described_b) (map Fin written_B));
    [exact (read_file_holds (only usage_two_complete) "bounds.txt" usage_two_complete _ _ eq_refl H)|
     exact (read_file_holds (only usage_two) "bounds.txt" usage_two _ _ eq_refl (usage_two_holds _))].
Qed.
