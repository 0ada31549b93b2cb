(** * TextMore: packaged statements and cases for the property files on text and programs. *)
From Coquelicot Require Import Coquelicot.
From Coq Require Import ZArith Reals Lia Lra List Bool Ascii String Sorted.
From Verif Require Import Base Num XReal Common StringUtils MonteCarlo Cli Spec Ecdf2 Ecdf1New Ecdf1Mns.
From Verif Require Import StringSpec StringFacts LineFacts CliSpec CliFacts ExactEnv Cases PyFacts NewMath ExactFacts ProbFacts XCommon ExactMore XFft SpecFacts.
Import List. Import ListNotations.
Local Open Scope string_scope.

Lemma split_inverse s d :
  List.length (StringUtils.split s d) = S (occurrences d s) /\
  Forall (without d) (StringUtils.split s d) /\ join d (StringUtils.split s d) = s /\
  (forall ps, ps <> [] -> Forall (without d) ps -> join d ps = s -> ps = StringUtils.split s d).
Proof.
  split; [exact (split_from_length s d "")|]. split; [exact (split_from_without s d "" (Forall_nil _))|].
  split; [exact (split_from_join s d "")|]. intros ps NE W <-. symmetry. exact (split_join ps d NE W).
Qed.

Lemma fields_unique line : exists ps qs, fields line ps /\ kept ps qs /\
  forall ps', fields line ps' -> ps' = ps.
Proof.
  destruct (kept_exists (StringUtils.split line ",")) as (qs & K); [apply split_fields|].
  exists (StringUtils.split line ","), qs. split; [apply split_fields|]. split; [exact K|].
  intros ps' (NE & W & J). subst line. symmetry. exact (split_join ps' "," NE W).
Qed.

Lemma read_line {N : num} line ps qs : fields line ps -> kept ps qs ->
  (forall xs : list (car N), read_comma_delimited_doubles line = Ok xs <-> Forall2 field_value qs xs) /\
  ((exists w, @read_comma_delimited_doubles N line = Throw (RuntimeError w)) <->
     exists q, In q qs /\ ~ exists x : car N, field_value q x) /\
  ((exists xs : list (car N), read_comma_delimited_doubles line = Ok xs) \/
   (exists w, @read_comma_delimited_doubles N line = Throw (RuntimeError w))).
Proof.
  intros F K. split; [exact (read_line_ok line ps qs F K)|]. split; [exact (read_line_throws line ps qs F K)|].
  exact (read_line_total line).
Qed.

Lemma files_read {N : num} (fs : string -> option string) f :
  (forall contents l1 l2, fs f = Some contents -> first_two_lines contents l1 l2 ->
     (forall b B : list (car N), read_and_check_boundaries_file fs f = Ok (b, B) <->
        read_comma_delimited_doubles l1 = Ok b /\ read_comma_delimited_doubles l2 = Ok B) /\
     ((exists w, @read_and_check_boundaries_file N fs f = Throw (RuntimeError w)) <->
        (exists w, @read_comma_delimited_doubles N l1 = Throw (RuntimeError w)) \/
        (exists w, @read_comma_delimited_doubles N l2 = Throw (RuntimeError w)))) /\
  (fs f = None -> @read_and_check_boundaries_file N fs f =
     Throw (RuntimeError ("Unable to read input file '" ++ f ++ "'"))) /\
  (fs f = Some "" -> @read_and_check_boundaries_file N fs f = Throw IosFailure) /\
  (forall contents l1, fs f = Some contents -> only_one_line contents l1 ->
     ((exists b, @read_comma_delimited_doubles N l1 = Ok b) ->
        @read_and_check_boundaries_file N fs f = Throw IosFailure) /\
     (forall w, @read_comma_delimited_doubles N l1 = Throw (RuntimeError w) ->
        @read_and_check_boundaries_file N fs f = Throw (RuntimeError w))).
Proof.
  split; [|split; [exact (read_file_missing fs f)|split; [exact (read_file_empty fs f)|]]].
  - intros contents l1 l2 F H. rewrite (read_file_two fs f contents l1 l2 F H).
    destruct (@read_line_total N l1) as [(x & ->)|(w & ->)]; cbn [bind].
    2:{ split; [intros; split; [discriminate|intros (? & _); discriminate]|]. split; eauto. }
    destruct (@read_line_total N l2) as [(y & ->)|(w & ->)]; cbn [bind].
    + split; [intros b B; split; [intros R; split; congruence|intros (A & C); congruence]|].
      split; [intros (? & ?); discriminate|intros [(? & ?)|(? & ?)]; discriminate].
    + split; [intros; split; [discriminate|intros (_ & ?); discriminate]|]. split; eauto.
  - intros contents l1 F H. rewrite (read_file_one fs f contents l1 F H).
    split; [intros (b & ->)|intros w ->]; reflexivity.
Qed.

Lemma rest_ignored {N : num} (fs fs' : string -> option string) f f' l1 l2 rest rest' :
  without newline l1 -> without newline l2 ->
  fs f = Some (l1 ++ String newline (l2 ++ String newline rest)) ->
  fs' f' = Some (l1 ++ String newline (l2 ++ String newline rest')) ->
  @read_and_check_boundaries_file N fs f = read_and_check_boundaries_file fs' f'.
Proof.
  intros W1 W2 F F'.
  rewrite (read_file_two fs f _ l1 l2 F) by (constructor; assumption).
  rewrite (read_file_two fs' f' _ l1 l2 F') by (constructor; assumption). reflexivity.
Qed.

Lemma tail_accepted {N : num} p l (x : car N) c tail : nul_free (p ++ String c tail) ->
  numeral p l -> n_strtod l = (x, false) -> ~ numeral_char c ->
  string_to_double (p ++ String c tail) = Ok x /\ (forall l', ~ numeral (p ++ String c tail) l').
Proof.
  intros H1 H2 H3 H4. split; [exact (tail_ignored p l x c tail H1 H2 H3 H4)|exact (not_whole p l c tail H2 H4)].
Qed.

Lemma two_numbers_one : exists s, (forall l, ~ numeral s l) /\
  string_to_double (N := Xnum some_frexp) s = Ok (Fin (1/2)).
Proof.
  exists "0.5 0.7".
  assert (P : numeral "0.5" (LDec false 5 (-1))).
  { refine (numeral_intro "" "" false "0.5" _ _ sign_none _); [constructor|].
    refine (un_dec false "0.5" 5 1 "" 0 _ (exp_none _)).
    refine (man_point dec_digit 10 "0" 0 "5" 5 _ _ _); [| |discriminate].
    - refine (pos_cons _ _ "0" 0 "" 0 _ (pos_nil _ _)). split; [lia|reflexivity].
    - refine (pos_cons _ _ "5" 5 "" 0 _ (pos_nil _ _)). split; [lia|reflexivity]. }
  assert (C : ~ numeral_char " ") by (unfold numeral_char; simpl; intuition discriminate).
  split; [exact (not_whole "0.5" _ " " "0.7" P C)|].
  apply (tail_ignored (N := Xnum some_frexp) "0.5" (LDec false 5 (-1)) (Fin (1/2)) " " "0.7"); auto.
  - unfold nul_free, without, each. simpl. repeat (apply Forall_cons; [discriminate|]). apply Forall_nil.
  - simpl. do 2 f_equal. simpl. lra.
Qed.

(** ** A concrete file *)
Definition case_text : string := "0, 0.5" ++ String newline ("1, 1" ++ String newline "").
Definition case_fs (f : string) : option string := if f =? "bounds.txt" then Some case_text else None.

Lemma case_read : read_and_check_boundaries_file (N := Xnum some_frexp) case_fs "bounds.txt" =
  Ok (map Fin case_b, map Fin ones2).
Proof.
  assert (X : read_and_check_boundaries_file (N := Xnum some_frexp) case_fs "bounds.txt" =
    Ok ([Fin (1 * IZR 0 * powerRZ 10 0); Fin (1 * IZR 5 * powerRZ 10 (-1))],
        [Fin (1 * IZR 1 * powerRZ 10 0); Fin (1 * IZR 1 * powerRZ 10 0)])).
  { lazy -[IZR powerRZ Rmult Rinv]. reflexivity. }
  rewrite X. unfold case_b, ones2. simpl. repeat f_equal; simpl; lra.
Qed.
Lemma case_holds : case_fs "bounds.txt" = Some case_text /\
  file_holds (N := Xnum some_frexp) case_text (map Fin case_b) (map Fin ones2).
Proof.
  split; [reflexivity|]. destruct (holds_read _ _ _ _ case_read) as (c & F & H).
  assert (c = case_text) as -> by (assert (Some c = Some case_text) by (rewrite <- F; reflexivity); congruence). exact H.
Qed.

Lemma case_cli_prints (E : env (Xnum some_frexp)) : sort_ok E -> fft_ok E ->
  cli_main E case_fs ["crossprob"; "ecdf2-mn2017"; "bounds.txt"] = Ok ([Text (show_double E (Fin (3/4)))], 0%Z).
Proof.
  intros Hs Hf. destruct case_holds as (F & H).
  destruct (cli_two_sided E case_fs "crossprob" "bounds.txt" case_text case_b ones2 true F H)
    as (p & (_ & P) & R); auto using case_b_valid, ones2_valid.
  - intros Ha [|[|i]] Hi; simpl in *; [lra|lia|lia].
  - rewrite <- (is_prob_unique _ _ _ _ P (proj2 case_two_sided_b)). exact R.
Qed.

(** ** The program *)
Section Program.
Context {N : num} (E : env N).

Lemma line_read l (xs : list (car N)) : read_comma_delimited_doubles l = Ok xs <-> line_holds l xs.
Proof.
  split.
  - intros R. destruct (kept_exists (StringUtils.split l ",")) as (qs & K); [apply split_fields|].
    exists (StringUtils.split l ","), qs. split; [apply split_fields|]. split; [exact K|].
    exact (proj1 (read_line_ok l _ qs (split_fields l) K xs) R).
  - intros (ps & qs & F & K & V). exact (proj2 (read_line_ok l ps qs F K xs) V).
Qed.
Lemma line_unreadable l : (exists w, @read_comma_delimited_doubles N l = Throw (RuntimeError w)) <->
  forall xs : list (car N), ~ line_holds l xs.
Proof.
  split.
  - intros (w & R) xs H. apply line_read in H. congruence.
  - intros H. destruct (@read_line_total N l) as [(xs & R)|X]; [|exact X]. apply line_read in R. destruct (H _ R).
Qed.

(** The file has a first line of numbers, or is empty, and no second line. *)
Definition too_short (contents : string) : Prop :=
  contents = "" \/ exists l1 (b : list (car N)), only_one_line contents l1 /\ line_holds l1 b.
(** One of the first two lines is not a list of numbers. *)
Definition unreadable (contents : string) : Prop :=
  (exists l1, only_one_line contents l1 /\ forall xs : list (car N), ~ line_holds l1 xs) \/
  (exists l1 l2, first_two_lines contents l1 l2 /\
     ((forall xs : list (car N), ~ line_holds l1 xs) \/ (forall xs : list (car N), ~ line_holds l2 xs))).

Lemma read_short fs f : @read_and_check_boundaries_file N fs f = Throw IosFailure <->
  exists contents, fs f = Some contents /\ too_short contents.
Proof.
  split.
  - intros R. destruct (fs f) as [contents|] eqn:F; [|rewrite read_file_missing in R by exact F; discriminate].
    exists contents. split; [reflexivity|].
    destruct (contents_cases contents) as [->|[(l1 & H)|(l1 & l2 & H)]]; [left; reflexivity| |].
    + right. rewrite (read_file_one fs f contents l1 F H) in R.
      destruct (@read_line_total N l1) as [(b & Rb)|(w & Rw)]; [|rewrite Rw in R; discriminate].
      exists l1, b. split; [exact H|]. apply line_read; exact Rb.
    + rewrite (read_file_two fs f contents l1 l2 F H) in R.
      destruct (@read_line_total N l1) as [(b & Rb)|(w & Rw)]; [rewrite Rb in R|rewrite Rw in R; discriminate].
      destruct (@read_line_total N l2) as [(B & RB)|(w & Rw)]; [rewrite RB in R|rewrite Rw in R]; discriminate.
  - intros (contents & F & [->|(l1 & b & H & L)]).
    + apply read_file_empty; exact F.
    + rewrite (read_file_one fs f contents l1 F H). rewrite (proj2 (line_read l1 b) L). reflexivity.
Qed.
Lemma read_bad fs f : (exists w, @read_and_check_boundaries_file N fs f = Throw (RuntimeError w)) <->
  fs f = None \/ exists contents, fs f = Some contents /\ unreadable contents.
Proof.
  split.
  - intros (w & R). destruct (fs f) as [contents|] eqn:F; [|left; reflexivity]. right.
    exists contents. split; [reflexivity|].
    destruct (contents_cases contents) as [->|[(l1 & H)|(l1 & l2 & H)]].
    + rewrite read_file_empty in R by exact F. discriminate.
    + left. exists l1. split; [exact H|]. rewrite (read_file_one fs f contents l1 F H) in R.
      apply line_unreadable. destruct (@read_line_total N l1) as [(b & Rb)|X]; [rewrite Rb in R; discriminate|exact X].
    + right. exists l1, l2. split; [exact H|]. rewrite (read_file_two fs f contents l1 l2 F H) in R.
      destruct (@read_line_total N l1) as [(b & Rb)|X]; [rewrite Rb in R|left; apply line_unreadable; exact X].
      destruct (@read_line_total N l2) as [(B & RB)|X]; [rewrite RB in R; discriminate|right; apply line_unreadable; exact X].
  - intros [F|(contents & F & [(l1 & H & U)|(l1 & l2 & H & U)])].
    + eexists. apply read_file_missing; exact F.
    + apply line_unreadable in U as (w & U). exists w. rewrite (read_file_one fs f contents l1 F H), U. reflexivity.
    + rewrite (read_file_two fs f contents l1 l2 F H). destruct (@read_line_total N l1) as [(b & Rb)|(w & Rw)].
      * destruct U as [U|U]; [apply line_read in Rb; destruct (U _ Rb)|].
        apply line_unreadable in U as (w & U). exists w. rewrite Rb. cbn [bind]. rewrite U. reflexivity.
      * exists w. rewrite Rw. reflexivity.
Qed.

Lemma read_holds fs f (b B : list (car N)) : read_and_check_boundaries_file fs f = Ok (b, B) <->
  exists contents, fs f = Some contents /\ file_holds contents b B.
Proof.
  split; [apply holds_read|]. intros (contents & F & H). exact (read_file_holds fs f contents b B F H).
Qed.

Lemma cli_exit fs prog c f :
  (forall out, cli_main E fs [prog; c; f] = Ok (out, 0%Z) <->
     exists contents b B x, fs f = Some contents /\ file_holds contents b B /\
       command_runs E c b B (Ok x) /\ out = [Text (show_double E x)]) /\
  ((exists out, cli_main E fs [prog; c; f] = Ok (out, 2%Z)) <->
     exists contents, fs f = Some contents /\ too_short contents) /\
  ((exists out, cli_main E fs [prog; c; f] = Ok (out, 3%Z)) <->
     fs f = None \/ exists contents, fs f = Some contents /\
       (unreadable contents \/
        exists b B, file_holds contents b B /\
          ((forall o, ~ command_runs E c b B o) \/ exists w, command_runs E c b B (Throw (RuntimeError w))))) /\
  (forall out code, cli_main E fs [prog; c; f] = Ok (out, code) ->
     code = 0%Z \/
     (code = 2%Z /\ out = [Text "ifstream::failure exception caught:"]) \/
     (code = 3%Z /\ exists us w, (us = [] \/ us = [Usage]) /\ out = (us ++ [Text "Error:"; Text w])%list)) /\
  (forall o, (forall out code, o <> Ok (out, code)) -> cli_main E fs [prog; c; f] = o ->
     exists contents b B r, fs f = Some contents /\ file_holds contents b B /\ command_runs E c b B r /\
       (forall x, r <> Ok x) /\ (forall e, r <> Throw e)).
Proof.
  pose proof (cli_main_cases E fs prog c f) as X. cbv zeta in X.
  split; [|split; [|split; [|split]]].
  - intros out. rewrite cli_success. split.
    + intros (b & B & x & R & C & O). apply read_holds in R as (contents & F & H). exists contents, b, B, x. auto.
    + intros (contents & b & B & x & F & H & C & O). exists b, B, x. split; [|auto].
      apply read_holds. eauto.
  - rewrite <- read_short. split.
    + intros (out & R). destruct X as [(b & B & x & _ & _ & Y)|[(Z & _)|[(_ & us & w & _ & Y)|(b & B & o & _ & _ & [(s & _ & Y)|[(s & _ & Y)|(_ & Y)]])]]];
        try exact Z; rewrite R in Y; discriminate.
    + intros R. destruct X as [(b & B & x & Z & _)|[(_ & Y)|[([(w & Z)|[(b & B & Z & _)|(b & B & w & Z & _)]] & _)|(b & B & o & Z & _)]]];
        try (rewrite R in Z; discriminate). eauto.
  - split.
    + intros (out & R). destruct X as [(b & B & x & _ & _ & Y)|[(_ & Y)|[(Z & _)|(b & B & o & _ & _ & [(s & _ & Y)|[(s & _ & Y)|(_ & Y)]])]]];
        try (rewrite R in Y; discriminate).
      destruct Z as [Z|[(b & B & Z & NR)|(b & B & w & Z & C)]].
      * apply read_bad in Z as [Z|(contents & F & U)]; [left; exact Z|right; exists contents; auto].
      * apply read_holds in Z as (contents & F & H). right. exists contents. split; [exact F|]. right. exists b, B. auto.
      * apply read_holds in Z as (contents & F & H). right. exists contents. split; [exact F|]. right. exists b, B. eauto.
    + intros H.
      assert (Q : (exists w, @read_and_check_boundaries_file N fs f = Throw (RuntimeError w)) \/
        exists b B, read_and_check_boundaries_file fs f = Ok (b, B) /\
          ((forall o, ~ command_runs E c b B o) \/ exists w, command_runs E c b B (Throw (RuntimeError w)))).
      { destruct H as [H|(contents & F & [U|(b & B & H & C)])].
        - left. apply read_bad. left; exact H.
        - left. apply read_bad. right. eauto.
        - right. exists b, B. split; [apply read_holds; eauto|exact C]. }
      destruct X as [(b & B & x & Z & C & Y)|[(Z & _)|[(_ & us & w & _ & Y)|(b & B & o & Z & C & Y)]]].
      * destruct Q as [(w & Q)|(b' & B' & Q & NR)]; [rewrite Q in Z; discriminate|].
        assert (b' = b /\ B' = B) as (-> & ->) by (split; congruence).
        destruct NR as [NR|(w & NR)]; [destruct (NR _ C)|]. pose proof (runs_fun E _ _ _ _ _ C NR). discriminate.
      * destruct Q as [(w & Q)|(b' & B' & Q & NR)]; rewrite Q in Z; discriminate.
      * eauto.
      * destruct Q as [(w & Q)|(b' & B' & Q & NR)]; [rewrite Q in Z; discriminate|].
        assert (b' = b /\ B' = B) as (-> & ->) by (split; congruence).
        destruct NR as [NR|(w & NR)]; [destruct (NR _ C)|]. pose proof (runs_fun E _ _ _ _ _ C NR) as Eo. subst o.
        destruct Y as [(s & Y & _)|[(s & Y & _)|(Y & _)]]; discriminate.
  - intros out code R.
    destruct X as [(b & B & x & _ & _ & Y)|[(_ & Y)|[(_ & us & w & U & Y)|(b & B & o & _ & _ & [(s & _ & Y)|[(s & _ & Y)|(_ & Y)]])]]];
      rewrite R in Y; try discriminate.
    + left. congruence.
    + right; left. split; congruence.
    + right; right. split; [congruence|]. exists us, w. split; [exact U|congruence].
  - intros o NO R.
    destruct X as [(b & B & x & _ & _ & Y)|[(_ & Y)|[(_ & us & w & U & Y)|(b & B & r & Z & C & Y)]]].
    1-3: rewrite R in Y; destruct (NO _ _ Y).
    apply read_holds in Z as (contents & F & H). exists contents, b, B, r. split; [exact F|]. split; [exact H|]. split; [exact C|].
    destruct Y as [(s & -> & _)|[(s & -> & _)|(-> & _)]]; split; intros; discriminate.
Qed.
End Program.

Lemma Throw_neq_Ok {A} e (x : A) : Throw e = Ok x -> False.
Proof. discriminate. Qed.
