(** * LineFacts: integers, split, lines and boundary files. *)
From Coq Require Import ZArith List Bool Ascii String Lia.
From Verif Require Import Base Num StringUtils StringSpec StringFacts.
Import ListNotations.
Local Open Scope string_scope.
Local Open Scope Z_scope.

(** ** strtol *)
Definition clamp (v : Z) (rest : string) : Z * bool * string :=
  if v <? LONG_MIN then (LONG_MIN, true, rest)
  else if LONG_MAX <? v then (LONG_MAX, true, rest) else (v, false, rest).

Lemma strtol_complete s v : integer_text s v -> strtol s = Some (clamp v "").
Proof.
  destruct 1 as [bl sg neg s v B SG P NE]. unfold strtol.
  destruct s as [|c r]; [congruence|].
  destruct (positional_first digit dec_digit 10 digit_dec _ _ c r P eq_refl) as (d & D).
  assert (NB : ~ blank c).
  { rewrite <- isspace_blank. revert D. allbytes c; vm_compute; intros D; try discriminate; congruence. }
  rewrite skip_space_app; [|exact B|].
  - rewrite (read_sign_app sg neg) by
      (solve [exact SG | rewrite <- (sapp_nil_r (String c r)); eapply dec_first_not_sign; [exact P|discriminate]]).
    rewrite <- (sapp_nil_r (String c r)), (read_digits_app digit dec_digit 10 digit_dec _ v P).
    simpl read_digits.
    assert (0 < slen (String c r)) by (rewrite slen_cons; pose proof (slen_pos r); lia).
    destruct (Z.eqb_spec (0 + slen (String c r)) 0); [lia|].
    replace (0 * 10 ^ slen (String c r) + v) with v by ring.
    unfold clamp. destruct (_ <? LONG_MIN); [reflexivity|]. destruct (LONG_MAX <? _); reflexivity.
  - destruct sg as [|c' sg'] eqn:E; [exact NB|]. simpl. exact (sign_nonblank _ _ c' sg' SG eq_refl).
Qed.

Lemma strtol_run s :
  (exists p v rest, s = p ++ rest /\ integer_text p v /\ strtol s = Some (clamp v rest)) \/
  strtol s = None.
Proof.
  unfold strtol. destruct (skip_space_sound s) as (bl & r & -> & B & -> & _).
  destruct (read_sign_sound r) as (sg & neg & r' & -> & SG & ->).
  destruct (read_digits_run digit dec_digit 10 digit_dec r' 0 0) as (p & v & r2 & -> & P & -> & R).
  destruct (Z.eqb_spec (0 + slen p) 0) as [|N]; [right; reflexivity|left].
  exists (bl ++ sg ++ p), (if neg then - v else v), r2.
  split; [rewrite !sapp_assoc; reflexivity|]. split.
  - constructor; auto. intros ->. apply N. reflexivity.
  - replace (0 * 10 ^ slen p + v) with v by ring.
    unfold clamp. destruct (_ <? LONG_MIN); [reflexivity|]. destruct (LONG_MAX <? _); reflexivity.
Qed.

Lemma c_str_spec s : c_text s (c_str s).
Proof.
  induction s as [|c s IH]; simpl.
  - split; [constructor|left; reflexivity].
  - destruct (Ascii.eqb_spec c zero) as [->|NE].
    + split; [constructor|right; exists s; reflexivity].
    + destruct IH as (NF & H). split; [apply each_cons; auto|].
      destruct H as [<-|(r & H)]; [left; reflexivity|right; exists r; simpl; congruence].
Qed.
Lemma c_text_fun s t : c_text s t -> t = c_str s.
Proof.
  intros (NF & H). revert s H; induction t as [|c t IH]; intros s H.
  - destruct H as [->|(r & ->)]; reflexivity.
  - apply each_cons in NF as (C & NF).
    assert (exists s', s = String c s' /\ (s' = t \/ exists r, s' = t ++ String "000" r)) as (s' & -> & H').
    { destruct H as [->|(r & ->)]; [exists t; auto|]. eexists; split; [reflexivity|]. right; eexists; reflexivity. }
    simpl. destruct (Ascii.eqb_spec c zero) as [->|]; [exfalso; apply C; reflexivity|].
    f_equal. apply IH; assumption.
Qed.
Lemma c_str_nul_free s : nul_free s -> c_str s = s.
Proof. intros H. symmetry. apply c_text_fun. split; auto. Qed.

Lemma string_to_long_exact s v : nul_free s ->
  (string_to_long s = Ok v <-> integer_text s v /\ - 2 ^ 63 <= v <= 2 ^ 63 - 1).
Proof.
  intros NF. unfold string_to_long. rewrite (c_str_nul_free s NF).
  change (2 ^ 63 - 1) with LONG_MAX. change (- 2 ^ 63) with LONG_MIN.
  split.
  - destruct (strtol_run s) as [(p & w & rest & -> & I & ->)| ->]; [|discriminate].
    unfold clamp. destruct (Z.ltb_spec w LONG_MIN); [discriminate|].
    destruct (Z.ltb_spec LONG_MAX w); [discriminate|].
    cbn [andb orb]. destruct (String.eqb_spec rest "") as [->|]; simpl; [|discriminate].
    intros E. assert (w = v) as -> by congruence. rewrite sapp_nil_r. auto.
  - intros (I & R1 & R2). rewrite (strtol_complete s v I). unfold clamp.
    destruct (Z.ltb_spec v LONG_MIN); [lia|]. destruct (Z.ltb_spec LONG_MAX v); [lia|]. reflexivity.
Qed.

Lemma string_to_long_total s : (exists v, string_to_long s = Ok v) \/ (exists w, string_to_long s = Throw (RuntimeError w)).
Proof.
  unfold string_to_long. destruct (strtol (c_str s)) as [[[v e] rest]|]; [|eauto].
  match goal with |- context [if ?b then _ else _] => destruct b end; [eauto|].
  match goal with |- context [if ?b then _ else _] => destruct b end; eauto.
Qed.

(** ** split *)
Lemma split_from_nonempty s d : forall cur, split_from cur s d <> [].
Proof.
  induction s as [|c s IH]; intros cur; simpl; [discriminate|]. destruct (Ascii.eqb c d); [discriminate|apply IH].
Qed.
Lemma split_from_join s d : forall cur, join d (split_from cur s d) = cur ++ s.
Proof.
  induction s as [|c s IH]; intros cur; simpl.
  - rewrite sapp_nil_r; reflexivity.
  - destruct (Ascii.eqb_spec c d) as [->|].
    + pose proof (IH "") as H. pose proof (split_from_nonempty s d "") as NE.
      destruct (split_from "" s d) as [|a l]; [congruence|].
      change (cur ++ String d (join d (a :: l)) = cur ++ String d s). rewrite H. reflexivity.
    + rewrite IH, sapp_assoc. reflexivity.
Qed.
Lemma split_from_without s d : forall cur, without d cur -> Forall (without d) (split_from cur s d).
Proof.
  induction s as [|c s IH]; intros cur W; simpl.
  - constructor; [exact W|constructor].
  - destruct (Ascii.eqb_spec c d) as [->|NE].
    + constructor; [exact W|apply IH; constructor].
    + apply IH. apply each_app. split; [exact W|]. apply each_cons. split; [exact NE|constructor].
Qed.
Lemma split_from_length s d : forall cur, List.length (split_from cur s d) = S (occurrences d s).
Proof.
  unfold occurrences. induction s as [|c s IH]; intros cur; simpl; [reflexivity|].
  destruct (Ascii.eqb_spec c d) as [->|NE]; destruct (ascii_dec _ _); try congruence; simpl; rewrite IH; reflexivity.
Qed.
Lemma split_from_app p d rest : without d p -> forall cur,
  split_from cur (p ++ rest) d = split_from (cur ++ p) rest d.
Proof.
  induction p as [|c p IH]; intros W cur; simpl.
  - rewrite sapp_nil_r. reflexivity.
  - apply each_cons in W as (C & W). destruct (Ascii.eqb_spec c d); [contradiction|].
    rewrite (IH W), sapp_assoc. reflexivity.
Qed.
Lemma split_join ps d : ps <> [] -> Forall (without d) ps -> split (join d ps) d = ps.
Proof.
  unfold split. induction ps as [|p ps IH]; intros NE W; [congruence|].
  inversion W as [|? ? Wp Wps]; subst.
  destruct ps as [|q ps].
  - simpl. rewrite <- (sapp_nil_r p) at 1. rewrite (split_from_app p d "" Wp ""). reflexivity.
  - change (join d (p :: q :: ps)) with (p ++ String d (join d (q :: ps))).
    rewrite (split_from_app p d _ Wp ""). simpl split_from at 1. rewrite Ascii.eqb_refl.
    cbn [append]. f_equal. apply IH; [discriminate|exact Wps].
Qed.

(** ** Numbers *)
Section Line.
Context {N : num}.
Notation T := (car N).

Lemma string_to_double_exact s (x : T) : string_to_double s = Ok x <-> field_value s x.
Proof.
  unfold string_to_double, field_value. split.
  - destruct (scan_double (c_str s)) as [[l rest]|] eqn:E; [|discriminate].
    destruct (n_strtod l) as (v, er) eqn:S. destruct er; [discriminate|]. intros H.
    apply scan_double_longest in E as (p & LN).
    exists (c_str s), p, l, rest. split; [apply c_str_spec|]. split; [exact LN|]. congruence.
  - intros (t & p & l & rest & C & LN & S). rewrite <- (c_text_fun _ _ C).
    rewrite (proj2 (scan_double_longest t l rest)) by (exists p; exact LN). rewrite S. reflexivity.
Qed.

Lemma string_to_double_total s :
  (exists x : T, string_to_double s = Ok x) \/ (exists w, @string_to_double N s = Throw (RuntimeError w)).
Proof.
  unfold string_to_double. destruct (scan_double (c_str s)) as [[l rest]|]; [|eauto].
  destruct (n_strtod l) as (v, er). destruct er; eauto.
Qed.

Lemma transform_ok {A B} (f : A -> outcome B) l ys :
  transform f l = Ok ys <-> Forall2 (fun x y => f x = Ok y) l ys.
Proof.
  revert ys; induction l as [|x l IH]; intros ys; simpl.
  - split; [intros H; injection H as <-; constructor|inversion 1; reflexivity].
  - split.
    + destruct (f x) eqn:F; simpl; try discriminate.
      destruct (transform f l) eqn:TR; simpl; try discriminate.
      intros H. assert (ys = a :: a0) as -> by congruence. constructor; [exact F|apply IH; reflexivity].
    + inversion 1 as [|? y ? ys' F R]; subst. rewrite F. simpl. rewrite (proj2 (IH _) R). reflexivity.
Qed.

Lemma transform_total {A B} (f : A -> outcome B) l :
  (forall x, (exists y, f x = Ok y) \/ (exists w, f x = Throw (RuntimeError w))) ->
  ((exists ys, transform f l = Ok ys) \/ (exists w, transform f l = Throw (RuntimeError w))) /\
  ((exists w, transform f l = Throw (RuntimeError w)) <-> exists x, In x l /\ forall y, f x <> Ok y).
Proof.
  intros F. induction l as [|x l (IH1 & IH2)]; simpl.
  - split; [left; eauto|]. split; [intros (w & H); discriminate|intros (x & [] & _)].
  - destruct (F x) as [(y & E)|(w & E)]; rewrite E; simpl.
    + destruct IH1 as [(ys & IH1)|(w & IH1)]; rewrite IH1 in *; simpl.
      * split; [left; eauto|]. split; [intros (w & H); discriminate|].
        intros (z & [->|I] & H); [destruct (H y E)|].
        destruct (proj2 IH2) as (w & Hw); [exists z; auto|discriminate].
      * split; [right; eauto|]. split; [|intros; eauto]. intros _.
        destruct (proj1 IH2 (ex_intro _ w eq_refl)) as (z & I & H). eauto.
    + split; [right; eauto|]. split; [|intros; eauto]. intros _. exists x. split; [auto|]. intros y H; congruence.
Qed.

Lemma fields_split line ps : fields line ps -> split line "," = ps.
Proof. intros (NE & W & <-). apply split_join; assumption. Qed.
Lemma split_fields line : fields line (split line ",").
Proof.
  split; [apply split_from_nonempty|]. split.
  - apply split_from_without. constructor.
  - exact (split_from_join line "," "").
Qed.

Lemma kept_fun ps qs : ps <> [] -> kept ps qs ->
  (if (last ps "x" =? "")%string then removelast ps else ps) = qs.
Proof.
  intros NE K. destruct K as [ps p P|ps]; rewrite last_last.
  - destruct (String.eqb_spec p ""); [contradiction|reflexivity].
  - simpl. apply removelast_last.
Qed.
Lemma kept_exists ps : ps <> [] -> exists qs, kept ps qs.
Proof.
  intros NE. destruct (exists_last NE) as (l & a & ->).
  destruct (string_dec a "") as [->|]; [exists l; constructor|exists (l ++ [a])%list; constructor; assumption].
Qed.

Lemma read_line_eq line ps qs : fields line ps -> kept ps qs ->
  read_comma_delimited_doubles line = transform (@string_to_double N) qs.
Proof.
  intros F K. unfold read_comma_delimited_doubles. rewrite (fields_split line ps F).
  rewrite (kept_fun ps qs); [reflexivity|apply F|exact K].
Qed.

Lemma read_line_ok line ps qs : fields line ps -> kept ps qs ->
  forall xs : list T, read_comma_delimited_doubles line = Ok xs <-> Forall2 field_value qs xs.
Proof.
  intros F K xs. rewrite (read_line_eq line ps qs F K), transform_ok. split.
  - intros H; clear -H; induction H; [apply Forall2_nil|apply Forall2_cons; [apply string_to_double_exact; assumption|assumption]].
  - intros H; clear -H; induction H; [apply Forall2_nil|apply Forall2_cons; [apply string_to_double_exact; assumption|assumption]].
Qed.

Lemma read_line_throws line ps qs : fields line ps -> kept ps qs ->
  (exists w, @read_comma_delimited_doubles N line = Throw (RuntimeError w)) <->
  exists q, In q qs /\ ~ exists x : T, field_value q x.
Proof.
  intros F K. rewrite (read_line_eq line ps qs F K).
  destruct (transform_total (@string_to_double N) qs string_to_double_total) as (_ & ->).
  split; intros (q & I & H); exists q; split; try exact I.
  - intros (x & X). apply string_to_double_exact in X. exact (H x X).
  - intros x X. apply H. exists x. apply string_to_double_exact; exact X.
Qed.

Lemma read_line_total line :
  (exists xs : list T, read_comma_delimited_doubles line = Ok xs) \/
  (exists w, @read_comma_delimited_doubles N line = Throw (RuntimeError w)).
Proof.
  destruct (kept_exists (split line ",")) as (qs & K); [apply split_from_nonempty|].
  rewrite (read_line_eq line _ qs (split_fields line) K).
  apply transform_total, string_to_double_total.
Qed.

(** ** Files *)
Lemma break_line_app l rest : without newline l -> break_line (l ++ String newline rest) = (l, Some rest).
Proof.
  induction l as [|c l IH]; intros W; [reflexivity|].
  apply each_cons in W as (C & W). cbn [append break_line].
  destruct (Ascii.eqb_spec c "010") as [->|]; [exfalso; apply C; reflexivity|]. rewrite (IH W). reflexivity.
Qed.
Lemma break_line_end l : without newline l -> break_line l = (l, None).
Proof.
  induction l as [|c l IH]; intros W; [reflexivity|].
  apply each_cons in W as (C & W). cbn [break_line].
  destruct (Ascii.eqb_spec c "010") as [->|]; [exfalso; apply C; reflexivity|]. rewrite (IH W). reflexivity.
Qed.

Lemma read_file_two fs f contents l1 l2 : fs f = Some contents -> first_two_lines contents l1 l2 ->
  @read_and_check_boundaries_file N fs f =
  (b <- read_comma_delimited_doubles l1 ;; B <- read_comma_delimited_doubles l2 ;; Ok (b, B)).
Proof.
  intros F H. unfold read_and_check_boundaries_file. rewrite F.
  unfold read_next_line, getline. destruct H as [l1 l2 rest W1 W2|l1 l2 W1 W2 NE]; cbn [eofbit unread].
  - rewrite (break_line_app l1 _ W1). cbn [bind fst snd].
    destruct (read_comma_delimited_doubles l1); cbn [bind fst snd]; try reflexivity.
    cbn [eofbit unread]. rewrite (break_line_app l2 _ W2). cbn [bind fst snd].
    destruct (read_comma_delimited_doubles l2); reflexivity.
  - rewrite (break_line_app l1 _ W1). cbn [bind fst snd].
    destruct (read_comma_delimited_doubles l1); cbn [bind fst snd]; try reflexivity.
    cbn [eofbit unread]. rewrite (break_line_end l2 W2).
    destruct (String.eqb_spec l2 ""); [contradiction|]. cbn [bind fst snd].
    destruct (read_comma_delimited_doubles l2); reflexivity.
Qed.

Lemma read_file_missing fs f : fs f = None ->
  @read_and_check_boundaries_file N fs f = Throw (RuntimeError ("Unable to read input file '" ++ f ++ "'")).
Proof. intros F. unfold read_and_check_boundaries_file. rewrite F. reflexivity. Qed.

Lemma read_file_empty fs f : fs f = Some "" -> @read_and_check_boundaries_file N fs f = Throw IosFailure.
Proof. intros F. unfold read_and_check_boundaries_file. rewrite F. reflexivity. Qed.

Lemma read_file_one fs f contents l1 : fs f = Some contents -> only_one_line contents l1 ->
  @read_and_check_boundaries_file N fs f =
  (b <- @read_comma_delimited_doubles N l1 ;; Throw IosFailure).
Proof.
  intros F H. unfold read_and_check_boundaries_file. rewrite F.
  unfold read_next_line, getline. destruct H as [l1 W1|l1 W1 NE]; cbn [eofbit unread].
  - rewrite (break_line_app l1 _ W1). cbn [bind fst snd].
    destruct (read_comma_delimited_doubles l1); reflexivity.
  - rewrite (break_line_end l1 W1). destruct (String.eqb_spec l1 ""); [contradiction|].
    cbn [bind fst snd]. destruct (read_comma_delimited_doubles l1); reflexivity.
Qed.

(** Every content is of one of the three kinds. *)
Lemma break_line_cases s : (exists l rest, s = l ++ String newline rest /\ without newline l) \/ without newline s.
Proof.
  induction s as [|c s IH]; [right; constructor|].
  destruct (ascii_dec c newline) as [->|NE]; [left; exists "", s; split; [reflexivity|constructor]|].
  destruct IH as [(l & rest & -> & W)|W].
  - left. exists (String c l), rest. split; [reflexivity|apply each_cons; auto].
  - right. apply each_cons; auto.
Qed.
Lemma contents_cases contents : contents = "" \/ (exists l1, only_one_line contents l1) \/
  (exists l1 l2, first_two_lines contents l1 l2).
Proof.
  destruct (break_line_cases contents) as [(l1 & r & -> & W1)|W].
  - right. destruct (break_line_cases r) as [(l2 & r2 & -> & W2)|W].
    + right. exists l1, l2. constructor; assumption.
    + destruct (string_dec r "") as [->|NE].
      * left. exists l1. constructor; assumption.
      * right. exists l1, r. constructor; assumption.
  - destruct (string_dec contents "") as [->|NE]; [left; reflexivity|].
    right; left. exists contents. constructor; assumption.
Qed.
End Line.

(** ** Text after a number is ignored *)
Lemma each_impl (P Q : ascii -> Prop) s : (forall c, P c -> Q c) -> each P s -> each Q s.
Proof. intros I H. unfold each in *. eapply Forall_impl; eassumption. Qed.

Ltac in_list := cbn [In list_ascii_of_string]; repeat first [left; reflexivity|right].

Lemma dec_char c d : digit c = Some d -> numeral_char c.
Proof. unfold numeral_char. allbytes c; vm_compute; intros H; try discriminate H; repeat first [left; reflexivity|right]. Qed.
Lemma hex_char c d : hexdigit c = Some d -> numeral_char c.
Proof. unfold numeral_char. allbytes c; vm_compute; intros H; try discriminate H; repeat first [left; reflexivity|right]. Qed.

Lemma positional_chars (dig : ascii -> option Z) isdig base :
  (forall c d, dig c = Some d <-> isdig c d) -> (forall c d, dig c = Some d -> numeral_char c) ->
  forall s v, positional isdig base s v -> each numeral_char s.
Proof.
  intros OK C s v. induction 1 as [|c d s v D P IH]; [constructor|].
  apply each_cons. split; [apply (C c d), OK, D|exact IH].
Qed.
Lemma dec_chars s v : positional dec_digit 10 s v -> each numeral_char s.
Proof. apply (positional_chars digit dec_digit 10 digit_dec dec_char). Qed.
Lemma hex_chars s v : positional hex_digit 16 s v -> each numeral_char s.
Proof. apply (positional_chars hexdigit hex_digit 16 hexdigit_hex hex_char). Qed.
Lemma mantissa_chars isdig base p v fr : (forall s w, positional isdig base s w -> each numeral_char s) ->
  mantissa isdig base p v fr -> each numeral_char p.
Proof.
  intros H. destruct 1 as [s v P NE|s1 v1 s2 v2 P1 P2 NE]; [exact (H _ _ P)|].
  apply each_app. split; [exact (H _ _ P1)|]. apply each_cons. split; [in_list|exact (H _ _ P2)].
Qed.
Lemma sign_chars sg neg : sign sg neg -> each numeral_char sg.
Proof. destruct 1; unfold each; cbn [list_ascii_of_string]; repeat (apply Forall_cons; [in_list|]); apply Forall_nil. Qed.
Lemma exponent_chars mark p e : numeral_char mark -> numeral_char (upper_of mark) ->
  exponent mark p e -> each numeral_char p.
Proof.
  intros M U. destruct 1 as [|c sg neg s v C SG P NE]; [constructor|].
  apply each_cons. split; [destruct C as [-> | ->]; assumption|].
  apply each_app. split; [exact (sign_chars _ _ SG)|exact (dec_chars _ _ P)].
Qed.
Lemma letters_chars pat w : each (fun p => numeral_char p /\ numeral_char (upper_of p)) pat ->
  same_letters pat w -> each numeral_char w.
Proof.
  intros H S; induction S as [|p c ps cs C S IH]; [constructor|].
  apply each_cons in H as ((A & B) & H). apply each_cons.
  split; [destruct C as [-> | ->]; assumption|exact (IH H)].
Qed.
Ltac letters W := apply (letters_chars _ _) with (2 := W); unfold each; cbn [list_ascii_of_string];
  repeat (apply Forall_cons; [split; vm_compute; repeat first [left; reflexivity|right]|]); apply Forall_nil.

Lemma unsigned_chars neg u l : unsigned_numeral neg u l -> each numeral_char u.
Proof.
  destruct 1 as [m v fr e x M X|z m v fr e x Zx M X|w W|w W|w cs W CS].
  - apply each_app. split; [exact (mantissa_chars _ _ _ _ _ dec_chars M)|].
    apply (exponent_chars "e" e x); [in_list|vm_compute; repeat first [left; reflexivity|right]|exact X].
  - apply each_app. split; [letters Zx|]. apply each_app.
    split; [exact (mantissa_chars _ _ _ _ _ hex_chars M)|].
    apply (exponent_chars "p" e x); [in_list|vm_compute; repeat first [left; reflexivity|right]|exact X].
  - destruct W as [W|W]; letters W.
  - letters W.
  - apply each_app. split; [letters W|]. apply each_app. split; [apply each_cons; split; [in_list|constructor]|].
    apply each_app. split; [|apply each_cons; split; [in_list|constructor]].
    apply (each_impl nan_char); [|exact CS]. unfold nan_char, numeral_char. intros c I.
    change (In c (list_ascii_of_string "0123456789abcdefghijklmnopqrstuvwxyzABCDEFGHIJKLMNOPQRSTUVWXYZ_"
       ++ list_ascii_of_string ".()+-")%list). apply in_or_app. left. exact I.
Qed.

Lemma app_longer a x b c : (String.length x < String.length a)%nat -> a ++ b = x ++ c ->
  exists d r, c = String d (r ++ b) /\ a = x ++ String d r.
Proof.
  revert x; induction a as [|y a IH]; intros [|z x] L E; simpl in *; try lia.
  - exists y, a. auto.
  - injection E as -> E. destruct (IH x) as (d & r & -> & ->); [lia|exact E|]. eauto.
Qed.

Lemma junk_ignored p l c tail : numeral p l -> ~ numeral_char c ->
  longest_numeral (p ++ String c tail) p l (String c tail).
Proof.
  intros P NC. split; [reflexivity|]. split; [exact P|]. intros p' l' rest' E P'.
  destruct (Nat.le_gt_cases (String.length p') (String.length p)) as [|L]; [assumption|exfalso].
  destruct (app_longer p' p rest' (String c tail) L (eq_sym E)) as (d & r & E1 & Ep').
  injection E1 as <- E1. destruct P' as [bl sg neg u l' B SG U].
  assert (A : each numeral_char (sg ++ u)) by (apply each_app; split; [exact (sign_chars _ _ SG)|exact (unsigned_chars _ _ _ U)]).
  (* c lies in the blanks, hence p is blank *)
  assert (Q : exists bl2, bl = p ++ String c bl2).
  { clear - Ep' A NC. revert p Ep'. induction bl as [|y bl IH]; intros p Ep'.
    - exfalso. simpl in Ep'. rewrite Ep' in A. apply each_app in A as (_ & A). apply each_cons in A as (A & _).
      contradiction.
    - destruct p as [|z p]; simpl in Ep'; injection Ep' as -> Ep'; [exists bl; reflexivity|].
      destruct (IH p Ep') as (bl2 & ->). exists bl2. reflexivity. }
  destruct Q as (bl2 & ->). apply each_app in B as (B & _).
  destruct P as [bl' sg' neg' u' l'' B' SG' U'].
  apply each_app in B as (_ & B). apply each_app in B as (_ & B).
  destruct (unsigned_first _ _ _ U') as (c0 & r0 & -> & NB & _). apply each_cons in B as (B & _). contradiction.
Qed.

Lemma tail_ignored {N : num} p l (x : car N) c tail : nul_free (p ++ String c tail) ->
  numeral p l -> n_strtod l = (x, false) -> ~ numeral_char c ->
  string_to_double (p ++ String c tail) = Ok x.
Proof.
  intros NF P S NC. apply string_to_double_exact.
  exists (p ++ String c tail), p, l, (String c tail). split; [split; auto|].
  split; [apply junk_ignored; assumption|exact S].
Qed.

(** Text with a character outside [numeral_char] after a non-blank one is no numeral. *)
Lemma not_whole p l c tail : numeral p l -> ~ numeral_char c ->
  forall l', ~ numeral (p ++ String c tail) l'.
Proof.
  intros P NC l' P'. destruct (junk_ignored p l c tail P NC) as (_ & _ & LG).
  specialize (LG (p ++ String c tail) l' "" (eq_sym (sapp_nil_r _)) P').
  rewrite slength_app in LG. cbn [String.length] in LG. lia.
Qed.
