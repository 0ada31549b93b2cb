(** * CliFacts: the crossprob program meets CliSpec; end-to-end correctness; Python. *)
From Coquelicot Require Import Coquelicot.
From Flocq Require Import Core.Raux.
From Coq Require Import ZArith Reals List Bool String Ascii Lia Lra Sorted.
From Verif Require Import Base Num XReal Common Ecdf2 Ecdf1New Ecdf1Mns StringUtils MonteCarlo Cli.
From Verif Require Import NoIos StringSpec StringFacts LineFacts CliSpec.
From Verif Require Import Spec SpecFacts XCommon XFft XEcdf1NewMain XMns ExactFacts ExactMore ExactEnv Cases NewMath.
Import List. Import ListNotations.
Local Open Scope string_scope.
Local Open Scope Z_scope.

Section Cli.
Context {N : num} (E : env N).
Notation T := (car N).

(** what cli_handle computes once the file is read *)
Definition dispatch (command : string) (b B : list T) : list item * outcome T :=
  if (command =? "ecdf1-mns2016")%string then calculate_ecdf1_mns2016 E b B
  else if (command =? "ecdf1-new")%string then calculate_ecdf1_new E b B
  else if (command =? "ecdf2-ks2001")%string then ([], calculate_ecdf2 E false b B)
  else if (command =? "ecdf2-mn2017")%string then ([], calculate_ecdf2 E true b B)
  else ([Usage], Throw (RuntimeError "Second command line argument must be one of: 'ecdf1-mns2016', 'ecdf1-new', 'ecdf2-ks2001', 'ecdf2-mn2017'.")).

Lemma size_nonempty {A} (l : list A) : l <> [] -> (0 <? size l) = true /\ (size l =? 0) = false.
Proof.
  destruct l; [congruence|]. intros _. unfold size. cbn [List.length].
  split; [apply Z.ltb_lt|apply Z.eqb_neq]; lia.
Qed.

Lemma runs_dispatch c b B o : command_runs E c b B o -> dispatch c b B = ([], o).
Proof.
  destruct 1 as [b H|B H|b H|B H|u b B H|u B H|u b H]; unfold dispatch, ecdf2_command.
  - unfold calculate_ecdf1_mns2016. destruct (size_nonempty b H) as (-> & ->). reflexivity.
  - unfold calculate_ecdf1_mns2016. destruct (size_nonempty B H) as (-> & ->). reflexivity.
  - unfold calculate_ecdf1_new. destruct (size_nonempty b H) as (-> & ->). reflexivity.
  - unfold calculate_ecdf1_new. destruct (size_nonempty B H) as (-> & ->). reflexivity.
  - assert (R : calculate_ecdf2 E u b B = ecdf2 E b B u).
    { unfold calculate_ecdf2, size. rewrite H, Z.max_id, Z.eqb_refl. reflexivity. }
    destruct u; cbn; rewrite R; reflexivity.
  - assert (R : calculate_ecdf2 E u [] B = ecdf2 E (repeat n0 (List.length B)) B u).
    { unfold calculate_ecdf2. destruct (size_nonempty B H) as (P & Q). apply Z.ltb_lt in P. apply Z.eqb_neq in Q.
      change (size (@nil T)) with 0. rewrite Z.max_r by lia. rewrite Z.eqb_refl.
      destruct (Z.eqb_spec 0 (size B)); [lia|]. cbn [andb]. rewrite Z.eqb_refl.
      unfold vec, size. rewrite Nat2Z.id. reflexivity. }
    destruct u; cbn [ecdf2_command]; cbn; rewrite R; reflexivity.
  - assert (R : calculate_ecdf2 E u b [] = ecdf2 E b (repeat n1 (List.length b)) u).
    { unfold calculate_ecdf2. destruct (size_nonempty b H) as (P & Q). apply Z.ltb_lt in P. apply Z.eqb_neq in Q.
      change (size (@nil T)) with 0. rewrite Z.max_l by lia. rewrite !Z.eqb_refl.
      destruct (Z.eqb_spec 0 (size b)); [lia|]. destruct (Z.eqb_spec (size b) 0); [lia|]. cbn [andb].
      unfold vec, size. rewrite Nat2Z.id. reflexivity. }
    destruct u; cbn [ecdf2_command]; cbn; rewrite R; reflexivity.
Qed.

Lemma two_name u v : ecdf2_command u = ecdf2_command v -> u = v.
Proof. destruct u, v; cbn; intros H; try reflexivity; discriminate. Qed.

Lemma runs_inv c b B o : command_runs E c b B o ->
  (c = "ecdf1-mns2016" /\ ((b <> [] /\ B = []) \/ (b = [] /\ B <> []))) \/
  (c = "ecdf1-new" /\ ((b <> [] /\ B = []) \/ (b = [] /\ B <> []))) \/
  (exists u, c = ecdf2_command u /\ (List.length b = List.length B \/ b = [] \/ B = [])).
Proof. destruct 1; eauto 10. Qed.

Definition msg_two : string := "Expecting either two boundary lists of length n or one list of length n and one of length zero".

Lemma dispatch_two u b B :
  (exists o, command_runs E (ecdf2_command u) b B o) \/
  (b <> [] /\ B <> [] /\ List.length b <> List.length B /\
   dispatch (ecdf2_command u) b B = ([], Throw (RuntimeError msg_two))).
Proof.
  destruct (Nat.eq_dec (List.length b) (List.length B)) as [L|L]; [left; eexists; apply runs_two; exact L|].
  destruct b as [|x b]; [left; eexists; apply runs_two_B; destruct B; [simpl in L; congruence|discriminate]|].
  destruct B as [|y B]; [left; eexists; apply runs_two_b; discriminate|].
  right. split; [discriminate|]. split; [discriminate|]. split; [exact L|].
  assert (R : calculate_ecdf2 E u (x :: b) (y :: B) = Throw (RuntimeError msg_two)).
  { unfold calculate_ecdf2. destruct (size_nonempty (x :: b)) as (P & Q); [discriminate|].
    destruct (size_nonempty (y :: B)) as (P' & Q'); [discriminate|]. rewrite Q, Q'. cbn [andb]. rewrite andb_false_r.
    destruct (Z.eqb_spec (size (x :: b)) (Z.max (size (x :: b)) (size (y :: B)))) as [H1|]; [|reflexivity].
    destruct (Z.eqb_spec (size (y :: B)) (Z.max (size (x :: b)) (size (y :: B)))) as [H2|]; [|reflexivity].
    exfalso. apply L. rewrite <- H1 in H2. unfold size in H2. lia. }
  unfold dispatch, ecdf2_command. destruct u; cbn -[calculate_ecdf2]; rewrite R; reflexivity.
Qed.

Lemma one_sided_cases (b B : list T) : ((b <> [] /\ B = []) \/ (b = [] /\ B <> [])) \/
  ((0 <? size b) && (size B =? 0) = false /\ (size b =? 0) && (0 <? size B) = false /\
   ~ ((b <> [] /\ B = []) \/ (b = [] /\ B <> []))).
Proof.
  destruct b as [|x b], B as [|y B].
  - right. split; [reflexivity|]. split; [reflexivity|]. intuition congruence.
  - left. right. split; [reflexivity|discriminate].
  - left. left. split; [discriminate|reflexivity].
  - right. destruct (size_nonempty (x :: b)) as (P & Q); [discriminate|].
    destruct (size_nonempty (y :: B)) as (P' & Q'); [discriminate|]. rewrite Q, Q'.
    split; [apply andb_false_r|]. split; [reflexivity|]. intuition congruence.
Qed.

Lemma dispatch_cases c b B :
  (exists o, command_runs E c b B o /\ dispatch c b B = ([], o)) \/
  ((forall o, ~ command_runs E c b B o) /\
   exists us w, dispatch c b B = (us, Throw (RuntimeError w)) /\ (us = [] \/ us = [Usage])).
Proof.
  assert (G : (exists o, command_runs E c b B o) -> exists o, command_runs E c b B o /\ dispatch c b B = ([], o)).
  { intros (o & H). exists o. split; [exact H|apply runs_dispatch; exact H]. }
  destruct (string_dec c "ecdf1-mns2016") as [->|N1].
  { destruct (one_sided_cases b B) as [[(P & ->)|(-> & P)]|(X & Y & Z0)].
    - left. apply G. eexists. apply runs_mns_b; exact P.
    - left. apply G. eexists. apply runs_mns_B; exact P.
    - right. split.
      + intros o H. apply runs_inv in H as [(_ & H)|[(H & _)|(u & H & _)]]; [contradiction|discriminate|destruct u; discriminate].
      + unfold dispatch, calculate_ecdf1_mns2016. cbn -[size]. rewrite X, Y. eauto. }
  destruct (string_dec c "ecdf1-new") as [->|N2].
  { destruct (one_sided_cases b B) as [[(P & ->)|(-> & P)]|(X & Y & Z0)].
    - left. apply G. eexists. apply runs_new_b; exact P.
    - left. apply G. eexists. apply runs_new_B; exact P.
    - right. split.
      + intros o H. apply runs_inv in H as [(H & _)|[(_ & H)|(u & H & _)]]; [discriminate|contradiction|destruct u; discriminate].
      + unfold dispatch, calculate_ecdf1_new. cbn -[size]. rewrite X, Y. eauto. }
  assert (TWO : forall u, c = ecdf2_command u ->
    (exists o, command_runs E c b B o /\ dispatch c b B = ([], o)) \/
    ((forall o, ~ command_runs E c b B o) /\
     exists us w, dispatch c b B = (us, Throw (RuntimeError w)) /\ (us = [] \/ us = [Usage]))).
  { intros u ->. destruct (dispatch_two u b B) as [H|(P & Q & L & D)]; [left; auto|right]. split; [|eauto].
    intros o H. apply runs_inv in H as [(H & _)|[(H & _)|(v & _ & [H|[H|H]])]]; try contradiction; destruct u; discriminate. }
  destruct (string_dec c "ecdf2-ks2001") as [->|N3]; [apply (TWO false); reflexivity|].
  destruct (string_dec c "ecdf2-mn2017") as [->|N4]; [apply (TWO true); reflexivity|].
  right. split.
  - intros o H. apply runs_inv in H as [(H & _)|[(H & _)|(u & H & _)]]; [contradiction|contradiction|].
    destruct u; contradiction.
  - unfold dispatch. apply String.eqb_neq in N1, N2, N3, N4. rewrite N1, N2, N3, N4. eauto.
Qed.

Lemma runs_fun c b B o o' : command_runs E c b B o -> command_runs E c b B o' -> o = o'.
Proof. intros H H'. apply runs_dispatch in H, H'. congruence. Qed.

Lemma runs_no_ios c b B o : command_runs E c b B o -> no_ios o.
Proof.
  destruct 1; auto using mns_b_no_ios, mns_B_no_ios, new_b_no_ios, new_B_no_ios, ecdf2_no_ios.
Qed.

Lemma read_total fs f : (exists b B, @read_and_check_boundaries_file N fs f = Ok (b, B)) \/
  @read_and_check_boundaries_file N fs f = Throw IosFailure \/
  (exists w, @read_and_check_boundaries_file N fs f = Throw (RuntimeError w)).
Proof.
  destruct (fs f) as [contents|] eqn:F; [|right; right; rewrite read_file_missing by exact F; eauto].
  destruct (contents_cases contents) as [->|[(l1 & H)|(l1 & l2 & H)]].
  - right; left. apply read_file_empty; exact F.
  - rewrite (read_file_one fs f contents l1 F H).
    destruct (@read_line_total N l1) as [(xs & ->)|(w & ->)]; simpl; eauto.
  - rewrite (read_file_two fs f contents l1 l2 F H).
    destruct (@read_line_total N l1) as [(xs & ->)|(w & ->)]; simpl; eauto.
    destruct (@read_line_total N l2) as [(ys & ->)|(w & ->)]; simpl; eauto.
Qed.

Lemma cli_handle_eq fs c f : cli_handle E fs c f =
  match read_and_check_boundaries_file fs f with
  | Ok (b, B) =>
      let '(out, r) := dispatch c b B in
      match r with
      | Ok result => ((out ++ [Text (show_double E result)])%list, Ok tt)
      | Throw e => (out, Throw e) | Abort s => (out, Abort s)
      | Undef s => (out, Undef s) | Hang => (out, Hang)
      end
  | Throw e => ([], Throw e) | Abort s => ([], Abort s)
  | Undef s => ([], Undef s) | Hang => ([], Hang)
  end.
Proof. reflexivity. Qed.

(** everything the program can do with three-element argv *)
Lemma cli_main_cases fs prog c f :
  let r := cli_main E fs [prog; c; f] in
  (exists b B x, read_and_check_boundaries_file fs f = Ok (b, B) /\ command_runs E c b B (Ok x) /\
     r = Ok ([Text (show_double E x)], 0)) \/
  (@read_and_check_boundaries_file N fs f = Throw IosFailure /\
     r = Ok ([Text "ifstream::failure exception caught:"], 2)) \/
  (((exists w, @read_and_check_boundaries_file N fs f = Throw (RuntimeError w)) \/
    (exists b B, read_and_check_boundaries_file fs f = Ok (b, B) /\ forall o, ~ command_runs E c b B o) \/
    (exists b B w, read_and_check_boundaries_file fs f = Ok (b, B) /\ command_runs E c b B (Throw (RuntimeError w)))) /\
   exists us w, (us = [] \/ us = [Usage]) /\ r = Ok ((us ++ [Text "Error:"; Text w])%list, 3)) \/
  (exists b B o, read_and_check_boundaries_file fs f = Ok (b, B) /\ command_runs E c b B o /\
     ((exists s, o = Abort s /\ r = Abort s) \/ (exists s, o = Undef s /\ r = Undef s) \/ (o = Hang /\ r = Hang))).
Proof.
  unfold cli_main. rewrite cli_handle_eq. cbv zeta.
  destruct (read_total fs f) as [(b & B & R)|[R|(w & R)]]; rewrite R.
  - destruct (dispatch_cases c b B) as [(o & H & ->)|(H & us & w & -> & U)].
    + destruct o as [x|[w|]|s|s|] eqn:O; cbn [app].
      * left. exists b, B, x. auto.
      * right; right; left. split; [right; right; exists b, B, w; auto|]. exists [], w. auto.
      * exfalso. exact (runs_no_ios _ _ _ _ H eq_refl).
      * right; right; right. exists b, B, (Abort s). split; [auto|]. split; [auto|]. left. exists s. auto.
      * right; right; right. exists b, B, (Undef s). split; [auto|]. split; [auto|]. right; left. exists s. auto.
      * right; right; right. exists b, B, Hang. split; [auto|]. split; [auto|]. right; right. auto.
    + right; right; left. split; [right; left; exists b, B; auto|]. exists us, w. auto.
  - right; left. auto.
  - right; right; left. split; [left; eauto|]. exists [], w. auto.
Qed.

Lemma cli_arguments fs argv : List.length argv <> 3%nat ->
  cli_main E fs argv = Ok ([Usage; Text "Error: Expecting 2 command line arguments!"], 1).
Proof. destruct argv as [|a [|b [|c [|d l]]]]; intros H; try reflexivity. exfalso; apply H; reflexivity. Qed.

Lemma cli_success fs prog c f out :
  cli_main E fs [prog; c; f] = Ok (out, 0) <->
  exists b B x, read_and_check_boundaries_file fs f = Ok (b, B) /\ command_runs E c b B (Ok x) /\
    out = [Text (show_double E x)].
Proof.
  pose proof (cli_main_cases fs prog c f) as H. cbv zeta in H. split.
  - intros R. rewrite R in H.
    destruct H as [(b & B & x & H1 & H2 & H3)|[(_ & H)|[(_ & us & w & _ & H)|(b & B & o & _ & _ & [(s & _ & H)|[(s & _ & H)|(_ & H)]])]]];
      try discriminate; try congruence.
    exists b, B, x. split; [auto|]. split; [auto|]. congruence.
  - intros (b & B & x & H1 & H2 & ->).
    destruct H as [(b' & B' & x' & H1' & H2' & ->)|[(H & _)|[([(w & H)|[(b' & B' & H1' & H)|(b' & B' & w & H1' & H)]] & _)|(b' & B' & o & H1' & H & H3)]]]; try congruence.
    + assert (b' = b /\ B' = B) as (-> & ->) by (split; congruence).
      pose proof (runs_fun _ _ _ _ _ H2 H2'). congruence.
    + assert (b' = b /\ B' = B) as (-> & ->) by (split; congruence). destruct (H _ H2).
    + assert (b' = b /\ B' = B) as (-> & ->) by (split; congruence).
      pose proof (runs_fun _ _ _ _ _ H2 H). congruence.
    + assert (b' = b /\ B' = B) as (-> & ->) by (split; congruence).
      pose proof (runs_fun _ _ _ _ _ H2 H).
      destruct H3 as [(s & -> & _)|[(s & -> & _)|(-> & _)]]; discriminate.
Qed.

Lemma read_file_holds fs f contents (b B : list T) : fs f = Some contents -> file_holds contents b B ->
  read_and_check_boundaries_file fs f = Ok (b, B).
Proof.
  intros F (l1 & l2 & H & (ps & qs & F1 & K1 & V1) & (ps' & qs' & F2 & K2 & V2)).
  rewrite (read_file_two fs f contents l1 l2 F H).
  rewrite (proj2 (read_line_ok l1 ps qs F1 K1 b) V1).
  cbn [bind]. rewrite (proj2 (read_line_ok l2 ps' qs' F2 K2 B) V2). reflexivity.
Qed.
Lemma holds_read fs f (b B : list T) : read_and_check_boundaries_file fs f = Ok (b, B) ->
  exists contents, fs f = Some contents /\ file_holds contents b B.
Proof.
  destruct (fs f) as [contents|] eqn:F; [|rewrite read_file_missing by exact F; discriminate].
  intros R. exists contents. split; [reflexivity|].
  destruct (contents_cases contents) as [->|[(l1 & H)|(l1 & l2 & H)]].
  - rewrite read_file_empty in R by exact F. discriminate.
  - rewrite (read_file_one fs f contents l1 F H) in R. destruct (read_comma_delimited_doubles l1); discriminate.
  - rewrite (read_file_two fs f contents l1 l2 F H) in R.
    destruct (@read_comma_delimited_doubles N l1) as [xs| | | |] eqn:R1; try discriminate.
    destruct (@read_comma_delimited_doubles N l2) as [ys| | | |] eqn:R2; try discriminate.
    cbn [bind] in R. assert (xs = b /\ ys = B) as (-> & ->) by (split; congruence).
    destruct (kept_exists (StringUtils.split l1 ",")) as (qs & K1); [apply split_from_nonempty|].
    destruct (kept_exists (StringUtils.split l2 ",")) as (qs' & K2); [apply split_from_nonempty|].
    exists l1, l2. split; [exact H|]. split.
    + exists (StringUtils.split l1 ","), qs. split; [apply split_fields|]. split; [exact K1|].
      exact (proj1 (read_line_ok l1 _ qs (split_fields l1) K1 b) R1).
    + exists (StringUtils.split l2 ","), qs'. split; [apply split_fields|]. split; [exact K2|].
      exact (proj1 (read_line_ok l2 _ qs' (split_fields l2) K2 B) R2).
Qed.
End Cli.

(** ** End to end, exact arithmetic *)
Section EndToEnd.
Context {frexp : xr -> Z} (E : env (Xnum frexp)).
Local Open Scope R_scope.

Lemma map_Fin_repeat (r : R) n : map Fin (repeat r n) = repeat (Fin r) n.
Proof. induction n; simpl; congruence. Qed.
Lemma map_Fin_nonempty (l : list R) : l <> [] -> map Fin l <> [].
Proof. destruct l; [congruence|discriminate]. Qed.

Lemma cli_two_sided fs prog f contents (b B : list R) use_fft :
  fs f = Some contents -> file_holds (N := Xnum frexp) contents (map Fin b) (map Fin B) ->
  valid_boundary b -> valid_boundary B -> length b = length B -> sort_ok E -> (use_fft = true -> fft_ok E) ->
  (asserts E = true -> forall i, (S i < length b)%nat -> nth i b 0 <= nth (S i) B 0) ->
  exists p, is_noncrossing_probability b B p /\
    cli_main E fs [prog; ecdf2_command use_fft; f] = Ok ([Text (show_double E (Fin p))], 0%Z).
Proof.
  intros F H Vb VB L Hs Hf Hg. destruct (ecdf2_exact E b B use_fft) as (p & Hp & R); auto.
  exists p. split; [exact Hp|]. apply cli_success. exists (map Fin b), (map Fin B), (Fin p).
  split; [exact (read_file_holds fs f contents _ _ F H)|]. split; [|reflexivity].
  refine (eq_ind _ (command_runs E _ _ _) _ _ R). apply runs_two. rewrite !map_length. exact L.
Qed.

Lemma cli_two_sided_B fs prog f contents (B : list R) use_fft :
  fs f = Some contents -> file_holds (N := Xnum frexp) contents [] (map Fin B) ->
  valid_boundary B -> B <> [] -> sort_ok E -> (use_fft = true -> fft_ok E) ->
  exists p, is_prob (length B) (noncrossing_B B) p /\
    cli_main E fs [prog; ecdf2_command use_fft; f] = Ok ([Text (show_double E (Fin p))], 0%Z).
Proof.
  intros F H VB NE Hs Hf.
  destruct (ecdf2_exact E (repeat 0 (length B)) B use_fft) as (p & Hp & R); auto.
  - apply valid_repeat; lra.
  - rewrite repeat_length; reflexivity.
  - intros _. apply no_gap_zeros; auto.
  - exists p. split; [apply prob_zeros; exact Hp|]. apply cli_success. exists [], (map Fin B), (Fin p).
    split; [exact (read_file_holds fs f contents _ _ F H)|]. split; [|reflexivity].
    refine (eq_ind _ (command_runs E _ _ _) _ _ R). rewrite map_Fin_repeat. rewrite <- (map_length Fin B).
    apply (runs_two_B E use_fft (map Fin B)). apply map_Fin_nonempty; exact NE.
Qed.

Lemma cli_two_sided_b fs prog f contents (b : list R) use_fft :
  fs f = Some contents -> file_holds (N := Xnum frexp) contents (map Fin b) [] ->
  valid_boundary b -> b <> [] -> sort_ok E -> (use_fft = true -> fft_ok E) ->
  exists p, is_prob (length b) (noncrossing_b b) p /\
    cli_main E fs [prog; ecdf2_command use_fft; f] = Ok ([Text (show_double E (Fin p))], 0%Z).
Proof.
  intros F H Vb NE Hs Hf.
  destruct (ecdf2_exact E b (repeat 1 (length b)) use_fft) as (p & Hp & R); auto.
  - apply valid_repeat; lra.
  - rewrite repeat_length; reflexivity.
  - intros _. apply no_gap_ones; auto.
  - exists p. split; [apply prob_ones; exact Hp|]. apply cli_success. exists (map Fin b), [], (Fin p).
    split; [exact (read_file_holds fs f contents _ _ F H)|]. split; [|reflexivity].
    refine (eq_ind _ (command_runs E _ _ _) _ _ R). rewrite map_Fin_repeat. rewrite <- (map_length Fin b).
    apply (runs_two_b E use_fft (map Fin b)). apply map_Fin_nonempty; exact NE.
Qed.

Lemma cli_mns fs prog f contents (v : list R) :
  fs f = Some contents -> valid_boundary v -> v <> [] -> long_double_ok E ->
  (file_holds (N := Xnum frexp) contents (map Fin v) [] ->
   exists p, is_prob (length v) (noncrossing_b v) p /\
     cli_main E fs [prog; "ecdf1-mns2016"%string; f] = Ok ([Text (show_double E (Fin p))], 0%Z)) /\
  (file_holds (N := Xnum frexp) contents [] (map Fin v) ->
   exists p, is_prob (length v) (noncrossing_B v) p /\
     cli_main E fs [prog; "ecdf1-mns2016"%string; f] = Ok ([Text (show_double E (Fin p))], 0%Z)).
Proof.
  intros F V NE Hld. split; intros H.
  - destruct (mns_b_total E v V Hld) as (p & Hp & R). exists p. split; [exact Hp|]. apply cli_success.
    exists (map Fin v), [], (Fin p). split; [exact (read_file_holds fs f contents _ _ F H)|]. split; [|reflexivity].
    refine (eq_ind _ (command_runs E _ _ _) _ _ R). apply runs_mns_b, map_Fin_nonempty, NE.
  - destruct (mns_B_total E v V Hld) as (p & Hp & R). exists p. split; [exact Hp|]. apply cli_success.
    exists [], (map Fin v), (Fin p). split; [exact (read_file_holds fs f contents _ _ F H)|]. split; [|reflexivity].
    refine (eq_ind _ (command_runs E _ _ _) _ _ R). apply runs_mns_B, map_Fin_nonempty, NE.
Qed.

Lemma cli_new fs prog f contents (v : list R) :
  fs f = Some contents -> valid_boundary v -> fft_ok E ->
  (1 <= length v)%nat -> (Z.of_nat (length v) <= INT_MAX)%Z -> (asserts E = true -> (2 <= length v)%nat) ->
  (file_holds (N := Xnum frexp) contents (map Fin v) [] ->
   exists p, is_prob (length v) (noncrossing_b v) p /\
     cli_main E fs [prog; "ecdf1-new"%string; f] = Ok ([Text (show_double E (Fin p))], 0%Z)) /\
  (file_holds (N := Xnum frexp) contents [] (map Fin v) ->
   exists p, is_prob (length v) (noncrossing_B v) p /\
     cli_main E fs [prog; "ecdf1-new"%string; f] = Ok ([Text (show_double E (Fin p))], 0%Z)).
Proof.
  intros F V Hf L1 L2 L3. assert (NE : v <> []) by (destruct v; [simpl in L1; lia|discriminate]). split; intros H.
  - destruct (new_b_total E v V Hf L1 L2 L3) as (p & Hp & R). exists p. split; [exact Hp|]. apply cli_success.
    exists (map Fin v), [], (Fin p). split; [exact (read_file_holds fs f contents _ _ F H)|]. split; [|reflexivity].
    refine (eq_ind _ (command_runs E _ _ _) _ _ R). apply runs_new_b, map_Fin_nonempty, NE.
  - destruct (new_B_total E v V Hf L1 L2 L3) as (p & Hp & R). exists p. split; [exact Hp|]. apply cli_success.
    exists [], (map Fin v), (Fin p). split; [exact (read_file_holds fs f contents _ _ F H)|]. split; [|reflexivity].
    refine (eq_ind _ (command_runs E _ _ _) _ _ R). apply runs_new_B, map_Fin_nonempty, NE.
Qed.
End EndToEnd.

(** Files that one-sided commands refuse, for every arithmetic. *)
Lemma cli_refuses {N : num} (E : env N) fs prog f contents (b B : list (car N)) c :
  fs f = Some contents -> file_holds contents b B ->
  (c = "ecdf1-new" \/ c = "ecdf1-mns2016") /\ (b = [] <-> B = []) \/
  (c = "ecdf2-ks2001" \/ c = "ecdf2-mn2017") /\ b <> [] /\ B <> [] /\ List.length b <> List.length B ->
  exists us w, (us = [] \/ us = [Usage]) /\
    cli_main E fs [prog; c; f] = Ok ((us ++ [Text "Error:"; Text w])%list, 3).
Proof.
  intros F H K. pose proof (read_file_holds fs f contents _ _ F H) as R.
  assert (NR : forall o, ~ command_runs E c b B o).
  { intros o CR. apply runs_inv in CR.
    destruct K as [([-> | ->] & I)|([-> | ->] & Nb & NB & L)];
      destruct CR as [(C & CR)|[(C & CR)|(u & C & CR)]]; try discriminate; try (destruct u; discriminate); intuition congruence. }
  pose proof (cli_main_cases E fs prog c f) as X. cbv zeta in X.
  destruct X as [(b' & B' & x & H1 & H2 & H3)|[(H1 & _)|[(_ & X)|(b' & B' & o & H1 & H2 & _)]]].
  - assert (b' = b /\ B' = B) as (-> & ->) by (split; congruence). destruct (NR _ H2).
  - congruence.
  - exact X.
  - assert (b' = b /\ B' = B) as (-> & ->) by (split; congruence). destruct (NR _ H2).
Qed.
