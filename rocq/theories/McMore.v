(** * McMore: whole runs of crossprob_mc, and concrete cases. *)
From Coquelicot Require Import Coquelicot.
From Flocq Require Import Core.Raux.
From Coq Require Import ZArith Reals Lia Lra List Bool String Sorted.
From Verif Require Import Base Num XReal TinyMT MonteCarlo StringUtils Spec StringSpec CliSpec CliFacts LineFacts.
From Verif Require Import McSpec McFacts McLoop TinyMTFacts ExactEnv Cases TextMore.
Import List. Import ListNotations.
Local Open Scope R_scope.

(** ** One simulation *)
Lemma ecdf_simulation {frexp} (b B us : list R) r r1 : Forall (fun u => 0 < u < 1) us -> (2 <= List.length us)%nat ->
  draws (N := Xnum frexp) r (map Fin us) r1 ->
  exists x c, does_random_ecdf_cross (N := Xnum frexp) (map Fin b) (map Fin B) (List.length us - 1) r = Ok (c, r1) /\
    List.length x = (List.length us - 1)%nat /\ Sorted Rlt x /\ Forall (fun t => 0 < t < 1) x /\
    (forall k, (k < List.length x)%nat ->
      nth k x 0 = McSpec.total (map (fun u => - ln u) (firstn (S k) us)) / McSpec.total (map (fun u => - ln u) us)) /\
    (c = false <-> stays_inside b B x).
Proof.
  intros F L D. destruct (random_ecdf_sample (frexp := frexp) us r r1 F) as (x & R & Lx & Sx & Bx & V); [destruct us; [simpl in L; lia|discriminate]|exact D|].
  destruct (cross_spec (frexp := frexp) b B x) as (c & Hc & Sc).
  exists x, c. split; [|auto 7]. unfold does_random_ecdf_cross.
  assert (L0 : (1 <= List.length x)%nat) by lia.
  clear V. revert R. destruct (random_ecdf (N := Xnum frexp) (List.length us - 1) r) as (l, r'). intros R. injection R as -> ->.
  unfold addr. rewrite size_Fin. destruct (Z.leb_spec (Z.of_nat (List.length x)) 0) as [?|?]; [lia|]. cbn [Z.ltb orb].
  change (Z.compare 0 0) with Eq. cbn [bind].
  exact (f_equal (fun o => bind o (fun c => Ok (c, r1))) Hc).
Qed.

(** Draws of a state, by computation. *)
Lemma draw_value {frexp} r : state_ok r -> tinymt64_generate_double01 (N := Xnum frexp) r =
  (Fin (IZR (Z.shiftr (tinymt64_temper (tinymt64_next_state r)) 12) / IZR (2 ^ 52)), tinymt64_next_state r).
Proof.
  intros H. unfold tinymt64_generate_double01, tinymt64_temper_conv. rewrite conv_bits.
  assert (W : word 52 (Z.shiftr (tinymt64_temper (tinymt64_next_state r)) 12))
    by (apply word_shiftr; try lia; apply temper_word, next_ok; exact H).
  cbn [n_sub n_of_bits Xnum]. rewrite (of_bits_one _ W). unfold n1. cbn [n_of_Z Xnum xsub]. do 2 f_equal. ring.
Qed.
Definition case_state : tinymt := mkTinymt 84 77 0xfa051f40 0xffd0fff4 0x58d02ffeffbfffbc.
Lemma case_state_ok : state_ok case_state.
Proof. repeat split; vm_compute; congruence. Qed.
Definition first_draw (r : tinymt) : Z := Z.shiftr (tinymt64_temper (tinymt64_next_state r)) 12.
Lemma three_draws {frexp} : exists u v w r1, Forall (fun u => 0 < u < 1) [u; v; w] /\
  draws (N := Xnum frexp) case_state (map Fin [u; v; w]) r1.
Proof.
  pose proof case_state_ok as H0. pose proof (next_ok _ H0) as H1. pose proof (next_ok _ H1) as H2.
  exists (IZR (first_draw case_state) / IZR (2 ^ 52)), (IZR (first_draw (tinymt64_next_state case_state)) / IZR (2 ^ 52)),
    (IZR (first_draw (tinymt64_next_state (tinymt64_next_state case_state))) / IZR (2 ^ 52)),
    (tinymt64_next_state (tinymt64_next_state (tinymt64_next_state case_state))).
  split.
  - assert (P : forall r, state_ok r -> (0 <? first_draw r)%Z = true -> 0 < IZR (first_draw r) / IZR (2 ^ 52) < 1).
    { intros r Hr Hp. split.
      - apply Rdiv_lt_0_compat; apply IZR_lt; [lia|reflexivity].
      - apply (unit_fraction (first_draw r)). apply word_shiftr; try lia. apply temper_word, next_ok; exact Hr. }
    repeat apply Forall_cons; try apply Forall_nil; apply P; auto; vm_compute; reflexivity.
  - cbn [map]. econstructor; [apply draw_value; exact H0|]. econstructor; [apply draw_value; exact H1|].
    econstructor; [apply draw_value; exact H2|]. constructor.
Qed.
(** A Poisson walk with one jump before time 1: the scale is chosen so that the first
    jump is at time 1 exactly. *)
Lemma one_jump {frexp} : exists beta u v r1, 0 < beta /\ Forall (fun v => 0 < v < 1) ([u] ++ [v]) /\
  draws (N := Xnum frexp) case_state (map Fin ([u] ++ [v])) r1 /\
  Forall (fun t => t <= 1) (jump_times (map (fun v => beta * - ln v) [u])) /\
  1 < McSpec.total (map (fun v => beta * - ln v) [u]) + beta * - ln v.
Proof.
  destruct (@three_draws frexp) as (u & v & w & r2 & F & D).
  change [u; v; w] with (([u] ++ [v]) ++ [w]) in *. rewrite map_app in D.
  destruct (draws_split (N := Xnum frexp) _ _ _ _ D) as (r1 & D1 & _). apply Forall_app in F as (F & _).
  assert (Lu : ln u < 0) by (apply ln_lt_0; inversion F; assumption).
  assert (Lv : ln v < 0) by (apply ln_lt_0; inversion F as [|? ? ? F1]; inversion F1; assumption).
  assert (Hb : 0 < / - ln u) by (apply Rinv_0_lt_compat; lra).
  exists (/ - ln u), u, v, r1. split; [exact Hb|]. split; [exact F|]. split; [exact D1|].
  assert (E1 : / - ln u * - ln u = 1) by (apply Rinv_l; lra).
  unfold jump_times, McSpec.total. cbn [map List.length seq firstn fold_right]. rewrite E1. split.
  - apply Forall_cons; [lra|apply Forall_nil].
  - assert (0 < / - ln u * - ln v) by (apply Rmult_lt_0_compat; lra). lra.
Qed.

(** ** Missing first line, Poisson *)
Lemma poisson_no_b_estimate {frexp} fuel uninit now n (B : list (car (Xnum frexp))) num :
  B <> [] -> (0 <= n <= 2147)%Z -> (1 <= num <= INT_MAX)%Z -> (Z.to_nat num <= fuel)%nat ->
  poisson_process_crossing_probability_montecarlo (N := Xnum frexp) fuel uninit now (n_of_Z n) [] B num = Ok (Fin 1).
Proof.
  intros NE Hn Hnum Hf.
  destruct (poisson_estimate (N := Xnum frexp) uninit now (n_of_Z n) [] B num (n * 1000000) (or_introl eq_refl) (seed_exact n Hn)) as (cs & L & S & V); [lia|].
  rewrite (V fuel Hf). rewrite (all_cross _ cs (fun r => poisson_no_b B _ r NE) _ S). rewrite L.
  rewrite (proj1 (frequency_exact num num ltac:(lia) ltac:(lia))). do 2 f_equal. apply Rinv_r. apply not_0_IZR. lia.
Qed.
(** What it should report: with no b line, a walk stays inside iff its jumps meet B;
    the boundary [1] is met by any path that jumps. *)
Lemma poisson_no_b_wrong {frexp} : exists beta r es, 0 < beta /\
  (exists us u r1, Forall (fun v => 0 < v < 1) (us ++ [u]) /\ draws (N := Xnum frexp) r (map Fin (us ++ [u])) r1 /\
     es = map (fun v => beta * - ln v) us /\ Forall (fun t => t <= 1) (jump_times es) /\ 1 < McSpec.total es + beta * - ln u) /\
  stays_inside [] [1] (jump_times es) /\
  exists r1, does_random_poisson_process_cross (N := Xnum frexp) [] [Fin 1] (Fin beta) r = Ok (true, r1).
Proof.
  destruct (@one_jump frexp) as (beta & u & v & r1 & Hb & F & D & J & T).
  exists beta, case_state, (map (fun v => beta * - ln v) [u]). split; [exact Hb|].
  split; [exists [u], v, r1; auto|]. split.
  - unfold stays_inside. inversion J as [|? ? J0 _]; subst. split; [simpl; lia|]. split; [|left; reflexivity].
    intros [|i] Hi; [exact J0|simpl in Hi; lia].
  - apply (poisson_no_b (N := Xnum frexp) [Fin 1] (Fin beta) case_state). discriminate.
Qed.

(** ** The program *)
Section Program.
Context {N : num} (E : env N).
Notation T := (car N).
Local Open Scope string_scope.
Local Open Scope Z_scope.

Lemma mc_arguments fuel uninit now fs argv : List.length argv <> 4%nat ->
  mc_main E fuel uninit now fs argv =
    Ok ([Usage; Text "runtime_error exception caught:"; Text "Expecting 3 command line arguments!"], 2).
Proof.
  intros H. unfold mc_main, mc_handle.
  destruct argv as [|a0 [|a1 [|a2 [|a3 [|a4 rest]]]]]; try reflexivity. exfalso. apply H. reflexivity.
Qed.

Lemma mc_run fuel uninit now fs prog command f nsim num contents b B :
  nul_free nsim -> integer_text nsim num -> 0 <= num <= 2 ^ 63 - 1 -> fs f = Some contents -> file_holds contents b B ->
  (command = "ecdf" -> forall x, ecdf_crossing_probability_montecarlo fuel uninit now (Z.max (size b) (size B)) b B num = Ok x ->
     mc_main E fuel uninit now fs [prog; command; f; nsim] = Ok ([Text (show_double E (n_sub n1 x))], 0)) /\
  (command = "poisson" -> forall x, poisson_process_crossing_probability_montecarlo fuel uninit now (n_of_Z (Z.max (size b) (size B))) b B num = Ok x ->
     mc_main E fuel uninit now fs [prog; command; f; nsim] = Ok ([Text (show_double E (n_sub n1 x))], 0)) /\
  (command <> "ecdf" -> command <> "poisson" ->
     mc_main E fuel uninit now fs [prog; command; f; nsim] =
       Ok ([Usage; Text "runtime_error exception caught:"; Text "Second command line argument must be 'ecdf' or 'poisson'"], 2)).
Proof.
  intros HN HI Hnum HF HH.
  assert (SL : string_to_long nsim = Ok num) by (apply string_to_long_exact; [exact HN|split; [exact HI|lia]]).
  pose proof (read_file_holds fs f contents b B HF HH) as R.
  assert (NN : (num <? 0) = false) by (apply Z.ltb_ge; lia).
  split; [|split].
  - intros -> x Hx. unfold mc_main, mc_handle. rewrite SL, NN, R. cbn [String.eqb Ascii.eqb Bool.eqb].
    change ("ecdf" =? "poisson")%string with false. cbv beta iota zeta. rewrite Hx. reflexivity.
  - intros -> x Hx. unfold mc_main, mc_handle. rewrite SL, NN, R.
    change ("poisson" =? "poisson")%string with true. cbv beta iota zeta. rewrite Hx. reflexivity.
  - intros NE NP. unfold mc_main, mc_handle. rewrite SL, NN, R.
    rewrite (proj2 (String.eqb_neq command "poisson") NP), (proj2 (String.eqb_neq command "ecdf") NE). reflexivity.
Qed.

Lemma mc_unknown fuel uninit now fs prog command f nsim num contents (b B : list T) :
  nul_free nsim -> integer_text nsim num -> 0 <= num <= 2 ^ 63 - 1 -> fs f = Some contents -> file_holds contents b B ->
  command <> "ecdf" -> command <> "poisson" ->
  mc_main E fuel uninit now fs [prog; command; f; nsim] =
    Ok ([Usage; Text "runtime_error exception caught:"; Text "Second command line argument must be 'ecdf' or 'poisson'"], 2).
Proof. intros HN HI Hn HF HH. apply (mc_run fuel uninit now fs prog command f nsim num contents b B HN HI Hn HF HH). Qed.

Lemma mc_bad_count fuel uninit now fs prog command f nsim :
  nul_free nsim -> (forall num, integer_text nsim num -> ~ 0 <= num <= 2 ^ 63 - 1) ->
  exists us w, (us = [] \/ us = [Usage]) /\
  mc_main E fuel uninit now fs [prog; command; f; nsim] = Ok ((us ++ [Text "runtime_error exception caught:"; Text w])%list, 2).
Proof.
  intros HN HB. unfold mc_main, mc_handle.
  destruct (string_to_long_total nsim) as [(v & SL)|(w & SL)].
  - rewrite SL. apply (proj1 (string_to_long_exact nsim v HN)) in SL as (HI & HR). specialize (HB v HI).
    assert (v <? 0 = true) as -> by (apply Z.ltb_lt; lia). exists [Usage]. eexists. split; [auto|]. reflexivity.
  - rewrite SL. exists []. eexists. split; [auto|]. reflexivity.
Qed.

Lemma mc_bad_file fuel uninit now fs prog command f nsim num :
  nul_free nsim -> integer_text nsim num -> 0 <= num <= 2 ^ 63 - 1 ->
  (forall contents b B, fs f = Some contents -> ~ file_holds (N := N) contents b B) ->
  mc_main E fuel uninit now fs [prog; command; f; nsim] = Ok ([Text "ifstream::failure exception caught:"], 1) \/
  exists w, mc_main E fuel uninit now fs [prog; command; f; nsim] = Ok ([Text "runtime_error exception caught:"; Text w], 2).
Proof.
  intros HN HI Hnum HB.
  assert (SL : string_to_long nsim = Ok num) by (apply string_to_long_exact; [exact HN|split; [exact HI|lia]]).
  assert (NN : (num <? 0) = false) by (apply Z.ltb_ge; lia).
  unfold mc_main, mc_handle. rewrite SL, NN.
  destruct (read_total (N := N) fs f) as [(b & B & R)|[R|(w & R)]]; rewrite R.
  - exfalso. destruct (holds_read fs f b B R) as (contents & F & H). exact (HB contents b B F H).
  - left. reflexivity.
  - right. exists w. reflexivity.
Qed.
End Program.

Section ProgramExact.
Context {frexp : xr -> Z} (E : env (Xnum frexp)).
Notation XN := (Xnum frexp).
Local Open Scope string_scope.
Local Open Scope Z_scope.

Lemma mc_ecdf_prints uninit now fs prog f nsim num contents (b B : list (car XN)) :
  nul_free nsim -> integer_text nsim num -> 1 <= num <= INT_MAX -> fs f = Some contents -> file_holds contents b B ->
  (b <> [] \/ B <> []) -> (b = [] \/ size B <= size b) ->
  let n := Z.max (size b) (size B) in
  exists cs, Z.of_nat (List.length cs) = num /\
    simulations (does_random_ecdf_cross (N := XN) b B (Z.to_nat n)) (rng_make uninit (now + n * 2 ^ 20)) cs /\
    forall fuel, (Z.to_nat num <= fuel)%nat ->
      mc_main E fuel uninit now fs [prog; "ecdf"; f; nsim] =
        Ok ([Text (show_double E (Fin (1 - IZR (crossings cs) / IZR num)%R))], 0).
Proof.
  intros HN HI Hnum HF HH NE Hb n.
  assert (Hn : 1 <= n).
  { unfold n, size. destruct b, B; cbn [List.length]; try lia. destruct NE; congruence. }
  destruct (ecdf_estimate (N := XN) uninit now n b B num) as (cs & L & S & V); try (unfold n; lia).
  { destruct Hb as [->|Hb]; [left; reflexivity|right; unfold n; lia]. }
  exists cs. split; [exact L|]. split; [exact S|]. intros fuel Hf.
  destruct (mc_run E fuel uninit now fs prog "ecdf" f nsim num contents b B HN HI) as (R & _); auto; [unfold INT_MAX in Hnum; lia|].
  specialize (R eq_refl _ (V fuel Hf)). rewrite R.
  rewrite (proj1 (frequency_exact (crossings cs) num ltac:(pose proof (crossings_range cs); lia) ltac:(lia))). reflexivity.
Qed.
Lemma mc_poisson_prints uninit now fs prog f nsim num contents (b B : list (car XN)) :
  nul_free nsim -> integer_text nsim num -> 1 <= num <= INT_MAX -> fs f = Some contents -> file_holds contents b B ->
  (b = [] \/ size B <= size b) ->
  let n := Z.max (size b) (size B) in
  n <= 2147 ->
  exists cs, Z.of_nat (List.length cs) = num /\
    simulations (does_random_poisson_process_cross (N := XN) b B (@n_div XN n1 (n_of_Z n))) (rng_make uninit (now + n * 1000000)) cs /\
    forall fuel, (Z.to_nat num <= fuel)%nat ->
      mc_main E fuel uninit now fs [prog; "poisson"; f; nsim] =
        Ok ([Text (show_double E (Fin (1 - IZR (crossings cs) / IZR num)%R))], 0).
Proof.
  intros HN HI Hnum HF HH Hb n Hn.
  assert (H0 : 0 <= n) by (unfold n, size; lia).
  destruct (poisson_estimate (N := XN) uninit now (n_of_Z n) b B num (n * 1000000) Hb (seed_exact n ltac:(lia))) as (cs & L & S & V); [lia|].
  exists cs. split; [exact L|]. split; [exact S|]. intros fuel Hf.
  destruct (mc_run E fuel uninit now fs prog "poisson" f nsim num contents b B HN HI) as (_ & R & _); auto; [unfold INT_MAX in Hnum; lia|].
  specialize (R eq_refl _ (V fuel Hf)). rewrite R.
  rewrite (proj1 (frequency_exact (crossings cs) num ltac:(pose proof (crossings_range cs); lia) ltac:(lia))). reflexivity.
Qed.
(** A first line shorter than the second, but not empty: certain crossing. *)
Lemma mc_short_first_line fuel uninit now fs prog command f nsim num contents (b B : list (car XN)) :
  nul_free nsim -> integer_text nsim num -> 0 <= num <= 2 ^ 63 - 1 -> fs f = Some contents -> file_holds contents b B ->
  b <> [] -> size b < size B -> (command = "ecdf" \/ command = "poisson") ->
  mc_main E fuel uninit now fs [prog; command; f; nsim] = Ok ([Text (show_double E (Fin 0))], 0).
Proof.
  intros HN HI Hnum HF HH NE HL HC.
  destruct (mc_run E fuel uninit now fs prog command f nsim num contents b B HN HI Hnum HF HH) as (Re & Rp & _).
  replace (Fin 0) with (@n_sub XN n1 n1) by (unfold n1; cbn [n_of_Z n_sub Xnum xsub]; f_equal; ring).
  destruct HC as [-> | ->]; [apply Re|apply Rp]; auto.
  - apply ecdf_trivial. right. split; [exact NE|lia].
  - apply poisson_trivial; assumption.
Qed.
End ProgramExact.
Lemma case_integer : nul_free "1000" /\ integer_text "1000" 1000%Z.
Proof.
  assert (N0 : nul_free "1000") by (unfold nul_free, without; repeat constructor; discriminate).
  split; [exact N0|]. apply (string_to_long_exact "1000" 1000 N0). reflexivity.
Qed.
Lemma case_seed {frexp} : seed_converts (N := Xnum frexp) (n_of_Z 5) 5000000 /\ seed_converts (N := Xnum frexp) (n_of_Z 2) 2000000 /\
  (@size (car (Xnum frexp)) (map Fin case_b) = 2)%Z.
Proof. split; [apply (seed_exact 5); lia|]. split; [apply (seed_exact 2); lia|reflexivity]. Qed.
Lemma case_endless {frexp} uninit now :
  (forall fuel k, ecdf_crossing_probability_montecarlo (N := Xnum frexp) fuel uninit now 2 (map Fin case_b) (map Fin ones2) (2 ^ 31) <> Ok k) /\
  (forall fuel, poisson_process_crossing_probability_montecarlo (N := Xnum frexp) fuel uninit now (n_of_Z 2) (map Fin case_b) (map Fin ones2) (2 ^ 31) = Hang).
Proof.
  split; intros.
  - apply (ecdf_never_ends (N := Xnum frexp)); [unfold size; simpl; lia|right; unfold size; simpl; lia|unfold INT_MAX; lia].
  - apply (poisson_hangs (N := Xnum frexp) _ _ _ _ _ _ _ 2000000); [right; unfold size; simpl; lia|apply (seed_exact 2); lia|unfold INT_MAX; lia].
Qed.
