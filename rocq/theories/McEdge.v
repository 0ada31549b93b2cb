(** * McEdge: crossprob_mc at the edges: a uniform that is 0, no simulations,
      two empty lines. *)
From Coquelicot Require Import Coquelicot.
From Flocq Require Import Core.Raux.
From Coq Require Import ZArith Reals Lia Lra List Bool String Sorted.
From Verif Require Import Base Num XReal Hoare TinyMT MonteCarlo StringUtils Spec StringSpec CliSpec CliFacts LineFacts.
From Verif Require Import McSpec McFacts McLoop TinyMTFacts ExactEnv Cases TextMore McMore.
Import List. Import ListNotations.
Local Open Scope R_scope.

Section X.
Context {frexp : xr -> Z}.
Notation XN := (Xnum frexp).

(** ** A uniform that is 0 *)
Lemma exponential_zero r r' : tinymt64_generate_double01 (N := XN) r = (Fin 0, r') ->
  generate_exponential (N := XN) (Fin 1) r = (PInf, r').
Proof.
  intros H. unfold generate_exponential, generate_uniform01. rewrite H. cbn [n_mul n_neg n_log Xnum].
  unfold xlog. rewrite Rcompare_Eq by reflexivity. cbn [xneg]. unfold xmul, xinf_mul. cbn [xsign].
  rewrite Rcompare_Lt by lra. reflexivity.
Qed.
Lemma exponential_add_inf u r r' : 0 <= u < 1 -> tinymt64_generate_double01 (N := XN) r = (Fin u, r') ->
  exists e, generate_exponential (N := XN) (Fin 1) r = (e, r') /\ xadd PInf e = PInf.
Proof.
  intros Hu H. destruct (Req_dec u 0) as [->|NE].
  - exists PInf. split; [apply exponential_zero; exact H|reflexivity].
  - eexists. split; [apply (exponential_exact 1 u r r'); [lra|exact H]|reflexivity].
Qed.

Lemma sums_inf us : Forall (fun u => 0 <= u < 1) us -> forall r r', draws (N := XN) r (map Fin us) r' ->
  partial_sums (N := XN) (List.length us) PInf r = (repeat PInf (List.length us), PInf, r').
Proof.
  induction us as [|u us IH]; intros F r r' D.
  - inversion D; subst. reflexivity.
  - inversion F as [|? ? Hu F']; subst. inversion D as [|? ? r1 ? ? G D']; subst.
    destruct (exponential_add_inf u r r1 Hu G) as (e & X & A).
    cbn [List.length partial_sums repeat]. change (@n1 XN) with (Fin 1). rewrite X. cbn [n_add Xnum]. rewrite A.
    rewrite (IH F' r1 r' D'). reflexivity.
Qed.

Lemma sums_until k : forall us, Forall (fun u => 0 < u < 1) us -> forall a r r1, draws (N := XN) r (map Fin us) r1 ->
  exists xs s, partial_sums (N := XN) (List.length us + k) (Fin a) r =
    (let '(l, last, r2) := partial_sums (N := XN) k (Fin s) r1 in (map Fin xs ++ l, last, r2)) /\
    List.length xs = List.length us.
Proof.
  induction us as [|u us IH]; intros F a r r1 D.
  - inversion D; subst. exists [], a. split; [|reflexivity]. cbn [List.length Nat.add map app].
    destruct (partial_sums (N := XN) k (Fin a) r1) as ((l, last), r2). reflexivity.
  - inversion F as [|? ? Hu F']; subst. inversion D as [|? ? r2 ? ? G D']; subst.
    pose proof (exponential_exact 1 u r r2 (proj1 Hu) G) as X.
    destruct (IH F' (a + 1 * - ln u) r2 r1 D') as (xs & s & E & L).
    exists (a + 1 * - ln u :: xs), s. cbn [List.length Nat.add partial_sums]. change (@n1 XN) with (Fin 1). rewrite X.
    cbn [n_add Xnum xadd]. rewrite E. destruct (partial_sums (N := XN) k (Fin s) r1) as ((l, last), r3).
    split; [reflexivity|]. simpl. lia.
Qed.

Lemma sample_with_zero us vs r r1 : Forall (fun u => 0 < u < 1) us -> Forall (fun u => 0 <= u < 1) vs ->
  draws (N := XN) r (map Fin (us ++ 0 :: vs)) r1 ->
  random_ecdf (N := XN) (List.length us + List.length vs) r =
    (repeat (Fin 0) (List.length us) ++ repeat NaN (List.length vs), r1).
Proof.
  intros Fu Fv D. rewrite map_app in D.
  destruct (draws_split (N := XN) (map Fin us) r (map Fin (0 :: vs)) r1 D) as (r2 & D1 & D2).
  unfold random_ecdf. change (@n0 XN) with (Fin 0).
  destruct (sums_until (List.length vs) us Fu 0 r r2 D1) as (xs & s & E & L). rewrite E.
  assert (M : map (fun x => @n_div XN x PInf) (map Fin xs) = repeat (Fin 0) (List.length us)).
  { rewrite <- L. clear. induction xs as [|x xs IH]; [reflexivity|]. cbn [map List.length repeat]. rewrite IH. reflexivity. }
  inversion D2 as [|? ? r3 ? ? G D3]; subst.
  destruct vs as [|v vs].
  - inversion D3; subst. cbn [List.length partial_sums repeat]. change (@n1 XN) with (Fin 1).
    rewrite (exponential_zero r2 r1 G). cbn [n_add Xnum xadd]. rewrite !app_nil_r. apply (f_equal2 pair); [exact M|reflexivity].
  - cbn [List.length partial_sums]. change (@n1 XN) with (Fin 1). rewrite (exponential_zero r2 r3 G). cbn [n_add Xnum xadd].
    inversion Fv as [|? ? Hv Fv']; subst.
    destruct (exists_last (l := v :: vs)) as (ws & w & Ew); [discriminate|].
    assert (Lw : List.length vs = List.length ws).
    { apply (f_equal (@List.length R)) in Ew. rewrite app_length in Ew. simpl in Ew. lia. }
    rewrite Ew in Fv, D3. apply Forall_app in Fv as (Fw & F1). inversion F1 as [|? ? Hw _]; subst.
    rewrite map_app in D3. destruct (draws_split (N := XN) (map Fin ws) r3 (map Fin [w]) r1 D3) as (r4 & D4 & D5).
    rewrite Lw, (sums_inf ws Fw r3 r4 D4).
    inversion D5 as [|? ? r5 ? ? G5 D6]; subst. inversion D6; subst.
    destruct (exponential_add_inf w r4 r1 Hw G5) as (e & X & A). rewrite X. cbn [n_add Xnum]. rewrite A.
    rewrite map_app. apply (f_equal2 pair); [|reflexivity]. apply (f_equal2 (@List.app xr)); [exact M|].
    cbn [map repeat]. apply (f_equal (cons NaN)).
    clear. induction ws; [reflexivity|]. cbn [List.length repeat map]. rewrite IHws. reflexivity.
Qed.

(** When the first uniform is 0 the sample is all NaN and crosses nothing. *)
Lemma any_false test : forall k i, (forall j, (i <= j < i + Z.of_nat k)%Z -> test j = Ok false) -> any_index k i test = Ok false.
Proof.
  induction k as [|k IH]; intros i H; [reflexivity|]. cbn [any_index]. rewrite H by lia. cbn [bind]. apply IH. intros; apply H; lia.
Qed.
Lemma rd_repeat (n : nat) i : (0 <= i < Z.of_nat n)%Z -> @rd (car XN) (repeat NaN n) i = Ok NaN.
Proof.
  intros H. rewrite (rd_get NaN) by (unfold size; rewrite repeat_length; lia). unfold get. f_equal. apply nth_repeat.
Qed.
Lemma rd_some (l : list (car XN)) i : (0 <= i < Z.of_nat (List.length l))%Z -> exists v, rd l i = Ok v.
Proof. intros H. eexists. apply (rd_get (@n0 XN) l i). exact H. Qed.
Lemma nan_sample_inside (b B : list (car XN)) n : (List.length B <= n)%nat -> (b = [] \/ (n <= List.length b)%nat) ->
  does_integer_step_function_cross (N := XN) (repeat NaN n) (Z.of_nat n) b B = Ok false.
Proof.
  intros HB Hb. unfold does_integer_step_function_cross.
  assert (L : does_integer_step_function_cross_lower_boundary (N := XN) (repeat NaN n) (Z.of_nat n) B = Ok false).
  { unfold does_integer_step_function_cross_lower_boundary. unfold size.
    destruct (Z.ltb_spec (Z.of_nat n) (Z.of_nat (List.length B))); [lia|].
    apply any_false. intros j Hj. rewrite rd_repeat by lia. cbn [bind].
    destruct (rd_some B j) as (v & ->); [lia|]. destruct v; reflexivity. }
  rewrite L. destruct Hb as [->|Hb]; [reflexivity|]. unfold size.
  destruct (Z.eqb_spec (Z.of_nat (List.length b)) 0); [reflexivity|].
  destruct (Z.ltb_spec (Z.of_nat n) (Z.of_nat (List.length B))); [lia|].
  destruct (Z.ltb_spec (Z.of_nat (List.length b)) (Z.of_nat n)); [lia|]. cbn [orb bind].
  unfold does_integer_step_function_cross_upper_boundary. unfold size.
  destruct (Z.ltb_spec (Z.of_nat (List.length b)) (Z.of_nat n)); [lia|].
  apply any_false. intros j Hj. rewrite rd_repeat by lia. cbn [bind].
  destruct (rd_some b j) as (v & ->); [lia|]. reflexivity.
Qed.
Lemma zero_first_never_crosses vs r r1 (b B : list (car XN)) : vs <> [] -> Forall (fun u => 0 <= u < 1) vs ->
  draws (N := XN) r (map Fin (0 :: vs)) r1 ->
  (List.length B <= List.length vs)%nat -> (b = [] \/ (List.length vs <= List.length b)%nat) ->
  does_random_ecdf_cross (N := XN) b B (List.length vs) r = Ok (false, r1).
Proof.
  intros NE F D HB Hb. pose proof (sample_with_zero [] vs r r1 (Forall_nil _) F D) as S. cbn [List.length Nat.add repeat app] in S.
  unfold does_random_ecdf_cross. rewrite S. unfold addr, size. rewrite repeat_length.
  destruct (Z.leb_spec (Z.of_nat (List.length vs)) 0); [destruct vs; [congruence|simpl in *; lia]|].
  change (0 <? 0)%Z with false. cbn [orb bind]. rewrite nan_sample_inside by assumption. reflexivity.
Qed.

(** A generator state (of the published parameters) whose next uniform is 0. *)
Definition zero_state : tinymt := mkTinymt 0x303a182a80f6372e 0xcd613e3022f4759f 0xfa051f40 0xffd0fff4 0x58d02ffeffbfffbc.
Lemma zero_state_ok : state_ok zero_state.
Proof. repeat split; vm_compute; congruence. Qed.
Lemma zero_state_draws : exists u r1, 0 < u < 1 /\ draws (N := XN) zero_state (map Fin [0; u]) r1.
Proof.
  pose proof zero_state_ok as H0. pose proof (next_ok _ H0) as H1.
  exists (IZR (first_draw (tinymt64_next_state zero_state)) / IZR (2 ^ 52)), (tinymt64_next_state (tinymt64_next_state zero_state)).
  split.
  - split.
    + apply Rdiv_lt_0_compat; apply IZR_lt; vm_compute; reflexivity.
    + apply (unit_fraction (first_draw (tinymt64_next_state zero_state))). apply word_shiftr; try lia. apply temper_word, next_ok; exact H1.
  - cbn [map]. econstructor; [|econstructor; [apply draw_value; exact H1|constructor]].
    rewrite (draw_value zero_state H0). replace (Z.shiftr (tinymt64_temper (tinymt64_next_state zero_state)) 12) with 0%Z by (vm_compute; reflexivity).
    unfold Rdiv. rewrite Rmult_0_l. reflexivity.
Qed.

(** ** No simulations, two empty lines *)
Variable E : env XN.
Local Open Scope string_scope.
Local Open Scope Z_scope.

Lemma no_simulations_nan fuel uninit now fs prog command f nsim contents (b B : list (car XN)) :
  nul_free nsim -> integer_text nsim 0 -> fs f = Some contents -> file_holds contents b B ->
  (b = [] \/ size B <= size b) ->
  command = "ecdf" \/ (command = "poisson" /\ Z.max (size b) (size B) <= 2147) ->
  mc_main E fuel uninit now fs [prog; command; f; nsim] = Ok ([Text (show_double E NaN)], 0).
Proof.
  intros HN HI HF HH Hb HC.
  destruct (mc_run E fuel uninit now fs prog command f nsim 0 contents b B HN HI ltac:(lia) HF HH) as (Re & Rp & _).
  change (@show_double XN E NaN) with (@show_double XN E (@n_sub XN n1 NaN)).
  destruct HC as [-> | (-> & Hn)].
  - apply Re; [reflexivity|]. unfold ecdf_crossing_probability_montecarlo.
    destruct (Z.ltb_spec (Z.max (size b) (size B)) (size B)); [lia|].
    assert ((0 <? size b) && (size b <? Z.max (size b) (size B)) = false) as ->.
    { destruct Hb as [->|Hb]; [reflexivity|]. destruct (Z.ltb_spec (size b) (Z.max (size b) (size B))); [lia|apply andb_false_r]. }
    assert (L : forall bump sim r, mc_loop fuel bump sim 0 0 0 r = Ok 0) by (destruct fuel; reflexivity).
    rewrite L. cbn [bind]. f_equal. apply frequency_zero.
  - apply Rp; [reflexivity|]. unfold poisson_process_crossing_probability_montecarlo.
    assert ((0 <? size b) && (size b <? size B) = false) as ->.
    { destruct Hb as [->|Hb]; [reflexivity|]. destruct (Z.ltb_spec (size b) (size B)); [lia|apply andb_false_r]. }
    assert (H0 : 0 <= Z.max (size b) (size B)) by (unfold size; lia).
    pose proof (seed_exact (frexp := frexp) (Z.max (size b) (size B)) ltac:(lia)) as S. unfold seed_converts in S.
    destruct S as (S1 & S2). rewrite S1.
    assert ((INT_MIN <=? Z.max (size b) (size B) * 1000000) && (Z.max (size b) (size B) * 1000000 <=? INT_MAX) = true) as -> by (unfold INT_MIN, INT_MAX in *; lia).
    cbn [bind].
    assert (L : forall bump sim r, mc_loop fuel bump sim 0 0 0 r = Ok 0) by (destruct fuel; reflexivity).
    rewrite L. cbn [bind]. f_equal. apply frequency_zero.
Qed.

Lemma both_empty_undefined fuel uninit now fs prog f nsim num contents :
  nul_free nsim -> integer_text nsim num -> 1 <= num <= 2 ^ 63 - 1 -> fs f = Some contents -> file_holds (N := XN) contents [] [] ->
  (1 <= fuel)%nat ->
  mc_main E fuel uninit now fs [prog; "ecdf"; f; nsim] = Undef "address of an element outside a vector".
Proof.
  intros HN HI Hnum HF HH Hf.
  assert (SL : string_to_long nsim = Ok num) by (apply string_to_long_exact; [exact HN|split; [exact HI|lia]]).
  pose proof (read_file_holds fs f contents [] [] HF HH) as R.
  assert (NN : (num <? 0) = false) by (apply Z.ltb_ge; lia).
  unfold mc_main, mc_handle. rewrite SL, NN, R.
  change ("ecdf" =? "poisson")%string with false. change ("ecdf" =? "ecdf")%string with true. cbv beta iota zeta.
  change (Z.max (@size (car XN) []) (@size (car XN) [])) with 0.
  unfold ecdf_crossing_probability_montecarlo. change (0 <? @size (car XN) []) with false. cbn [andb].
  destruct fuel as [|fuel]; [lia|]. cbn [mc_loop]. destruct (Z.ltb_spec 0 num); [|lia].
  unfold does_random_ecdf_cross at 1. unfold random_ecdf. cbn [Z.to_nat partial_sums].
  destruct (generate_exponential (N := XN) n1 (rng_make uninit (now + 0 * 2 ^ 20))) as (e, r'). reflexivity.
Qed.
End X.

Lemma nan_sample frexp : exists r r1, state_ok r /\ masked r <> (0, 0)%Z /\
  random_ecdf (N := Xnum frexp) 1 r = ([NaN], r1) /\
  forall b B, does_random_ecdf_cross (N := Xnum frexp) [b] [B] 1 r = Ok (false, r1).
Proof.
  destruct (zero_state_draws (frexp := frexp)) as (u & r1 & Hu & D). exists zero_state, r1.
  split; [exact zero_state_ok|]. split; [vm_compute; discriminate|].
  assert (F : Forall (fun u => 0 <= u < 1) [u]) by (constructor; [lra|constructor]).
  split.
  - exact (sample_with_zero (frexp := frexp) [] [u] zero_state r1 (Forall_nil _) F D).
  - intros b B. apply (zero_first_never_crosses (frexp := frexp) [u] zero_state r1 [b] [B]); [discriminate|exact F|exact D|simpl; lia|right; simpl; lia].
Qed.

Lemma case_zero : nul_free "0" /\ integer_text "0" 0%Z /\ case_fs "bounds.txt" = Some case_text /\
  file_holds (N := Xnum some_frexp) case_text (map Fin case_b) (map Fin ones2).
Proof.
  assert (N0 : nul_free "0") by (unfold nul_free, without; repeat constructor; discriminate).
  split; [exact N0|]. split; [|exact case_holds]. apply (string_to_long_exact "0" 0 N0). reflexivity.
Qed.
Definition two_empty_lines : string := String newline (String newline "").
Lemma case_two_empty_lines : file_holds (N := Xnum some_frexp) two_empty_lines [] [].
Proof.
  assert (R : read_and_check_boundaries_file (N := Xnum some_frexp) (fun _ => Some two_empty_lines) "f" = Ok ([], [])) by reflexivity.
  destruct (holds_read _ _ _ _ R) as (c & F & H). assert (c = two_empty_lines) as -> by congruence. exact H.
Qed.
