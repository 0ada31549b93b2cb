(** * CostMc: the amount of work the simulations of crossprob_mc do, counted as in Cost.v. *)
From Coq Require Import ZArith List Bool String Lia.
From Verif Require Import Base Num Hoare TinyMT StringUtils MonteCarlo McLoop Cost CostFacts.
Import List. Import ListNotations.
Local Open Scope string_scope.
Local Open Scope Z_scope.
Local Open Scope cpp_scope.

Section CostMc.
Context {N : num}.
Notation T := (car N).

(** src/crossprob_mc.cc:26-29 and src/tinymt64.h:94-107, 133-148, 200-203: 27 operations on integers, 18 accesses to the state,
    a subtraction, a negation, log, a multiplication and the call. *)
Definition c_exponential (beta : T) (r : tinymt) : costed (T * tinymt) := op 50 (Ok (generate_exponential beta r)).

(** src/crossprob_mc.cc:52-56 and 66-70: a loop that returns at the first crossing. *)
Fixpoint c_any (k : nat) (i : Z) (test : Z -> costed bool) : costed bool :=
  match k with
  | O => op 1 (Ok false)
  | S k' => t <== test i ;; cif t (op 1 (Ok true)) (run op 1 (Ok tt) ;; c_any k' (i + 1) test)
  end.
(** src/crossprob_mc.cc:47-59. *)
Definition c_lower (st : list T) (num_steps : Z) (B : list T) : costed bool :=
  cif (num_steps <? size B) (op 1 (Ok true))
    (c_any (List.length B) 0 (fun i => s <== op 1 (rd st i) ;; Bi <== op 1 (rd B i) ;; op 1 (Ok (n_lt Bi s)))).
(** src/crossprob_mc.cc:61-73. *)
Definition c_upper (st : list T) (num_steps : Z) (b : list T) : costed bool :=
  cif (size b <? num_steps) (op 1 (Ok true))
    (c_any (Z.to_nat num_steps) 0 (fun i => s <== op 1 (rd st i) ;; bi <== op 1 (rd b i) ;; op 1 (Ok (n_lt s bi)))).
(** src/crossprob_mc.cc:75-86. *)
Definition c_cross (st : list T) (num_steps : Z) (b B : list T) : costed bool :=
  cif (size b =? 0) (c_lower st num_steps B)
    (run op 1 (Ok tt) ;;
     cif ((num_steps <? size B) || (size b <? num_steps)) (op 1 (Ok true))
       (c <== c_lower st num_steps B ;; cif c (op 1 (Ok true)) (c_upper st num_steps b))).

(** src/crossprob_mc.cc:90-94. *)
Fixpoint c_sums (k : nat) (last_x : T) (r : tinymt) : costed (list T * T * tinymt) :=
  match k with
  | O => op 1 (Ok ([], last_x, r))
  | S k' =>
      er <== c_exponential n1 r ;;
      x <== op 3 (Ok (n_add last_x (fst er))) ;;
      lr <== c_sums k' x (snd er) ;;
      op 0 (Ok (x :: fst (fst lr), snd (fst lr), snd lr))
  end.
(** src/crossprob_mc.cc:88-100: the second loop has an access, a division and a store. *)
Definition c_ecdf_cross (b B : list T) (n : nat) (r : tinymt) : costed (bool * tinymt) :=
  s <== c_sums n n0 r ;;
  er <== c_exponential n1 (snd s) ;;
  nf <== op 1 (Ok (n_add (snd (fst s)) (fst er))) ;;
  l <== op (1 + 4 * Z.of_nat n) (Ok (map (fun x => n_div x nf) (fst (fst s)))) ;;
  run op 1 (addr l 0) ;;
  c <== c_cross l (size l) b B ;;
  op 1 (Ok (c, snd er)).

(** The loops of lines 115-117 and 152-154. *)
Fixpoint c_mc_loop (fuel : nat) (bump : Z -> bool -> outcome Z) (sim : tinymt -> costed (bool * tinymt))
  (num_simulations : Z) (reps count : Z) (r : tinymt) : costed Z :=
  cif (reps <? num_simulations)
    match fuel with
    | O => op 0 Hang
    | S fuel =>
        cr <== sim r ;;
        count <== op 3 (bump count (fst cr)) ;;
        c_mc_loop fuel bump sim num_simulations (wrap32 (reps + 1)) count (snd cr)
    end
    (op 0 (Ok count)).

(** src/crossprob_mc.cc:102-120; tinymt64_init has seven rounds of eleven operations, the vector n elements. *)
Definition c_ecdf_mc (fuel : nat) (uninit : tinymt) (now : Z) (n : Z) (b B : list T) (num_simulations : Z) : costed T :=
  cif (n <? size B) (op 1 (Ok n1))
    (run op 1 (Ok tt) ;;
     cif ((0 <? size b) && (size b <? n)) (op 1 (Ok n1))
       (r <== op (100 + n) (Ok (rng_make uninit (now + n * 2 ^ 20))) ;;
        c <== c_mc_loop fuel add_double (c_ecdf_cross b B (Z.to_nat n)) num_simulations 0 0 r ;;
        op 3 (Ok (n_div (n_of_Z c) (n_of_Z num_simulations))))).

(** src/crossprob_mc.cc:122-140. *)
Fixpoint c_walk (k : nat) (beta : T) (st : list T) (last_x : T) (b B : list T) (r : tinymt) : costed (bool * tinymt) :=
  er <== c_exponential beta r ;;
  x <== op 1 (Ok (n_add last_x (fst er))) ;;
  cif (n_lt n1 x)
    (c <== c_cross (rev st) (size st) b B ;; op 1 (Ok (c, snd er)))
    (run op 1 (Ok tt) ;;
     match k with
     | O => op 1 (Ok (true, snd er))
     | S k' => run op 3 (Ok tt) ;; c_walk k' beta (x :: st) x b B (snd er)
     end).
Definition c_poisson_cross (b B : list T) (beta : T) (r : tinymt) : costed (bool * tinymt) :=
  run op 4 (Ok tt) ;; c_walk (List.length b) beta [] n0 b B r.
(** src/crossprob_mc.cc:142-157. *)
Definition c_poisson_mc (fuel : nat) (uninit : tinymt) (now : Z) (intensity : T) (b B : list T) (num_simulations : Z) : costed T :=
  cif ((0 <? size b) && (size b <? size B)) (op 1 (Ok n1))
    (k <== op 3 (match n_trunc (n_mul intensity (n_of_Z 1000000)) with
         | Some k => if (INT_MIN <=? k) && (k <=? INT_MAX) then Ok k
                     else Undef "conversion of intensity*1000000 to int out of range"
         | None => Undef "conversion of intensity*1000000 to int out of range"
         end) ;;
     r <== op (100 + size b) (Ok (rng_make uninit (now + k))) ;;
     beta <== op 1 (Ok (n_div n1 intensity)) ;;
     c <== c_mc_loop fuel add_int (c_poisson_cross b B beta) num_simulations 0 0 r ;;
     op 3 (Ok (n_div (n_of_Z c) (n_of_Z num_simulations)))).

(** ** What is counted is what the model computes *)
Lemma any_same (f : Z -> costed bool) (g : Z -> outcome bool) : (forall i, snd (f i) = g i) -> forall k i, snd (c_any k i f) = any_index k i g.
Proof.
  intros H. induction k as [|k IH]; intros i; cbn [c_any any_index cbind cif op fst snd]; [reflexivity|].
  rewrite H. destruct (g i) as [[|]| | | |]; cbn [bind]; try reflexivity. apply IH.
Qed.
Lemma lower_same st m B : snd (c_lower st m B) = does_integer_step_function_cross_lower_boundary st m B.
Proof.
  unfold c_lower, does_integer_step_function_cross_lower_boundary, cif. cbn [snd fst]. destruct (m <? size B); [reflexivity|].
  apply any_same. reflexivity.
Qed.
Lemma upper_same st m b : snd (c_upper st m b) = does_integer_step_function_cross_upper_boundary st m b.
Proof.
  unfold c_upper, does_integer_step_function_cross_upper_boundary, cif. cbn [snd fst]. destruct (size b <? m); [reflexivity|].
  apply any_same. reflexivity.
Qed.
Lemma cross_same st m b B : snd (c_cross st m b B) = does_integer_step_function_cross st m b B.
Proof.
  unfold c_cross, does_integer_step_function_cross. cbn [cif cbind snd fst op bind]. rewrite lower_same.
  destruct (size b =? 0); [reflexivity|]. destruct (_ || _); [reflexivity|]. cbn [snd op].
  destruct (does_integer_step_function_cross_lower_boundary st m B) as [[|]| | | |]; cbn [bind]; try reflexivity. apply upper_same.
Qed.
Lemma sums_same k : forall x r, snd (c_sums k x r) = Ok (partial_sums k x r).
Proof.
  induction k as [|k IH]; intros x r; [reflexivity|]. cbn [c_sums c_exponential cbind op snd fst bind].
  rewrite IH. cbn [bind partial_sums]. destruct (generate_exponential n1 r) as [e r1]. cbn [fst snd].
  destruct (partial_sums k (n_add x e) r1) as [[l la] r2]. reflexivity.
Qed.
Lemma ecdf_cross_same b B n r : snd (c_ecdf_cross b B n r) = does_random_ecdf_cross b B n r.
Proof.
  unfold c_ecdf_cross, does_random_ecdf_cross, random_ecdf. cbn [cbind op snd fst c_exponential]. rewrite sums_same. cbn [bind].
  destruct (partial_sums n n0 r) as [[l la] r2]. cbn [fst snd]. destruct (generate_exponential n1 r2) as [e r3]. cbn [fst snd].
  destruct (addr _ 0); cbn [bind]; try reflexivity. rewrite cross_same. reflexivity.
Qed.
Lemma mc_loop_same bump f g ns : (forall r, snd (f r) = g r) -> forall fuel reps count r,
  snd (c_mc_loop fuel bump f ns reps count r) = mc_loop fuel bump g ns reps count r.
Proof.
  intros H. induction fuel as [|fuel IH]; intros reps count r; cbn [c_mc_loop mc_loop cif cbind op snd fst]; [reflexivity|].
  destruct (reps <? ns); [|reflexivity]. rewrite H. destruct (g r) as [[c r1]| | | |]; cbn [bind fst snd]; try reflexivity.
  destruct (bump count c); cbn [bind]; try reflexivity. apply IH.
Qed.
Lemma ecdf_mc_same fuel uninit now n b B ns :
  snd (c_ecdf_mc fuel uninit now n b B ns) = ecdf_crossing_probability_montecarlo fuel uninit now n b B ns.
Proof.
  unfold c_ecdf_mc, ecdf_crossing_probability_montecarlo. cbn [cif cbind op snd fst bind].
  destruct (n <? size B); [reflexivity|]. destruct (_ && _); [reflexivity|]. cbn [snd op].
  rewrite (mc_loop_same _ _ _ _ (fun r => ecdf_cross_same b B (Z.to_nat n) r)). reflexivity.
Qed.
Lemma walk_same beta b B k : forall st x r, snd (c_walk k beta st x b B r) = poisson_walk k beta st x b B r.
Proof.
  induction k as [|k IH]; intros st x r; cbn [c_walk poisson_walk cif cbind op snd fst bind c_exponential];
    destruct (generate_exponential beta r) as [e r1]; cbn [fst snd]; rewrite cross_same; destruct (n_lt _ _); try reflexivity.
  apply IH.
Qed.
Lemma poisson_cross_same b B beta r : snd (c_poisson_cross b B beta r) = does_random_poisson_process_cross b B beta r.
Proof. unfold c_poisson_cross, cbind, op. cbn [snd bind]. apply walk_same. Qed.
Lemma poisson_mc_same fuel uninit now intensity b B ns :
  snd (c_poisson_mc fuel uninit now intensity b B ns) = poisson_process_crossing_probability_montecarlo fuel uninit now intensity b B ns.
Proof.
  unfold c_poisson_mc, poisson_process_crossing_probability_montecarlo. cbn [cif cbind op snd fst bind].
  destruct (_ && _); [reflexivity|]. destruct (n_trunc _) as [k|]; [|reflexivity]. destruct (_ && _); [|reflexivity]. cbn [bind].
  rewrite (mc_loop_same _ _ (does_random_poisson_process_cross b B (n_div n1 intensity)) _ (poisson_cross_same b B (n_div n1 intensity))). reflexivity.
Qed.

(** ** Upper bounds *)
Lemma any_within (test : Z -> costed bool) c : 0 <= c -> forall k i, (forall j, within (test j) c (fun _ => True)) ->
  within (c_any k i test) (1 + (c + 3) * Z.of_nat k) (fun _ => True).
Proof.
  intros Hc. induction k as [|k IH]; intros i H; cbn [c_any].
  - apply within_op; [lia|auto].
  - apply within_bind with (c1 := c) (R := fun _ => True); [apply H|lia|]. intros t _. apply within_if; intros _.
    + apply within_op; [lia|auto].
    + apply within_bind_op; [lia|]. intros _ _. eapply within_weaken; [apply IH; exact H|lia|auto].
Qed.
Lemma lower_within st m B : 0 <= m -> within (c_lower st m B) (2 + 6 * m) (fun _ => True).
Proof.
  intros Hm. unfold c_lower. apply within_if; intros H.
  - apply within_op; [lia|auto].
  - apply Z.ltb_ge in H. unfold size in H. eapply within_weaken; [apply (any_within _ 3); [lia|]|lia|auto].
    intros j. apply within_bind_op; [lia|]. intros s _. apply within_bind_op; [lia|]. intros y _. apply within_op; [lia|auto].
Qed.
Lemma upper_within st m b : 0 <= m -> within (c_upper st m b) (2 + 6 * m) (fun _ => True).
Proof.
  intros Hm. unfold c_upper. apply within_if; intros H.
  - apply within_op; [lia|auto].
  - eapply within_weaken; [apply (any_within _ 3); [lia|]|rewrite Z2Nat.id; lia|auto].
    intros j. apply within_bind_op; [lia|]. intros s _. apply within_bind_op; [lia|]. intros y _. apply within_op; [lia|auto].
Qed.
Lemma cross_within st m b B : 0 <= m -> within (c_cross st m b B) (8 + 12 * m) (fun _ => True).
Proof.
  intros Hm. unfold c_cross. apply within_if; intros _.
  - eapply within_weaken; [apply lower_within; exact Hm|lia|auto].
  - apply within_bind_op; [lia|]. intros _ _. apply within_if; intros _; [apply within_op; [lia|auto]|].
    apply within_bind with (c1 := 2 + 6 * m) (R := fun _ => True); [apply lower_within; exact Hm|lia|]. intros c _.
    apply within_if; intros _; [apply within_op; [lia|auto]|]. eapply within_weaken; [apply upper_within; exact Hm|lia|auto].
Qed.
Lemma sums_exact k : forall x r, fst (c_sums k x r) = 1 + 53 * Z.of_nat k.
Proof.
  induction k as [|k IH]; intros x r; [reflexivity|]. cbn [c_sums c_exponential cbind op snd fst bind].
  rewrite sums_same, IH. cbn [bind]. lia.
Qed.
Lemma sums_length k : forall (x : T) r, List.length (fst (fst (partial_sums k x r))) = k.
Proof.
  induction k as [|k IH]; intros x r; [reflexivity|]. cbn [partial_sums]. destruct (generate_exponential n1 r) as [e r1].
  specialize (IH (n_add x e) r1). destruct (partial_sums k (n_add x e) r1) as [[l la] r2]. cbn in *. lia.
Qed.
Lemma ecdf_cross_within b B n r : within (c_ecdf_cross b B n r) (63 + 69 * Z.of_nat n) (fun _ => True).
Proof.
  unfold c_ecdf_cross. apply within_bind with (c1 := 1 + 53 * Z.of_nat n) (R := fun s => List.length (fst (fst s)) = n); [|lia|].
  { split; [rewrite sums_exact; lia|]. intros s Hs. rewrite sums_same in Hs. injection Hs as <-. apply sums_length. }
  intros s Hs. unfold c_exponential. apply within_bind_op; [lia|]. intros er _. apply within_bind_op; [lia|]. intros nf _.
  apply within_bind_op; [lia|]. intros l Hl. injection Hl as <-. apply within_bind_op; [lia|]. intros _ _.
  assert (Hsz : size (map (fun x : T => n_div x nf) (fst (fst s))) = Z.of_nat n) by (unfold size; rewrite map_length, Hs; reflexivity).
  rewrite Hsz. apply within_bind with (c1 := 8 + 12 * Z.of_nat n) (R := fun _ => True); [apply cross_within; lia|lia|].
  intros c _. apply within_op; [lia|auto].
Qed.
Lemma mc_loop_within bump sim ns c : 0 <= c -> ns <= INT_MAX -> (forall r, within (sim r) c (fun _ => True)) ->
  forall fuel reps count r, 0 <= reps ->
  within (c_mc_loop fuel bump sim ns reps count r) (1 + (c + 4) * Z.max 0 (ns - reps)) (fun _ => True).
Proof.
  intros Hc Hns Hsim. induction fuel as [|fuel IH]; intros reps count r Hr; cbn [c_mc_loop]; apply within_if; intros H;
    (apply Z.ltb_lt in H || apply Z.ltb_ge in H); try (apply within_op; [nia|auto]).
  apply within_bind with (c1 := c) (R := fun _ => True); [apply Hsim|nia|]. intros cr _. apply within_bind_op; [nia|]. intros k _.
  assert (Hw : wrap32 (reps + 1) = reps + 1) by (apply wrap32_small; unfold INT_MAX in *; lia).
  rewrite Hw. eapply within_weaken; [apply IH; lia|nia|auto].
Qed.
Lemma ecdf_mc_within fuel uninit now n b B ns : 0 <= n -> 0 <= ns <= INT_MAX ->
  fst (c_ecdf_mc fuel uninit now n b B ns) <= 110 + n + (67 + 69 * n) * ns.
Proof.
  intros Hn Hns. enough (H : within (c_ecdf_mc fuel uninit now n b B ns) (110 + n + (67 + 69 * n) * ns) (fun _ => True)) by apply H.
  assert (0 <= (67 + 69 * n) * ns) by nia.
  unfold c_ecdf_mc. apply within_if; intros _; [apply within_op; [lia|auto]|]. apply within_bind_op; [lia|]. intros _ _.
  apply within_if; intros _; [apply within_op; [lia|auto]|]. apply within_bind_op; [lia|]. intros r _.
  apply within_bind with (c1 := 1 + (63 + 69 * n + 4) * Z.max 0 (ns - 0)) (R := fun _ => True).
  - apply mc_loop_within; [lia|lia| |lia]. intros r'. eapply within_weaken; [apply ecdf_cross_within|lia|auto].
  - nia.
  - intros c _. apply within_op; [nia|auto].
Qed.
Lemma walk_within beta b B k : forall st x r, within (c_walk k beta st x b B r) (65 + 12 * size st + 69 * Z.of_nat k) (fun _ => True).
Proof.
  induction k as [|k IH]; intros st x r; cbn [c_walk]; unfold c_exponential;
    pose proof (size_nonneg st) as Hs; (apply within_bind_op; [lia|]; intros er _; apply within_bind_op; [lia|]; intros y _; apply within_if; intros _;
    [apply within_bind with (c1 := 8 + 12 * size st) (R := fun _ => True); [apply cross_within; lia|lia|]; intros c _; apply within_op; [lia|auto]|]);
    (apply within_bind_op; [lia|]; intros _ _).
  - apply within_op; [lia|auto].
  - apply within_bind_op; [lia|]. intros _ _. eapply within_weaken; [apply IH| |auto].
    unfold size in *. cbn [List.length]. lia.
Qed.
Lemma poisson_mc_within fuel uninit now intensity b B ns : 0 <= ns <= INT_MAX ->
  fst (c_poisson_mc fuel uninit now intensity b B ns) <= 110 + size b + (73 + 69 * size b) * ns.
Proof.
  intros Hns. enough (H : within (c_poisson_mc fuel uninit now intensity b B ns) (110 + size b + (73 + 69 * size b) * ns) (fun _ => True)) by apply H.
  pose proof (size_nonneg b) as Hb. assert (0 <= (73 + 69 * size b) * ns) by nia.
  unfold c_poisson_mc. apply within_if; intros _; [apply within_op; [lia|auto]|]. apply within_bind_op; [lia|]. intros k _.
  apply within_bind_op; [lia|]. intros r _. apply within_bind_op; [lia|]. intros beta _.
  apply within_bind with (c1 := 1 + (69 + 69 * size b + 4) * Z.max 0 (ns - 0)) (R := fun _ => True).
  - apply mc_loop_within; [lia|lia| |lia]. intros r'. unfold c_poisson_cross. apply within_bind_op; [lia|]. intros _ _.
    eapply within_weaken; [apply walk_within| |auto]. unfold size. cbn [List.length]. lia.
  - nia.
  - intros c _. apply within_op; [nia|auto].
Qed.

(** ** Lower bounds: every simulation is carried out *)
Lemma any_pos (test : Z -> costed bool) : (forall j, 0 <= fst (test j)) -> forall k i, 0 <= fst (c_any k i test).
Proof.
  intros H. induction k as [|k IH]; intros i; cbn [c_any cbind cif op fst snd bind]; [lia|].
  pose proof (H i). destruct (snd (test i)) as [[|]| | | |]; try lia. pose proof (IH (i + 1)). lia.
Qed.
Lemma test_pos (o1 o2 : outcome T) (f : T -> T -> bool) : 0 <= fst (s <== op 1 o1 ;; y <== op 1 o2 ;; op 1 (Ok (f s y))).
Proof. destruct o1, o2; cbn; lia. Qed.
Lemma lower_pos st m B : 0 <= fst (c_lower st m B).
Proof.
  unfold c_lower, cif. cbn [fst]. destruct (m <? size B); [cbn; lia|].
  match goal with |- 0 <= 1 + fst (c_any ?k ?i ?t) => pose proof (any_pos t (fun j => test_pos (rd st j) (rd B j) (fun s y => n_lt y s)) k i) end. lia.
Qed.
Lemma upper_pos st m b : 0 <= fst (c_upper st m b).
Proof.
  unfold c_upper, cif. cbn [fst]. destruct (size b <? m); [cbn; lia|].
  match goal with |- 0 <= 1 + fst (c_any ?k ?i ?t) => pose proof (any_pos t (fun j => test_pos (rd st j) (rd b j) (fun s y => n_lt s y)) k i) end. lia.
Qed.
Lemma cross_pos st m b B : 0 <= fst (c_cross st m b B).
Proof.
  pose proof (lower_pos st m B). pose proof (upper_pos st m b). unfold c_cross. cbn [cif cbind op fst snd bind].
  destruct (size b =? 0); [lia|]. destruct (_ || _); [cbn; lia|]. cbn [fst]. destruct (snd (c_lower st m B)) as [[|]| | | |]; lia.
Qed.
Lemma ecdf_cross_atleast b B n r : 50 * (Z.of_nat n + 1) <= fst (c_ecdf_cross b B n r).
Proof.
  unfold c_ecdf_cross. cbn [cbind op fst snd bind c_exponential]. rewrite sums_same, sums_exact. cbn [bind fst snd].
  match goal with |- context [c_cross ?l ?m b B] => pose proof (cross_pos l m b B); destruct (addr l 0); [destruct (snd (c_cross l m b B))|..] end; lia.
Qed.
Lemma walk_atleast beta b B k : forall st x r, 50 <= fst (c_walk k beta st x b B r).
Proof.
  induction k as [|k IH]; intros st x r; cbn [c_walk]; cbn [cbind op cif fst snd bind c_exponential];
    match goal with |- context [c_cross ?l ?m b B] => pose proof (cross_pos l m b B); destruct (snd (c_cross l m b B)) end;
    destruct (n_lt _ _); try lia;
    match goal with |- context [c_walk k beta ?s ?y b B ?q] => pose proof (IH s y q); lia end.
Qed.
Lemma mc_loop_atleast bump sim ns c : 0 <= c -> ns <= INT_MAX -> (forall r, c <= fst (sim r)) ->
  forall fuel reps count r v, 0 <= reps -> snd (c_mc_loop fuel bump sim ns reps count r) = Ok v ->
  c * (ns - reps) <= fst (c_mc_loop fuel bump sim ns reps count r).
Proof.
  intros Hc Hns Hsim. induction fuel as [|fuel IH]; intros reps count r v Hr; cbn [c_mc_loop cif cbind op fst snd bind];
    destruct (reps <? ns) eqn:Hlt; (apply Z.ltb_lt in Hlt || apply Z.ltb_ge in Hlt); try discriminate; try nia.
  pose proof (Hsim r). destruct (snd (sim r)) as [cr| | | |]; cbn [bind]; try discriminate.
  destruct (bump count (fst cr)) as [k| | | |]; cbn [bind]; try discriminate. intros H1.
  assert (Hw : wrap32 (reps + 1) = reps + 1) by (apply wrap32_small; unfold INT_MAX in *; lia).
  rewrite Hw in *. pose proof (IH (reps + 1) k (snd cr) v ltac:(lia) H1). nia.
Qed.
Lemma ecdf_mc_atleast fuel uninit now n b B ns v : 0 <= n -> 0 <= ns <= INT_MAX -> size B <= n -> (b = [] \/ n <= size b) ->
  ecdf_crossing_probability_montecarlo fuel uninit now n b B ns = Ok v ->
  50 * (n + 1) * ns <= fst (c_ecdf_mc fuel uninit now n b B ns).
Proof.
  intros Hn Hns HB Hb. rewrite <- ecdf_mc_same. unfold c_ecdf_mc. cbn [cif cbind op snd fst bind].
  assert (G1 : (n <? size B) = false) by (apply Z.ltb_ge; lia).
  assert (G2 : (0 <? size b) && (size b <? n) = false).
  { destruct Hb as [->|Hb]; [reflexivity|]. apply andb_false_iff. right. apply Z.ltb_ge. lia. }
  rewrite G1, G2. cbn [snd fst op]. intros H.
  match type of H with context [c_mc_loop ?f ?bp ?s ?m ?i ?c ?r] => destruct (snd (c_mc_loop f bp s m i c r)) as [k| | | |] eqn:Ek; try discriminate;
    pose proof (mc_loop_atleast bp s m (50 * (n + 1)) ltac:(lia) ltac:(lia)
      (fun r' => ltac:(pose proof (ecdf_cross_atleast b B (Z.to_nat n) r') as X; rewrite Z2Nat.id in X by lia; exact X)) f i c r k ltac:(lia) Ek) end.
  lia.
Qed.
Lemma poisson_mc_atleast fuel uninit now intensity b B ns v : 0 <= ns <= INT_MAX -> (b = [] \/ size B <= size b) ->
  poisson_process_crossing_probability_montecarlo fuel uninit now intensity b B ns = Ok v ->
  50 * ns <= fst (c_poisson_mc fuel uninit now intensity b B ns).
Proof.
  intros Hns Hb. rewrite <- poisson_mc_same. unfold c_poisson_mc. cbn [cif cbind op snd fst bind].
  assert (G2 : (0 <? size b) && (size b <? size B) = false).
  { destruct Hb as [->|Hb]; [reflexivity|]. apply andb_false_iff. right. apply Z.ltb_ge. lia. }
  rewrite G2. pose proof (size_nonneg b). destruct (n_trunc _) as [k|]; [|cbn; discriminate]. destruct ((INT_MIN <=? k) && (k <=? INT_MAX)); [|cbn; discriminate]. cbn [cbind op bind snd fst]. intros H1.
  match type of H1 with context [c_mc_loop ?f ?bp ?s ?m ?i ?c ?r] => destruct (snd (c_mc_loop f bp s m i c r)) as [k'| | | |] eqn:Ek; try discriminate;
    pose proof (mc_loop_atleast bp s m 50 ltac:(lia) ltac:(lia)
      (fun r' => ltac:(pose proof (walk_atleast (n_div n1 intensity) b B (List.length b) [] n0 r'); unfold c_poisson_cross; cbn [cbind op fst snd]; lia)) f i c r k' ltac:(lia) Ek) end.
  lia.
Qed.

(** ** How often the generator is called *)
Fixpoint advance (k : nat) (r : tinymt) : tinymt := match k with O => r | S k => advance k (tinymt64_next_state r) end.
Lemma exponential_state (beta : T) r : snd (generate_exponential beta r) = tinymt64_next_state r.
Proof. reflexivity. Qed.
Lemma advance_S k r : tinymt64_next_state (advance k r) = advance (S k) r.
Proof. revert r. induction k as [|k IH]; intros r; [reflexivity|]. apply IH. Qed.
Lemma sums_state k : forall (x : T) r, snd (partial_sums k x r) = advance k r.
Proof.
  induction k as [|k IH]; intros x r; [reflexivity|]. cbn [partial_sums]. pose proof (exponential_state n1 r) as He.
  destruct (generate_exponential n1 r) as [e r1]. cbn [snd] in He. subst r1. specialize (IH (n_add x e) (tinymt64_next_state r)).
  destruct (partial_sums k (n_add x e) _) as [[l la] r2]. exact IH.
Qed.
Lemma ecdf_cross_state (b B : list T) n r c r' : does_random_ecdf_cross b B n r = Ok (c, r') -> r' = advance (n + 1) r.
Proof.
  unfold does_random_ecdf_cross, random_ecdf. pose proof (sums_state n n0 r) as Hs. destruct (partial_sums n n0 r) as [[l la] r2]. cbn [snd] in Hs. subst r2.
  pose proof (exponential_state n1 (advance n r)) as He. destruct (generate_exponential n1 (advance n r)) as [e r1]. cbn [snd] in He. subst r1.
  destruct (addr _ 0); try discriminate. cbn [bind]. destruct (does_integer_step_function_cross _ _ b B); try discriminate. cbn [bind].
  intros H. injection H as _ <-. rewrite advance_S. f_equal. lia.
Qed.
Lemma walk_state (beta : T) (b B : list T) k : forall st x r c r', poisson_walk k beta st x b B r = Ok (c, r') ->
  exists m, (1 <= m <= k + 1)%nat /\ r' = advance m r.
Proof.
  induction k as [|k IH]; intros st x r c r'; cbn [poisson_walk]; pose proof (exponential_state beta r) as He;
    destruct (generate_exponential beta r) as [e r1]; cbn [snd] in He; subst r1.
  - intros H. exists 1%nat. split; [lia|]. destruct (n_lt _ _); [|injection H as _ <-; reflexivity].
    destruct (does_integer_step_function_cross _ _ b B); try discriminate. injection H as _ <-. reflexivity.
  - destruct (n_lt _ _).
    + intros H. exists 1%nat. split; [lia|]. destruct (does_integer_step_function_cross _ _ b B); try discriminate. injection H as _ <-. reflexivity.
    + intros H. destruct (IH _ _ _ _ _ H) as (m & Hm & ->). exists (S m). split; [lia|reflexivity].
Qed.
Lemma poisson_cross_state (b B : list T) beta r c r' : does_random_poisson_process_cross b B beta r = Ok (c, r') ->
  exists m, (1 <= m <= List.length b + 1)%nat /\ r' = advance m r.
Proof. apply walk_state. Qed.
End CostMc.

Section Main.
Context {N : num}.
Notation T := (car N).
Lemma ecdf_mc_work fuel uninit now n (b B : list T) ns : 0 <= n -> 0 <= ns <= INT_MAX ->
  result (c_ecdf_mc fuel uninit now n b B ns) = ecdf_crossing_probability_montecarlo fuel uninit now n b B ns /\
  steps (c_ecdf_mc fuel uninit now n b B ns) <= 110 * (n + 1) * (ns + 1).
Proof.
  intros Hn Hns. split; [apply ecdf_mc_same|]. unfold steps. eapply Z.le_trans; [apply ecdf_mc_within; assumption|].
  assert (0 <= n * ns) by nia. nia.
Qed.
Lemma poisson_mc_work fuel uninit now intensity (b B : list T) ns : 0 <= ns <= INT_MAX ->
  result (c_poisson_mc fuel uninit now intensity b B ns) = poisson_process_crossing_probability_montecarlo fuel uninit now intensity b B ns /\
  steps (c_poisson_mc fuel uninit now intensity b B ns) <= 110 * (Z.of_nat (List.length b) + 1) * (ns + 1).
Proof.
  intros Hns. split; [apply poisson_mc_same|]. unfold steps. eapply Z.le_trans; [apply poisson_mc_within; assumption|].
  unfold size. assert (0 <= Z.of_nat (List.length b) * ns) by nia. nia.
Qed.
Lemma ecdf_mc_work_low fuel uninit now n (b B : list T) ns :
  1 <= n -> size B <= n -> (b = [] \/ n <= size b) -> 0 <= ns <= INT_MAX -> (Z.to_nat ns <= fuel)%nat ->
  exists v, ecdf_crossing_probability_montecarlo fuel uninit now n b B ns = Ok v /\
  50 * (n + 1) * ns <= steps (c_ecdf_mc fuel uninit now n b B ns).
Proof.
  intros Hn HB Hb Hns Hf. destruct (ecdf_estimate uninit now n b B ns Hn HB Hb Hns) as (cs & _ & _ & H). specialize (H fuel Hf).
  eexists. split; [exact H|]. eapply ecdf_mc_atleast; [lia|exact Hns|exact HB|exact Hb|exact H].
Qed.
Lemma poisson_mc_work_low fuel uninit now intensity (b B : list T) ns k :
  (b = [] \/ size B <= size b) -> seed_converts intensity k -> 0 <= ns <= INT_MAX -> (Z.to_nat ns <= fuel)%nat ->
  exists v, poisson_process_crossing_probability_montecarlo fuel uninit now intensity b B ns = Ok v /\
  50 * ns <= steps (c_poisson_mc fuel uninit now intensity b B ns).
Proof.
  intros Hb Hk Hns Hf. destruct (poisson_estimate uninit now intensity b B ns k Hb Hk Hns) as (cs & _ & _ & H). specialize (H fuel Hf).
  eexists. split; [exact H|]. eapply poisson_mc_atleast; [exact Hns|exact Hb|exact H].
Qed.
Lemma draws_per_simulation (b B : list T) beta (n : nat) r c r' :
  (does_random_ecdf_cross b B n r = Ok (c, r') -> r' = advance (n + 1) r) /\
  (does_random_poisson_process_cross b B beta r = Ok (c, r') -> exists m, (1 <= m <= List.length b + 1)%nat /\ r' = advance m r).
Proof. split; [apply ecdf_cross_state|apply poisson_cross_state]. Qed.
End Main.
