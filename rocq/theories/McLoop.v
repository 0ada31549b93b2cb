(** * McLoop: the simulation loop, its counter, and the Poisson simulation. *)
From Coquelicot Require Import Coquelicot.
From Flocq Require Import Core.Raux.
From Coq Require Import ZArith Reals Lia Lra List Bool Sorted.
From Verif Require Import Base Num XReal Hoare TinyMT MonteCarlo Spec SpecFacts McSpec McFacts.
Import List. Import ListNotations.
Local Open Scope Z_scope.

(** ** Every simulation returns, whatever the arithmetic *)
Section Total.
Context {N : num}.
Notation T := (car N).

Lemma lower_total (x B : list T) :
  exists c, does_integer_step_function_cross_lower_boundary x (size x) B = Ok c.
Proof.
  unfold does_integer_step_function_cross_lower_boundary, size.
  destruct (Z.ltb_spec (Z.of_nat (length x)) (Z.of_nat (length B))); [eauto|].
  apply any_index_ok. intros j Hj.
  rewrite (rd_get n0 x) by (unfold size; lia). cbn [bind]. rewrite (rd_get n0 B) by (unfold size; lia). cbn [bind]. eauto.
Qed.
Lemma upper_total (x b : list T) :
  exists c, does_integer_step_function_cross_upper_boundary x (size x) b = Ok c.
Proof.
  unfold does_integer_step_function_cross_upper_boundary, size.
  destruct (Z.ltb_spec (Z.of_nat (length b)) (Z.of_nat (length x))); [eauto|].
  rewrite Nat2Z.id. apply any_index_ok. intros j Hj.
  rewrite (rd_get n0 x) by (unfold size; lia). cbn [bind]. rewrite (rd_get n0 b) by (unfold size; lia). cbn [bind]. eauto.
Qed.
Lemma cross_total (b B x : list T) : exists c, does_integer_step_function_cross x (size x) b B = Ok c.
Proof.
  unfold does_integer_step_function_cross. destruct (size b =? 0); [apply lower_total|].
  destruct ((size x <? size B) || (size b <? size x)); [eauto|].
  destruct (lower_total x B) as (c & ->). cbn [bind]. destruct c; [eauto|apply upper_total].
Qed.

Lemma ecdf_sim_total (b B : list T) n r : (1 <= n)%nat -> exists c r', does_random_ecdf_cross b B n r = Ok (c, r').
Proof.
  intros Hn. unfold does_random_ecdf_cross. pose proof (random_ecdf_length (N := N) n r) as L.
  destruct (random_ecdf n r) as (l, r'). cbn [fst] in L.
  unfold addr, size at 1. destruct (Z.leb_spec (Z.of_nat (length l)) 0); [lia|]. cbn [Z.ltb orb bind].
  destruct (cross_total b B l) as (c & ->). cbn [bind]. exists c, r'. reflexivity.
Qed.
Lemma walk_total (b B : list T) beta : forall k steps a r, exists c r', poisson_walk k beta steps a b B r = Ok (c, r').
Proof.
  induction k as [|k IH]; intros steps a r; cbn [poisson_walk];
    destruct (generate_exponential beta r) as (e, r1); destruct (n_lt n1 (n_add a e)); eauto.
  - replace (size steps) with (size (rev steps)) by (unfold size; rewrite rev_length; reflexivity).
    destruct (cross_total b B (rev steps)) as (c & ->). cbn [bind]. exists c, r1. reflexivity.
  - replace (size steps) with (size (rev steps)) by (unfold size; rewrite rev_length; reflexivity).
    destruct (cross_total b B (rev steps)) as (c & ->). cbn [bind]. exists c, r1. reflexivity.
Qed.
Lemma poisson_sim_total (b B : list T) beta r : exists c r', does_random_poisson_process_cross b B beta r = Ok (c, r').
Proof. apply walk_total. Qed.
End Total.

Lemma simulations_exist sim : (forall r, exists c r', sim r = Ok (c, r')) ->
  forall k r, exists cs, length cs = k /\ simulations sim r cs.
Proof.
  intros H. induction k as [|k IH]; intros r; [exists []; split; [reflexivity|constructor]|].
  destruct (H r) as (c & r1 & E). destruct (IH r1) as (cs & L & S). exists (c :: cs).
  split; [simpl; lia|econstructor; eauto].
Qed.

(** ** The loop *)
Lemma crossings_cons c cs : crossings (c :: cs) = Z.b2z c + crossings cs.
Proof. unfold crossings. destruct c; cbn [filter length Z.b2z]; lia. Qed.
Lemma crossings_range cs : 0 <= crossings cs <= Z.of_nat (length cs).
Proof.
  induction cs as [|c cs IH]; [unfold crossings; simpl; lia|].
  rewrite crossings_cons. cbn [length]. destruct c; cbn [Z.b2z]; lia.
Qed.

Lemma wrap32_small z : - 2 ^ 31 <= z < 2 ^ 31 -> wrap32 z = z.
Proof. intros H. unfold wrap32. rewrite Z.mod_small by lia. lia. Qed.
Lemma wrap32_range z : - 2 ^ 31 <= wrap32 z < 2 ^ 31.
Proof. unfold wrap32. pose proof (Z.mod_pos_bound (z + 2 ^ 31) (2 ^ 32)). lia. Qed.

Definition counts (bump : Z -> bool -> outcome Z) : Prop :=
  forall k c, 0 <= k -> k + Z.b2z c <= INT_MAX -> bump k c = Ok (k + Z.b2z c).
Lemma add_double_counts : counts add_double.
Proof. intros k c H0 H. unfold add_double. rewrite (proj2 (Z.leb_le _ _) H). reflexivity. Qed.
Lemma add_int_counts : counts add_int.
Proof. intros k c H0 H. unfold add_int. rewrite wrap32_small; [reflexivity|]. unfold INT_MAX in H. destruct c; simpl Z.b2z in *; lia. Qed.

Lemma loop_counts bump sim num : counts bump -> num <= INT_MAX -> forall cs fuel reps count r,
  simulations sim r cs -> Z.of_nat (length cs) = num - reps -> 0 <= reps -> 0 <= count <= reps -> (length cs <= fuel)%nat ->
  mc_loop fuel bump sim num reps count r = Ok (count + crossings cs).
Proof.
  intros Hb HM. induction cs as [|c cs IH]; intros fuel reps count r S L R C F; inversion S as [|? ? r1 ? Es S1]; subst.
  - simpl in L. assert (reps = num) as -> by lia. destruct fuel; cbn [mc_loop]; rewrite Z.ltb_irrefl; f_equal; unfold crossings; simpl; lia.
  - cbn [length] in L. destruct fuel as [|fuel]; [simpl in F; lia|]. cbn [mc_loop].
    destruct (Z.ltb_spec reps num); [|lia]. rewrite Es. cbn [bind fst snd].
    unfold INT_MAX in *. rewrite Hb by (unfold INT_MAX; destruct c; simpl Z.b2z; lia). cbn [bind].
    rewrite wrap32_small by lia. rewrite crossings_cons. rewrite IH; [f_equal; lia|assumption| | | |]; try (simpl in F; lia); try lia.
    destruct c; simpl Z.b2z; lia.
Qed.

Lemma loop_never_ends bump sim num : INT_MAX < num -> forall fuel reps count r k,
  reps <= INT_MAX -> mc_loop fuel bump sim num reps count r <> Ok k.
Proof.
  intros HM. induction fuel as [|fuel IH]; intros reps count r k R; cbn [mc_loop];
    (destruct (Z.ltb_spec reps num); [|lia]); [discriminate|].
  destruct (sim r) as [(c, r1)| | | |]; cbn [bind]; try discriminate.
  destruct (bump count (fst (c, r1))) as [k1| | | |]; cbn [bind]; try discriminate.
  apply IH. pose proof (wrap32_range (reps + 1)). unfold INT_MAX. lia.
Qed.
Lemma loop_hangs sim num : INT_MAX < num -> (forall r, exists c r', sim r = Ok (c, r')) -> forall fuel reps count r,
  reps <= INT_MAX -> mc_loop fuel add_int sim num reps count r = Hang.
Proof.
  intros HM HT. induction fuel as [|fuel IH]; intros reps count r R; cbn [mc_loop];
    (destruct (Z.ltb_spec reps num); [|lia]); [reflexivity|].
  destruct (HT r) as (c & r1 & ->). cbn [bind fst snd add_int].
  apply IH. pose proof (wrap32_range (reps + 1)). unfold INT_MAX. lia.
Qed.
Lemma loop_total bump sim num : counts bump -> 0 <= num <= INT_MAX -> (forall r, exists c r', sim r = Ok (c, r')) ->
  forall r, exists cs, Z.of_nat (length cs) = num /\ simulations sim r cs /\
    forall fuel, (Z.to_nat num <= fuel)%nat -> mc_loop fuel bump sim num 0 0 r = Ok (crossings cs).
Proof.
  intros Hb HN HT r. destruct (simulations_exist sim HT (Z.to_nat num) r) as (cs & L & S).
  exists cs. split; [lia|]. split; [exact S|]. intros fuel F.
  rewrite (loop_counts bump sim num Hb (proj2 HN) cs fuel 0 0 r S) by lia. reflexivity.
Qed.

(** ** The two estimators *)
Section Est.
Context {N : num}.
Notation T := (car N).

Lemma ecdf_estimate uninit now n (b B : list T) num :
  1 <= n -> size B <= n -> (b = [] \/ n <= size b) -> 0 <= num <= INT_MAX ->
  exists cs, Z.of_nat (length cs) = num /\
    simulations (does_random_ecdf_cross b B (Z.to_nat n)) (rng_make uninit (now + n * 2 ^ 20)) cs /\
    forall fuel, (Z.to_nat num <= fuel)%nat ->
      ecdf_crossing_probability_montecarlo fuel uninit now n b B num = Ok (n_div (n_of_Z (crossings cs)) (n_of_Z num)).
Proof.
  intros Hn HB Hb HN.
  destruct (loop_total add_double (does_random_ecdf_cross b B (Z.to_nat n)) num add_double_counts HN) with
    (r := rng_make uninit (now + n * 2 ^ 20)) as (cs & L & S & R).
  { intros r. apply ecdf_sim_total. lia. }
  exists cs. split; [exact L|]. split; [exact S|]. intros fuel F. unfold ecdf_crossing_probability_montecarlo.
  destruct (Z.ltb_spec n (size B)); [lia|].
  replace ((0 <? size b) && (size b <? n)) with false.
  2:{ symmetry. destruct Hb as [->|Hb]; [reflexivity|]. apply andb_false_intro2. apply Z.ltb_ge. lia. }
  rewrite R by exact F. reflexivity.
Qed.
Lemma ecdf_trivial fuel uninit now n (b B : list T) num :
  n < size B \/ (b <> [] /\ size b < n) -> ecdf_crossing_probability_montecarlo fuel uninit now n b B num = Ok n1.
Proof.
  intros H. unfold ecdf_crossing_probability_montecarlo.
  destruct (Z.ltb_spec n (size B)); [reflexivity|]. destruct H as [H|(NE & H)]; [lia|].
  assert (0 < size b) by (unfold size; destruct b; [congruence|simpl length; lia]).
  rewrite (proj2 (Z.ltb_lt _ _) H1), (proj2 (Z.ltb_lt _ _) H). reflexivity.
Qed.
Lemma ecdf_never_ends fuel uninit now n (b B : list T) num k :
  size B <= n -> (b = [] \/ n <= size b) -> INT_MAX < num ->
  ecdf_crossing_probability_montecarlo fuel uninit now n b B num <> Ok k.
Proof.
  intros HB Hb HN. unfold ecdf_crossing_probability_montecarlo.
  destruct (Z.ltb_spec n (size B)); [lia|].
  replace ((0 <? size b) && (size b <? n)) with false.
  2:{ symmetry. destruct Hb as [->|Hb]; [reflexivity|]. apply andb_false_intro2. apply Z.ltb_ge. lia. }
  destruct (mc_loop fuel add_double _ num 0 0 _) eqn:E; cbn [bind]; try discriminate.
  exfalso. revert E. apply loop_never_ends; [exact HN|unfold INT_MAX; lia].
Qed.

Definition seed_converts (intensity : T) (k : Z) : Prop :=
  n_trunc (n_mul intensity (n_of_Z 1000000)) = Some k /\ INT_MIN <= k <= INT_MAX.

Lemma poisson_run fuel uninit now intensity (b B : list T) num k :
  (b = [] \/ size B <= size b) -> seed_converts intensity k ->
  poisson_process_crossing_probability_montecarlo fuel uninit now intensity b B num =
  (c <- mc_loop fuel add_int (does_random_poisson_process_cross b B (n_div n1 intensity)) num 0 0 (rng_make uninit (now + k)) ;;
   Ok (n_div (n_of_Z c) (n_of_Z num))).
Proof.
  intros Hb (HT & HR). unfold poisson_process_crossing_probability_montecarlo.
  replace ((0 <? size b) && (size b <? size B)) with false.
  2:{ symmetry. destruct Hb as [->|Hb]; [reflexivity|]. apply andb_false_intro2. apply Z.ltb_ge. lia. }
  rewrite HT. replace ((INT_MIN <=? k) && (k <=? INT_MAX)) with true; [reflexivity|].
  symmetry. apply andb_true_intro. split; apply Z.leb_le; lia.
Qed.
Lemma poisson_estimate uninit now intensity (b B : list T) num k :
  (b = [] \/ size B <= size b) -> seed_converts intensity k -> 0 <= num <= INT_MAX ->
  exists cs, Z.of_nat (length cs) = num /\
    simulations (does_random_poisson_process_cross b B (n_div n1 intensity)) (rng_make uninit (now + k)) cs /\
    forall fuel, (Z.to_nat num <= fuel)%nat ->
      poisson_process_crossing_probability_montecarlo fuel uninit now intensity b B num =
        Ok (n_div (n_of_Z (crossings cs)) (n_of_Z num)).
Proof.
  intros Hb Hk HN.
  destruct (loop_total add_int (does_random_poisson_process_cross b B (n_div n1 intensity)) num add_int_counts HN) with
    (r := rng_make uninit (now + k)) as (cs & L & S & R).
  { intros r. apply poisson_sim_total. }
  exists cs. split; [exact L|]. split; [exact S|]. intros fuel F.
  rewrite (poisson_run fuel uninit now intensity b B num k Hb Hk). rewrite R by exact F. reflexivity.
Qed.
Lemma poisson_hangs fuel uninit now intensity (b B : list T) num k :
  (b = [] \/ size B <= size b) -> seed_converts intensity k -> INT_MAX < num ->
  poisson_process_crossing_probability_montecarlo fuel uninit now intensity b B num = Hang.
Proof.
  intros Hb Hk HN. rewrite (poisson_run fuel uninit now intensity b B num k Hb Hk).
  rewrite loop_hangs; [reflexivity|exact HN|intros; apply poisson_sim_total|unfold INT_MAX; lia].
Qed.
Lemma poisson_trivial fuel uninit now intensity (b B : list T) num :
  b <> [] -> size b < size B -> poisson_process_crossing_probability_montecarlo fuel uninit now intensity b B num = Ok n1.
Proof.
  intros NE H. unfold poisson_process_crossing_probability_montecarlo.
  assert (H1 : 0 < size b) by (unfold size; destruct b; [congruence|simpl length; lia]).
  rewrite (proj2 (Z.ltb_lt _ _) H1), (proj2 (Z.ltb_lt _ _) H). reflexivity.
Qed.

(** b empty: the walk is cut after 0 steps *)
Lemma poisson_no_b (B : list T) beta r : B <> [] -> exists r', does_random_poisson_process_cross [] B beta r = Ok (true, r').
Proof.
  intros NE. unfold does_random_poisson_process_cross. cbn [length poisson_walk].
  destruct (generate_exponential beta r) as (e, r1). destruct (n_lt n1 (n_add n0 e)); [|eauto].
  unfold does_integer_step_function_cross, does_integer_step_function_cross_lower_boundary.
  change (size (@nil T) =? 0) with true. cbn [rev].
  assert (H1 : 0 < size B) by (unfold size; destruct B; [congruence|simpl length; lia]).
  change (size (@nil T)) with 0. rewrite (proj2 (Z.ltb_lt _ _) H1). cbn [bind]. eauto.
Qed.
Lemma all_cross sim cs : (forall r, exists r', sim r = Ok (true, r')) -> forall r, simulations sim r cs -> crossings cs = Z.of_nat (length cs).
Proof.
  intros H r S. induction S as [|r c r1 cs E S IH]; [reflexivity|].
  destruct (H r) as (r' & E'). assert (c = true) as -> by congruence.
  rewrite crossings_cons, IH. cbn [length Z.b2z]. lia.
Qed.
End Est.

(** ** Exact arithmetic *)
Section Exact.
Context {frexp : xr -> Z}.
Notation XN := (Xnum frexp).

Lemma seed_exact n : 0 <= n <= 2147 -> seed_converts (N := XN) (n_of_Z n) (n * 1000000).
Proof.
  intros H. split.
  - cbn [n_trunc n_mul n_of_Z Xnum xmul xtrunc]. rewrite <- mult_IZR. rewrite Ztrunc_IZR. reflexivity.
  - unfold INT_MIN, INT_MAX. lia.
Qed.
Lemma seed_undefined fuel uninit now n (b B : list (car XN)) num : 2148 <= n -> (b = [] \/ size B <= size b) ->
  poisson_process_crossing_probability_montecarlo (N := XN) fuel uninit now (n_of_Z n) b B num =
    Undef "conversion of intensity*1000000 to int out of range".
Proof.
  intros H Hb. unfold poisson_process_crossing_probability_montecarlo.
  replace ((0 <? size b) && (size b <? size B)) with false.
  2:{ symmetry. destruct Hb as [->|Hb]; [reflexivity|]. apply andb_false_intro2. apply Z.ltb_ge. lia. }
  cbn [n_trunc n_mul n_of_Z Xnum xmul xtrunc]. rewrite <- mult_IZR. rewrite Ztrunc_IZR.
  replace ((INT_MIN <=? n * 1000000) && (n * 1000000 <=? INT_MAX)) with false; [reflexivity|].
  symmetry. apply andb_false_intro2. apply Z.leb_gt. unfold INT_MAX. lia.
Qed.

Lemma frequency_exact c num : 0 <= c <= num -> 1 <= num ->
  @n_div XN (n_of_Z c) (n_of_Z num) = Fin (IZR c / IZR num) /\ (0 <= IZR c / IZR num <= 1)%R.
Proof.
  intros H H1. assert (0 < IZR num)%R by (apply IZR_lt; lia). split.
  - cbn [n_div n_of_Z Xnum xdiv]. rewrite Req_bool_false by lra. reflexivity.
  - assert (0 <= IZR c <= IZR num)%R by (split; apply IZR_le; lia). split.
    + apply Rdiv_le_0_compat; lra.
    + apply Rmult_le_reg_r with (IZR num); [lra|]. unfold Rdiv. rewrite Rmult_assoc, Rinv_l by lra. lra.
Qed.
Lemma frequency_zero : @n_div XN (n_of_Z 0) (n_of_Z 0) = NaN.
Proof. cbn [n_div n_of_Z Xnum xdiv]. rewrite Req_bool_true by reflexivity. rewrite Rcompare_Eq by reflexivity. reflexivity. Qed.

Local Open Scope R_scope.

(** The Poisson walk *)
Lemma walk_inside (b B : list R) beta us u : 0 < beta -> Forall (fun v => 0 < v < 1) (us ++ [u]) ->
  forall k steps a r r', draws (N := XN) r (map Fin (us ++ [u])) r' -> (length us <= k)%nat ->
  Forall (fun t => t <= 1) (sums_from a (map (fun v => beta * - ln v) us)) ->
  1 < a + total (map (fun v => beta * - ln v) us) + beta * - ln u ->
  exists c, poisson_walk (N := XN) k (Fin beta) (map Fin steps) (Fin a) (map Fin b) (map Fin B) r = Ok (c, r') /\
    (c = false <-> stays_inside b B (rev steps ++ sums_from a (map (fun v => beta * - ln v) us))).
Proof.
  intros Hbeta. induction us as [|v us IH]; intros F k steps a r r' D Hk HS HT.
  - inversion D as [|? ? r1 ? ? G D1]; subst. inversion D1; subst. inversion F as [|? ? Hu _]; subst.
    assert (LT : xlt (Fin 1) (Fin (a + beta * - ln u)) = true).
    { simpl. apply Rlt_bool_true. unfold total in HT. simpl in HT. lra. }
    assert (W : poisson_walk (N := XN) k (Fin beta) (map Fin steps) (Fin a) (map Fin b) (map Fin B) r =
      (c <- does_integer_step_function_cross (N := XN) (rev (map Fin steps)) (size (map Fin steps)) (map Fin b) (map Fin B) ;; Ok (c, r'))).
    { destruct k; cbn [poisson_walk]; rewrite (exponential_exact beta u r r' (proj1 Hu) G);
        change (@n_lt XN n1 (@n_add XN (Fin a) (Fin (beta * - ln u)))) with (xlt (Fin 1) (Fin (a + beta * - ln u))); rewrite LT; reflexivity. }
    destruct (cross_spec (frexp := frexp) b B (rev steps)) as (c & Hc & Sc).
    exists c. cbn [map sums_from]. rewrite app_nil_r. split; [|exact Sc].
    rewrite map_rev, rev_length, <- (map_length Fin steps) in Hc.
    rewrite W. exact (f_equal (fun o => bind o (fun c => Ok (c, r'))) Hc).
  - inversion D as [|? ? r1 ? ? G D1]; subst. inversion F as [|? ? Hv F1]; subst.
    destruct k as [|k]; [simpl in Hk; lia|]. cbn [map sums_from] in HS. inversion HS as [|? ? Ha HS1]; subst.
    cbn [poisson_walk]. rewrite (exponential_exact beta v r r1 (proj1 Hv) G).
    change (@n_lt XN n1 (@n_add XN (Fin a) (Fin (beta * - ln v)))) with (xlt (Fin 1) (Fin (a + beta * - ln v))).
    assert (LT : xlt (Fin 1) (Fin (a + beta * - ln v)) = false) by (simpl; apply Rlt_bool_false; lra).
    rewrite LT. change (@n_add XN (Fin a) (Fin (beta * - ln v))) with (Fin (a + beta * - ln v)).
    destruct (IH F1 k ((a + beta * - ln v) :: steps) (a + beta * - ln v) r1 r' D1) as (c & W & S).
    + simpl in Hk; lia.
    + exact HS1.
    + unfold total in *; simpl in HT; lra.
    + exists c. split; [exact W|]. rewrite S. cbn [rev map sums_from]. rewrite <- app_assoc. reflexivity.
Qed.

Lemma walk_overflow (b B : list R) beta us : 0 < beta -> Forall (fun v => 0 < v < 1) us ->
  forall k steps a r r', draws (N := XN) r (map Fin us) r' -> length us = S k ->
  Forall (fun t => t <= 1) (sums_from a (map (fun v => beta * - ln v) us)) ->
  poisson_walk (N := XN) k (Fin beta) steps (Fin a) (map Fin b) (map Fin B) r = Ok (true, r').
Proof.
  intros Hbeta. induction us as [|v us IH]; intros F k steps a r r' D L HS; [discriminate|].
  inversion D as [|? ? r1 ? ? G D1]; subst. inversion F as [|? ? Hv F1]; subst.
  cbn [map sums_from] in HS. inversion HS as [|? ? Ha HS1]; subst.
  assert (LT : xlt (Fin 1) (Fin (a + beta * - ln v)) = false) by (simpl; apply Rlt_bool_false; lra).
  destruct k as [|k]; cbn [poisson_walk]; rewrite (exponential_exact beta v r r1 (proj1 Hv) G);
    change (@n_lt XN n1 (@n_add XN (Fin a) (Fin (beta * - ln v)))) with (xlt (Fin 1) (Fin (a + beta * - ln v))); rewrite LT.
  - destruct us; [|discriminate]. inversion D1; subst. reflexivity.
  - apply IH; auto.
Qed.

Lemma poisson_cross_spec (b B : list R) beta us u r r' : 0 < beta -> b <> [] ->
  Forall (fun v => 0 < v < 1) (us ++ [u]) -> draws (N := XN) r (map Fin (us ++ [u])) r' ->
  let es := map (fun v => beta * - ln v) us in
  Forall (fun t => t <= 1) (jump_times es) -> 1 < total es + beta * - ln u ->
  exists c r1, does_random_poisson_process_cross (N := XN) (map Fin b) (map Fin B) (Fin beta) r = Ok (c, r1) /\
    (c = false <-> stays_inside b B (jump_times es)).
Proof.
  intros Hbeta NE F D es HS HT. unfold does_random_poisson_process_cross. rewrite map_length.
  rewrite jump_times_sums in *. destruct (Nat.le_gt_cases (length us) (length b)) as [Hk|Hk].
  - destruct (walk_inside b B beta us u Hbeta F (length b) [] 0 r r' D Hk HS) as (c & W & S); [fold es; lra|].
    exists c, r'. split; [exact W|exact S].
  - set (vs := firstn (S (length b)) us). set (ws := skipn (S (length b)) us).
    assert (U : us = vs ++ ws) by (symmetry; apply firstn_skipn).
    assert (Lv : length vs = S (length b)) by (unfold vs; rewrite firstn_length; lia).
    rewrite U in D. rewrite <- app_assoc, map_app in D.
    destruct (draws_split (N := XN) (map Fin vs) r (map Fin (ws ++ [u])) r' D) as (r1 & D1 & _).
    exists true, r1. split.
    + change (@nil (car XN)) with (map Fin []). change (@n0 XN) with (Fin 0).
      apply (walk_overflow b B beta vs Hbeta); auto.
      * apply Forall_app in F as (F & _). rewrite U in F. apply Forall_app in F as (F & _). exact F.
      * assert (HE : sums_from 0 es = sums_from 0 (map (fun v => beta * - ln v) vs ++ map (fun v => beta * - ln v) ws))
          by (unfold es; rewrite U, map_app; reflexivity).
        rewrite HE in HS. clear - HS. revert HS. generalize (map (fun v => beta * - ln v) ws) as w.
        generalize (map (fun v => beta * - ln v) vs) as v. intros v w. generalize 0.
        induction v as [|x v IH]; intros a HS; [constructor|]. cbn [app sums_from] in *.
        inversion HS; subst. constructor; auto.
    + split; [discriminate|]. intros (_ & _ & [?|(L & _)]); [contradiction|].
      rewrite sums_from_length in L. unfold es in L. rewrite map_length in L. lia.
Qed.
End Exact.
