(** * McFacts: the Monte-Carlo simulator. *)
From Coquelicot Require Import Coquelicot.
From Flocq Require Import Core.Raux.
From Coq Require Import ZArith Reals Lia Lra List Bool Sorted Permutation.
From Verif Require Import Base Num XReal Hoare TinyMT MonteCarlo Spec SpecFacts McSpec.
Import List. Import ListNotations.
Local Open Scope R_scope.

(** ** The crossing test *)
Lemma any_index_spec test : forall k i c, any_index k i test = Ok c ->
  (c = true <-> exists j, (i <= j < i + Z.of_nat k)%Z /\ test j = Ok true).
Proof.
  induction k as [|k IH]; intros i c.
  - cbn. intros H. injection H as <-. split; [discriminate|intros (j & ? & _); lia].
  - cbn [any_index]. destruct (test i) as [t| | | |] eqn:T; try discriminate. cbn [bind]. destruct t.
    + intros H. injection H as <-. split; [|auto]. intros _. exists i. split; [lia|exact T].
    + intros H. rewrite (IH _ _ H). split; intros (j & Hj & X); exists j; (split; [|exact X]); [lia|].
      assert (j <> i) by congruence. lia.
Qed.
Lemma any_index_ok test : forall k i, (forall j, (i <= j < i + Z.of_nat k)%Z -> exists c, test j = Ok c) ->
  exists c, any_index k i test = Ok c.
Proof.
  induction k as [|k IH]; intros i H; [exists false; reflexivity|]. cbn [any_index].
  destruct (H i) as ([|] & ->); [lia| |]; cbn [bind]; [eauto|]. apply IH. intros; apply H; lia.
Qed.

Section X.
Context {frexp : xr -> Z}.
Notation XN := (Xnum frexp).

Lemma rd_Fin (x : list R) i : (0 <= i < Z.of_nat (length x))%Z ->
  @rd (car XN) (map Fin x) i = Ok (Fin (nth (Z.to_nat i) x 0)).
Proof.
  intros H. rewrite (rd_get (Fin 0)) by (unfold size; rewrite map_length; lia).
  unfold get. rewrite (map_nth Fin). reflexivity.
Qed.
Lemma size_Fin (x : list R) : @size (car XN) (map Fin x) = Z.of_nat (length x).
Proof. unfold size. rewrite map_length. reflexivity. Qed.

Lemma lower_cross (x B : list R) : exists c,
  does_integer_step_function_cross_lower_boundary (N := XN) (map Fin x) (Z.of_nat (length x)) (map Fin B) = Ok c /\
  (c = false <-> (length B <= length x)%nat /\ forall i, (i < length B)%nat -> nth i x 0 <= nth i B 0).
Proof.
  unfold does_integer_step_function_cross_lower_boundary. rewrite size_Fin.
  destruct (Z.ltb_spec (Z.of_nat (length x)) (Z.of_nat (length B))).
  - exists true. split; [reflexivity|]. split; [discriminate|]. intros (? & _). lia.
  - rewrite map_length.
    set (test := fun i : Z => _).
    assert (T : forall j, (0 <= j < 0 + Z.of_nat (length B))%Z ->
      test j = Ok (xlt (Fin (nth (Z.to_nat j) B 0)) (Fin (nth (Z.to_nat j) x 0)))).
    { intros j Hj. unfold test. rewrite (rd_Fin x) by lia. cbn [bind]. rewrite (rd_Fin B) by lia. reflexivity. }
    destruct (any_index_ok test (length B) 0) as (c & Hc). { intros j Hj. rewrite T by exact Hj. eauto. }
    exists c. split; [exact Hc|]. pose proof (any_index_spec _ _ _ _ Hc) as S.
    split.
    + intros ->. split; [lia|]. intros i Hi. apply Rnot_lt_le. intros L.
      assert (false = true); [|discriminate]. apply S. exists (Z.of_nat i). split; [lia|]. rewrite T by lia.
      rewrite Nat2Z.id. simpl. rewrite Rlt_bool_true by exact L. reflexivity.
    + intros (_ & A). destruct c; [|reflexivity]. destruct (proj1 S eq_refl) as (j & Hj & X).
      rewrite T in X by exact Hj. injection X as X. specialize (A (Z.to_nat j) ltac:(lia)).
      rewrite Rlt_bool_false in X by exact A. discriminate.
Qed.

Lemma upper_cross (x b : list R) : exists c,
  does_integer_step_function_cross_upper_boundary (N := XN) (map Fin x) (Z.of_nat (length x)) (map Fin b) = Ok c /\
  (c = false <-> (length x <= length b)%nat /\ forall i, (i < length x)%nat -> nth i b 0 <= nth i x 0).
Proof.
  unfold does_integer_step_function_cross_upper_boundary. rewrite size_Fin.
  destruct (Z.ltb_spec (Z.of_nat (length b)) (Z.of_nat (length x))).
  - exists true. split; [reflexivity|]. split; [discriminate|]. intros (? & _). lia.
  - rewrite Nat2Z.id.
    set (test := fun i : Z => _).
    assert (T : forall j, (0 <= j < 0 + Z.of_nat (length x))%Z ->
      test j = Ok (xlt (Fin (nth (Z.to_nat j) x 0)) (Fin (nth (Z.to_nat j) b 0)))).
    { intros j Hj. unfold test. rewrite (rd_Fin x) by lia. cbn [bind]. rewrite (rd_Fin b) by lia. reflexivity. }
    destruct (any_index_ok test (length x) 0) as (c & Hc). { intros j Hj. rewrite T by exact Hj. eauto. }
    exists c. split; [exact Hc|]. pose proof (any_index_spec _ _ _ _ Hc) as S.
    split.
    + intros ->. split; [lia|]. intros i Hi. apply Rnot_lt_le. intros L.
      assert (false = true); [|discriminate]. apply S. exists (Z.of_nat i). split; [lia|]. rewrite T by lia.
      rewrite Nat2Z.id. simpl. rewrite Rlt_bool_true by exact L. reflexivity.
    + intros (_ & A). destruct c; [|reflexivity]. destruct (proj1 S eq_refl) as (j & Hj & X).
      rewrite T in X by exact Hj. injection X as X. specialize (A (Z.to_nat j) ltac:(lia)).
      rewrite Rlt_bool_false in X by exact A. discriminate.
Qed.

Lemma cross_spec (b B x : list R) : exists c,
  does_integer_step_function_cross (N := XN) (map Fin x) (Z.of_nat (length x)) (map Fin b) (map Fin B) = Ok c /\
  (c = false <-> stays_inside b B x).
Proof.
  unfold does_integer_step_function_cross, stays_inside. rewrite !size_Fin.
  destruct (lower_cross x B) as (l & Hl & Sl).
  destruct (Z.eqb_spec (Z.of_nat (length b)) 0) as [Hb|Hb].
  - assert (b = []) as -> by (destruct b; [reflexivity|simpl in Hb; lia]).
    exists l. split; [exact Hl|]. rewrite Sl. tauto.
  - assert (NE : b <> []) by (intros ->; apply Hb; reflexivity).
    destruct (Z.ltb_spec (Z.of_nat (length x)) (Z.of_nat (length B))); cbn [orb].
    { exists true. split; [reflexivity|]. split; [discriminate|]. intros (? & _). lia. }
    destruct (Z.ltb_spec (Z.of_nat (length b)) (Z.of_nat (length x))).
    { exists true. split; [reflexivity|]. split; [discriminate|]. intros (_ & _ & [?|(? & _)]); [contradiction|lia]. }
    rewrite Hl. cbn [bind]. destruct l.
    + exists true. split; [reflexivity|]. split; [discriminate|]. intros (A & C & _).
      assert (true = false) by (apply Sl; auto). discriminate.
    + destruct (upper_cross x b) as (u & Hu & Su). exists u. split; [exact Hu|]. rewrite Su.
      destruct (proj1 Sl eq_refl) as (A & C). tauto.
Qed.

(** for a sample of the right size, this is the event of the exact algorithms *)
Lemma Forall2_nth0 (P : R -> R -> Prop) (a c : list R) : Forall2 P a c <->
  length a = length c /\ forall i, (i < length a)%nat -> P (nth i a 0) (nth i c 0).
Proof.
  split.
  - induction 1 as [|u v a c H HF (L & IH)]; [split; [reflexivity|simpl; intros; lia]|].
    split; [simpl; lia|]. intros [|i] Hi; simpl; [exact H|apply IH; simpl in Hi; lia].
  - revert c. induction a as [|u a IH]; intros [|v c] (L & H); try discriminate; constructor.
    + apply (H 0%nat). simpl; lia.
    + apply IH. split; [simpl in L; lia|]. intros i Hi. apply (H (S i)). simpl; lia.
Qed.
End X.

Lemma stays_two_sided (b B x : list R) : length b = length x -> length B = length x ->
  (stays_inside b B x <-> Forall2 Rle b x /\ Forall2 Rle x B).
Proof.
  intros Lb LB. unfold stays_inside. rewrite !Forall2_nth0. rewrite Lb, LB. split.
  - intros (_ & A & [->|(_ & C)]); [|split; split; auto]. simpl in Lb. split; split; auto; intros; lia.
  - intros ((_ & A) & (_ & C)). split; [lia|]. split; [exact C|]. right. split; [lia|exact A].
Qed.
Lemma stays_lower (B x : list R) : length B = length x -> (stays_inside [] B x <-> Forall2 Rle x B).
Proof.
  intros LB. unfold stays_inside. rewrite Forall2_nth0, LB. intuition.
Qed.
Lemma stays_upper (b x : list R) : length b = length x -> (stays_inside b [] x <-> Forall2 Rle b x).
Proof.
  intros Lb. unfold stays_inside. rewrite Forall2_nth0, Lb. simpl. split.
  - intros (_ & _ & [->|(_ & C)]); [|auto]. simpl in Lb. split; [reflexivity|intros; lia].
  - intros (_ & A). split; [lia|]. split; [intros; lia|]. right. split; [lia|exact A].
Qed.

Lemma sorted_perm_eq (x o : list R) : Permutation x o -> Sorted Rle x -> Sorted Rle o -> x = o.
Proof.
  intros HP Sx So. apply (Sorted_StronglySorted Rle_trans) in Sx. apply (Sorted_StronglySorted Rle_trans) in So.
  revert o HP So. induction Sx as [|a x Sx IH Fa]; intros o HP So.
  - apply Permutation_nil in HP. auto.
  - destruct So as [|c o So Fc]; [apply Permutation_sym, Permutation_nil in HP; discriminate|].
    assert (a = c).
    { assert (In a (c :: o)) as [->|I1] by (apply (Permutation_in _ HP); left; reflexivity); [reflexivity|].
      assert (In c (a :: x)) as [->|I2] by (apply (Permutation_in _ (Permutation_sym HP)); left; reflexivity); [reflexivity|].
      rewrite Forall_forall in Fa, Fc. apply Rle_antisym; auto. }
    subst c. f_equal. apply IH; [|exact So]. exact (Permutation_cons_inv HP).
Qed.

Lemma cross_is_event {frexp} (b B x : list R) : Sorted Rle x -> length b = length x -> length B = length x ->
  exists c, does_integer_step_function_cross (N := Xnum frexp) (map Fin x) (Z.of_nat (length x)) (map Fin b) (map Fin B) = Ok c /\
  (c = false <-> noncrossing b B x).
Proof.
  intros S Lb LB. destruct (cross_spec (frexp := frexp) b B x) as (c & Hc & Sc). exists c. split; [exact Hc|].
  rewrite Sc, stays_two_sided by assumption. split.
  - intros (A & C). exists x. auto using Permutation_refl.
  - intros (o & HP & So & A & C). rewrite (sorted_perm_eq x o HP S So). auto.
Qed.

Lemma cross_is_event_B {frexp} (B x : list R) : Sorted Rle x -> length B = length x ->
  exists c, does_integer_step_function_cross (N := Xnum frexp) (map Fin x) (Z.of_nat (length x)) [] (map Fin B) = Ok c /\
  (c = false <-> noncrossing_B B x).
Proof.
  intros S LB. destruct (cross_spec (frexp := frexp) [] B x) as (c & Hc & Sc). exists c. split; [exact Hc|].
  rewrite Sc, stays_lower by assumption. split.
  - intros A. exists x. auto using Permutation_refl.
  - intros (o & HP & So & A). rewrite (sorted_perm_eq x o HP S So). auto.
Qed.
Lemma cross_is_event_b {frexp} (b x : list R) : Sorted Rle x -> length b = length x ->
  exists c, does_integer_step_function_cross (N := Xnum frexp) (map Fin x) (Z.of_nat (length x)) (map Fin b) [] = Ok c /\
  (c = false <-> noncrossing_b b x).
Proof.
  intros S Lb. destruct (cross_spec (frexp := frexp) b [] x) as (c & Hc & Sc). exists c. split; [exact Hc|].
  rewrite Sc, stays_upper by assumption. split.
  - intros A. exists x. auto using Permutation_refl.
  - intros (o & HP & So & A). rewrite (sorted_perm_eq x o HP S So). auto.
Qed.

(** ** Sampling *)
Lemma ln_lt_0 u : 0 < u < 1 -> ln u < 0.
Proof. intros H. rewrite <- ln_1. apply ln_increasing; lra. Qed.

Fixpoint sums_from (a : R) (es : list R) : list R :=
  match es with [] => [] | e :: r => (a + e) :: sums_from (a + e) r end.
Lemma sums_from_map a es : sums_from a es = map (fun k => a + total (firstn k es)) (seq 1 (length es)).
Proof.
  revert a. induction es as [|e es IH]; intros a; [reflexivity|].
  cbn [sums_from length seq map firstn]. f_equal; [unfold total; simpl; ring|].
  rewrite IH. rewrite <- (seq_shift _ 1), map_map. apply map_ext. intros k. cbn [firstn]. unfold total. simpl. ring.
Qed.
Lemma jump_times_sums es : jump_times es = sums_from 0 es.
Proof. rewrite sums_from_map. unfold jump_times. apply map_ext. intros; ring. Qed.
Lemma sums_from_length a es : length (sums_from a es) = length es.
Proof. revert a; induction es; intros; simpl; auto. Qed.
Lemma total_app a c : total (a ++ c) = total a + total c.
Proof. unfold total. induction a as [|x a IH]; simpl; [ring|rewrite IH; ring]. Qed.
Lemma total_pos es : Forall (fun e => 0 < e) es -> 0 <= total es.
Proof. induction 1; unfold total in *; simpl; lra. Qed.
Lemma sums_from_sorted a es : Forall (fun e => 0 < e) es ->
  Sorted Rlt (sums_from a es) /\ HdRel Rlt a (sums_from a es) /\
  Forall (fun x => a < x <= a + total es) (sums_from a es).
Proof.
  intros F; revert a; induction F as [|e es He F IH]; intros a; simpl.
  - repeat split; constructor.
  - destruct (IH (a + e)) as (S & H & B). split; [constructor; assumption|]. split; [constructor; lra|].
    pose proof (total_pos es F). constructor; [unfold total in *; simpl; lra|].
    eapply Forall_impl; [|exact B]. intros x. cbv beta. unfold total. simpl. lra.
Qed.

Lemma draws_app {N : num} r us r1 vs r2 : draws (N := N) r us r1 -> draws r1 vs r2 -> draws r (us ++ vs) r2.
Proof. induction 1; simpl; auto. intros. econstructor; eauto. Qed.
Lemma draws_split {N : num} us : forall r vs r2, draws (N := N) r (us ++ vs) r2 -> exists r1, draws r us r1 /\ draws r1 vs r2.
Proof.
  induction us as [|u us IH]; intros r vs r2; simpl.
  - intros H. exists r. split; [constructor|exact H].
  - intros H. inversion H as [|? ? r1 ? ? G H1]; subst. destruct (IH _ _ _ H1) as (r3 & A & C).
    exists r3. split; [econstructor; eauto|exact C].
Qed.
Lemma draws_exist {N : num} k : forall r, exists us r', length us = k /\ draws (N := N) r us r'.
Proof.
  induction k as [|k IH]; intros r; [exists [], r; split; [reflexivity|constructor]|].
  destruct (tinymt64_generate_double01 (N := N) r) as (u, r1) eqn:G.
  destruct (IH r1) as (us & r' & L & D). exists (u :: us), r'. split; [simpl; lia|econstructor; eauto].
Qed.

Section Y.
Context {frexp : xr -> Z}.
Notation XN := (Xnum frexp).

Lemma exponential_exact beta u r r1 : 0 < u -> tinymt64_generate_double01 (N := XN) r = (Fin u, r1) ->
  generate_exponential (N := XN) (Fin beta) r = (Fin (beta * - ln u), r1).
Proof.
  intros Hu G. unfold generate_exponential, generate_uniform01. rewrite G.
  cbn [n_mul n_neg n_log Xnum xneg xlog]. rewrite Rcompare_Gt by exact Hu. cbn [xmul]. do 2 f_equal. ring.
Qed.

Lemma partial_sums_exact us : forall a r r1, Forall (fun u => 0 < u) us ->
  draws (N := XN) r (map Fin us) r1 ->
  partial_sums (N := XN) (length us) (Fin a) r =
    (map Fin (sums_from a (map (fun u => - ln u) us)), Fin (a + total (map (fun u => - ln u) us)), r1).
Proof.
  induction us as [|u us IH]; intros a r r1 F D; cbn [length partial_sums map sums_from].
  - inversion D; subst. unfold total. simpl. rewrite Rplus_0_r. reflexivity.
  - inversion D as [|? ? r2 ? ? G D1]; subst. inversion F as [|? ? Hu F1]; subst.
    pose proof (exponential_exact 1 u r r2 Hu G) as X. change (@n1 XN) with (Fin 1). rewrite X.
    cbn [n_add Xnum xadd]. replace (a + 1 * - ln u) with (a + - ln u) by ring.
    pose proof (IH (a + - ln u) r2 r1 F1 D1) as Y. rewrite Y. unfold total. simpl. rewrite Rplus_assoc. reflexivity.
Qed.

Lemma random_ecdf_exact us r r1 : Forall (fun u => 0 < u < 1) us -> us <> [] ->
  draws (N := XN) r (map Fin us) r1 ->
  let es := map (fun u => - ln u) us in
  random_ecdf (N := XN) (length us - 1) r =
    (map Fin (map (fun t => t / total es) (jump_times (removelast es))), r1).
Proof.
  intros F NE D es. destruct (exists_last NE) as (vs & v & ->).
  rewrite map_app in D. destruct (draws_split (N := XN) (map Fin vs) r (map Fin [v]) r1 D) as (r2 & D1 & D2).
  assert (F1 : Forall (fun u => 0 < u) vs).
  { apply Forall_app in F as (F & _). eapply Forall_impl; [|exact F]. simpl; intros; lra. }
  assert (Hv : 0 < v < 1). { apply Forall_app in F as (_ & F). inversion F; auto. }
  replace (length (vs ++ [v]) - 1)%nat with (length vs) by (rewrite app_length; simpl; lia).
  unfold random_ecdf. change (@n0 XN) with (Fin 0). rewrite (partial_sums_exact vs 0 r r2 F1 D1).
  inversion D2 as [|? ? r3 ? ? G D3]; subst. inversion D3; subst.
  pose proof (exponential_exact 1 v r2 r1 (proj1 Hv) G) as X. change (@n1 XN) with (Fin 1). rewrite X.
  cbn [n_add Xnum xadd]. f_equal.
  unfold es. rewrite map_app. cbn [map]. rewrite removelast_last. rewrite jump_times_sums.
  rewrite (map_map _ Fin), (map_map Fin). apply map_ext. intros t. cbn [n_div Xnum xdiv].
  assert (T : 0 + total (map (fun u => - ln u) vs) + 1 * - ln v = total (map (fun u => - ln u) vs ++ [- ln v])).
  { rewrite total_app. unfold total at 3. simpl. ring. }
  rewrite T. rewrite Req_bool_false; [reflexivity|].
  rewrite total_app. unfold total at 2. simpl.
  assert (0 <= total (map (fun u => - ln u) vs)).
  { apply total_pos. apply Forall_map. apply Forall_app in F as (F & _). eapply Forall_impl; [|exact F].
    cbv beta. intros u Hu. pose proof (ln_lt_0 u Hu). lra. }
  pose proof (ln_lt_0 v Hv). lra.
Qed.

Lemma exponentials_pos us : Forall (fun u => 0 < u < 1) us -> Forall (fun e => 0 < e) (map (fun u => - ln u) us).
Proof.
  intros F. apply Forall_map. eapply Forall_impl; [|exact F]. cbv beta. intros u Hu. pose proof (ln_lt_0 u Hu). lra.
Qed.

Lemma scaled_sorted c l : 0 < c -> Sorted Rlt l -> Sorted Rlt (map (fun t => t / c) l).
Proof.
  intros Hc S. induction S as [|x l S IH H]; simpl; constructor; auto.
  destruct H; simpl; constructor. apply Rmult_lt_compat_r; [apply Rinv_0_lt_compat; exact Hc|assumption].
Qed.

Lemma sample_ordered us : Forall (fun u => 0 < u < 1) us -> us <> [] ->
  let es := map (fun u => - ln u) us in
  let x := map (fun t => t / total es) (jump_times (removelast es)) in
  length x = (length us - 1)%nat /\ Sorted Rlt x /\ Forall (fun t => 0 < t < 1) x.
Proof.
  intros F NE es x. pose proof (exponentials_pos us F) as P. fold es in P.
  assert (NEe : es <> []) by (unfold es; destruct us; [congruence|discriminate]).
  destruct (exists_last NEe) as (fs & f & Ef).
  assert (L : length us = S (length fs)).
  { assert (length es = length us) by (unfold es; apply map_length). rewrite Ef, app_length in H. simpl in H. lia. }
  unfold x. rewrite Ef in *. rewrite removelast_last.
  apply Forall_app in P as (Pf & Pl). inversion Pl as [|? ? Hf _]; subst.
  destruct (sums_from_sorted 0 fs Pf) as (S & _ & B). rewrite jump_times_sums.
  pose proof (total_pos fs Pf) as T0.
  assert (T : total (fs ++ [f]) = total fs + f) by (rewrite total_app; unfold total at 2; simpl; ring).
  split; [rewrite map_length, sums_from_length; lia|]. split.
  - apply scaled_sorted; [lra|exact S].
  - apply Forall_map. eapply Forall_impl; [|exact B]. cbv beta. intros t Ht. split.
    + apply Rdiv_lt_0_compat; lra.
    + apply Rmult_lt_reg_r with (total (fs ++ [f])); [lra|]. unfold Rdiv. rewrite Rmult_assoc, Rinv_l by lra. lra.
Qed.

Lemma random_ecdf_sample us r r1 : Forall (fun u => 0 < u < 1) us -> us <> [] ->
  draws (N := XN) r (map Fin us) r1 ->
  exists x, random_ecdf (N := XN) (length us - 1) r = (map Fin x, r1) /\
    length x = (length us - 1)%nat /\ Sorted Rlt x /\ Forall (fun t => 0 < t < 1) x /\
    forall k, (k < length x)%nat ->
      nth k x 0 = total (map (fun u => - ln u) (firstn (S k) us)) / total (map (fun u => - ln u) us).
Proof.
  intros F NE D. pose proof (random_ecdf_exact us r r1 F NE D) as R. cbv zeta in R.
  pose proof (sample_ordered us F NE) as SO. cbv zeta in SO.
  eexists. split; [exact R|]. destruct SO as (L & SO). split; [exact L|]. split; [apply SO|]. split; [apply SO|].
  intros k Hk. rewrite L in Hk.
  set (es := map (fun u => - ln u) us) in *.
  assert (Le : length (jump_times (removelast es)) = (length us - 1)%nat) by (rewrite map_length in L; exact L).
  rewrite (nth_indep _ 0 ((fun t => t / total es) 0)) by (rewrite map_length, Le; lia).
  rewrite (map_nth (fun t => t / total es)). f_equal. unfold jump_times.
  unfold jump_times in Le. rewrite map_length, seq_length in Le.
  rewrite (nth_indep _ 0 ((fun k => total (firstn k (removelast es))) 0%nat)) by (rewrite map_length, seq_length; lia).
  rewrite (map_nth (fun k => total (firstn k (removelast es)))). rewrite seq_nth by lia.
  unfold es. rewrite <- firstn_map. fold es. f_equal.
  assert (Ees : es = removelast es ++ [last es 0]).
  { apply app_removelast_last. unfold es. destruct us; [congruence|discriminate]. }
  rewrite Ees at 2. rewrite firstn_app. replace (S k - length (removelast es))%nat with 0%nat by lia.
  simpl. rewrite app_nil_r. reflexivity.
Qed.

End Y.

Lemma random_ecdf_length {N : num} n : forall r, length (fst (random_ecdf (N := N) n r)) = n.
Proof.
  intros r. unfold random_ecdf.
  assert (P : forall k a r, length (fst (fst (partial_sums (N := N) k a r))) = k).
  { induction k as [|k IH]; intros a r0; [reflexivity|]. cbn [partial_sums].
    destruct (generate_exponential n1 r0) as (e, r2). specialize (IH (n_add a e) r2).
    destruct (partial_sums k (n_add a e) r2) as ((l & la) & r3). cbn [fst length] in *. lia. }
  specialize (P n n0 r). destruct (partial_sums n n0 r) as ((l & la) & r3).
  destruct (generate_exponential n1 r3) as (e, r4). cbn [fst] in *. rewrite map_length. exact P.
Qed.

