(** * XEcdf1NewMain: the outcome of ecdf1_new_B and ecdf1_new_b in exact arithmetic. *)
From Flocq Require Import Core.Raux Core.Generic_fmt.
From Coq Require Import ZArith Reals List Bool Lia Lra String Permutation Sorted Factorial.
From Verif Require Import Base Num Hoare XReal RSum PoissonPmf Common FFTConv Ecdf1New XPmf.
From Verif Require Import Spec SpecFacts Cells Events XCommon XEcdf2 XEcdf2Main XFft NewMath XEcdf1New Reflect.
Import List.
Local Open Scope Z_scope.

(** dividing by the Poisson mass of n gives n! D *)
Lemma conditioning n d : xdiv (Fin (scale n 1 n * d)) (Fin (pois (rn n) n)) = Fin (INR (fact n) * d).
Proof.
  unfold xdiv. rewrite Req_bool_false_neq by apply pois_nn. f_equal.
  pose proof (pois_nn n) as Hp0.
  assert (Hsc : scale n 1 n = (pois (rn n) n * INR (fact n))%R).
  { rewrite pois_mono. unfold scale, mono. rewrite Rmult_1_r. field. apply fact_neq. }
  rewrite Hsc. field. exact Hp0.
Qed.

Section Main.
Context {frexp : xr -> Z} (E : env (Xnum frexp)).
Notation XN := (Xnum frexp).

Lemma jump_exact (n : nat) : (1 <= n)%nat -> Z.of_nat n <= INT_MAX ->
  exists k, @jump_size_for XN (Z.of_nat n) = Ok k /\ 1 <= k /\ ((2 <= n)%nat -> k <= Z.of_nat n) /\
    (n = 1%nat -> k = 2).
Proof.
  intros Hn Hmax. set (x := (sqrt (IZR (Z.of_nat n)) + 1)%R).
  assert (H1 : (1 <= IZR (Z.of_nat n))%R) by (apply IZR_le; lia).
  assert (Hsq : (1 <= sqrt (IZR (Z.of_nat n)))%R) by (rewrite <- sqrt_1 at 1; apply sqrt_le_1; lra).
  assert (Hss : (sqrt (IZR (Z.of_nat n)) * sqrt (IZR (Z.of_nat n)) = IZR (Z.of_nat n))%R) by (apply sqrt_sqrt; lra).
  assert (Hsn : (sqrt (IZR (Z.of_nat n)) <= IZR (Z.of_nat n))%R) by nra.
  exists (Zfloor x).
  assert (Hlo : 2 <= Zfloor x) by (apply Zfloor_lub; unfold x; simpl; lra).
  assert (Hhi : Zfloor x <= Z.of_nat n + 1).
  { apply le_IZR. eapply Rle_trans; [apply Zfloor_lb|]. unfold x. rewrite plus_IZR. lra. }
  assert (Hhi2 : (2 <= n)%nat -> Zfloor x <= Z.of_nat n).
  { intros H2. assert (2 <= IZR (Z.of_nat n))%R by (apply IZR_le; lia).
    assert (sqrt (IZR (Z.of_nat n)) < IZR (Z.of_nat n))%R by nra.
    assert (Zfloor x < Z.of_nat n + 1); [|lia].
    apply lt_IZR. eapply Rle_lt_trans; [apply Zfloor_lb|]. unfold x. rewrite plus_IZR. lra. }
  split; [|split; [lia|split; [exact Hhi2|lia]]].
  unfold jump_size_for.
  assert (Htr : n_trunc (n_add (n_sqrt (n_of_Z (Z.of_nat n))) n1 : car XN) = Some (Zfloor x)).
  { unfold n1. cbn [n_of_Z n_sqrt Xnum xsqrt]. rewrite Rlt_bool_false by lra.
    change (Some (Ztrunc x) = Some (Zfloor x)). f_equal. apply Ztrunc_floor. unfold x. lra. }
  rewrite Htr.
  destruct (Nat.le_gt_cases 2 n) as [H2|H2].
  - specialize (Hhi2 H2). unfold INT_MIN, INT_MAX in *.
    destruct (Z.leb_spec (- 2 ^ 31) (Zfloor x)), (Z.leb_spec (Zfloor x) (2 ^ 31 - 1)); cbn [andb]; auto; lia.
  - unfold INT_MIN, INT_MAX in *.
    destruct (Z.leb_spec (- 2 ^ 31) (Zfloor x)), (Z.leb_spec (Zfloor x) (2 ^ 31 - 1)); cbn [andb]; auto; lia.
Qed.

Lemma new_B_total (B : list R) : valid_boundary B -> fft_ok E ->
  (1 <= length B)%nat -> Z.of_nat (length B) <= INT_MAX -> (asserts E = true -> (2 <= length B)%nat) ->
  exists p, is_prob (length B) (noncrossing_B B) p /\
    ecdf1_new_B E (map Fin B) = Ok (Fin p).
Proof.
  intros HV HF Hn Hmax Ha.
  exists (INR (fact (length B)) * D 0 (length B) 0 0 (Bsteps B ++ [(1%R, END)]) (length B))%R.
  split; [apply prob_is_D_B; auto|].
  set (n := length B).
  enough (HT : total (ecdf1_new_B E (map Fin B)) (fun r => r = Fin (INR (fact n) * D 0 n 0 0 (Bsteps B ++ [(1%R, END)]) n))).
  { apply total_iff in HT. destruct HT as (a & -> & ->). reflexivity. }
  unfold total, ecdf1_new_B. rewrite size_BX. fold n.
  replace (Z.of_nat n) with (size B) at 1 by reflexivity. rewrite check_valid by auto. cbn [bind].
  destruct (jump_exact n Hn Hmax) as (k & -> & Hk & Hkn & _). cbn [bind].
  change (n_of_Z (Z.of_nat n)) with (Fin (rn n)).
  apply wp_bind. apply new_n2_ok; auto.
  intros probs Hs Hp.
  apply wp_bind, wp_rdx; [fold n in Hs; lia|]. fold n in Hp. rewrite Hp.
  apply wp_bind, wp_poisson_pmf; [lia|apply rn_pos|]. rewrite Nat2Z.id. apply wp_ok.
  unfold n. rewrite final_mass by reflexivity. apply conditioning.
Qed.

Lemma new_b_reflects (b : list R) : valid_boundary b ->
  ecdf1_new_b E (map Fin b) = ecdf1_new_B E (map Fin (reflect b)).
Proof.
  intros HV. unfold ecdf1_new_b. rewrite size_BX.
  replace (Z.of_nat (length b)) with (size b) at 1 by reflexivity. rewrite check_valid by auto. cbn [bind].
  set (n := length b). rewrite Z.sub_diag.
  assert (HT : total (for_ 0 (Z.of_nat n) (vec (Z.of_nat n) n0) (fun i st =>
             x <- rd (map Fin b : list (car XN)) (Z.of_nat n - 1 - i) ;; wr st i (n_sub n1 x)))
     (fun st => st = map Fin (reflect b))).
  { apply wp_for with (P := fun k st => @size (car XN) st = Z.of_nat n /\
      forall i, 0 <= i < k -> @get (car XN) (Fin 0) st i = Fin (1 - nth (n - 1 - Z.to_nat i) b 0%R)).
    - split; [rewrite size_vec; lia|lia].
    - intros k st Hk [Hs Hg]. apply wp_bind. apply wp_rd_B; [fold n; lia|]. apply wp_wr; [lia|].
      rewrite size_upd. split; auto. intros i Hi. rewrite get_upd by lia.
      destruct (Z.eqb_spec k i) as [->|]; [|apply Hg; lia].
      simpl n_sub. unfold Bf. do 4 f_equal. lia.
    - intros st [Hs Hg]. apply list_ext_get with (d := Fin 0 : car XN).
      + rewrite Hs. unfold size. rewrite map_length, reflect_length. reflexivity.
      + intros i Hi. rewrite Hg by lia. unfold get.
        change (car XN) with xr.
        rewrite (nth_indep (map Fin (reflect b)) (Fin 0) (Fin (1 - 0)%R)) by (rewrite map_length, reflect_length; fold n; lia).
        rewrite map_nth. f_equal. unfold reflect.
        change (1 - 0)%R with ((fun x => 1 - x)%R 0%R). rewrite map_nth. f_equal.
        rewrite rev_nth by (fold n; lia). fold n. f_equal. lia. }
  apply total_iff in HT. destruct HT as (a & -> & ->). reflexivity.
Qed.

Lemma new_b_total (b : list R) : valid_boundary b -> fft_ok E ->
  (1 <= length b)%nat -> Z.of_nat (length b) <= INT_MAX -> (asserts E = true -> (2 <= length b)%nat) ->
  exists p, is_prob (length b) (noncrossing_b b) p /\
    ecdf1_new_b E (map Fin b) = Ok (Fin p).
Proof.
  intros HV HF Hn Hmax Ha. rewrite new_b_reflects by auto.
  destruct (new_B_total (reflect b)) as (p & Hp & Heq); rewrite ?reflect_length in *; auto.
  { apply valid_reflect; auto. }
  exists p. split; [apply prob_b_reflect; exact Hp|exact Heq].
Qed.

(** with live assertions the single-element case aborts *)
Lemma new_B_one_aborts (B : list R) : valid_boundary B -> length B = 1%nat -> asserts E = true ->
  ecdf1_new_B E (map Fin B) = Abort "jump_size <= n".
Proof.
  intros HV Hn Ha. unfold ecdf1_new_B. rewrite size_BX.
  replace (Z.of_nat (length B)) with (size B) at 1 by reflexivity. rewrite check_valid by auto. cbn [bind].
  rewrite Hn. destruct (jump_exact 1) as (k & -> & _ & _ & Hk2); [lia|unfold INT_MAX; lia|]. cbn [bind].
  rewrite Hk2 by reflexivity. unfold poisson_B_noncrossing_probability_n2. rewrite Ha. reflexivity.
Qed.
End Main.
