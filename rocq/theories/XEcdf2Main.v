(** * XEcdf2Main: the outcome of ecdf2 in exact arithmetic. *)
From Flocq Require Import Core.Raux.
From Coq Require Import ZArith Reals List Bool Lia Lra String Permutation Sorted Factorial.
From Verif Require Import Base Num Hoare XReal RSum PoissonPmf Common FFTConv Ecdf2 XPmf.
From Verif Require Import Spec SpecFacts Cells Events XCommon XEcdf2.
Local Open Scope Z_scope.

(** some B_{i+1} < b_i (0-based i): no sample can stay inside *)
Definition bad_pair (b B : list R) : Prop :=
  exists i, (S i < List.length b)%nat /\ (nth (S i) B 0 < nth i b 0)%R.

Lemma split_first {A} (P : A -> bool) l : (exists x, In x l /\ P x = true) ->
  exists p1 x p2, l = p1 ++ x :: p2 /\ Forall (fun y => P y = false) p1 /\ P x = true.
Proof.
  induction l as [|a l IH]; intros (x & Hx & HP); [destruct Hx|].
  destruct (P a) eqn:Ea.
  - exists [], a, l. repeat split; auto.
  - destruct Hx as [->|Hx]; [congruence|].
    destruct IH as (p1 & y & p2 & -> & H1 & H2); [eauto|].
    exists (a :: p1), y, p2. repeat split; auto.
Qed.

Lemma loc_sorted_app_inv l1 x l2 : loc_sorted (l1 ++ x :: l2) ->
  Forall (fun y => fst y <= fst x)%R l1 /\ Forall (fun y => fst x <= fst y)%R l2.
Proof.
  unfold loc_sorted. induction l1 as [|a l1 IH]; simpl; intros H; inversion H; subst.
  - split; auto.
  - destruct (IH H2) as [H4 H5]. split; auto. constructor; auto.
    apply Forall_app in H3. destruct H3 as [_ H3]. inversion H3; auto.
Qed.

Lemma end_of_le c l : (0 <= c)%R -> Forall (fun y => fst y <= c)%R l -> (end_of 0 l <= c)%R.
Proof.
  intros Hc H. destruct l as [|x l _] using rev_ind; [exact Hc|]. rewrite end_of_snoc.
  apply Forall_app in H. destruct H as [_ H]. inversion H; auto.
Qed.

Lemma end_of_ge l : loc_sorted l -> Forall (fun y => fst y <= end_of 0 l)%R l.
Proof.
  intros H. destruct l as [|x l _] using rev_ind; [constructor|]. rewrite end_of_snoc.
  apply loc_sorted_app_inv in H. destruct H as [H _].
  apply Forall_app; split; auto. constructor; [lra|constructor].
Qed.

(** counting breakpoints up to c through a split of the arranged list *)
Lemma count_split b B bs p1 x p2 (Pb : R -> bool) :
  arranged b B bs -> bs ++ [(1%R, END)] = p1 ++ x :: p2 ->
  Forall (fun s => Pb (fst s) = true) p1 -> Forall (fun s => Pb (fst s) = false) (x :: p2) ->
  count Pb b = count_b p1 /\ count Pb B = count_B p1.
Proof.
  intros HA Hsp H1 H2.
  assert (HF : forall Q : R * bound_tag -> bool, Q (1%R, END) = false ->
     (List.length (filter (fun y => Pb y && Q (y, bSTEP)) b) +
      List.length (filter (fun y => Pb y && Q (y, BSTEP)) B))%nat = List.length (filter Q p1)).
  { intros Q HQ.
    pose proof (arranged_filter b B bs (fun s => Pb (fst s) && Q s) HA) as HF.
    simpl in HF. rewrite HQ, andb_false_r in HF. specialize (HF eq_refl). rewrite <- HF, Hsp.
    rewrite filter_app, app_length.
    assert (List.length (filter (fun s => Pb (fst s) && Q s) (x :: p2)) = 0%nat) as ->.
    { clear - H2. induction H2 as [|y l Hy H IH]; auto. cbn [filter]. rewrite Hy. exact IH. }
    rewrite Nat.add_0_r. f_equal. apply filter_ext_in. intros s Hs.
    rewrite Forall_forall in H1. rewrite H1 by auto. reflexivity. }
  unfold count, count_b, count_B. split.
  - specialize (HF (fun s => match snd s with bSTEP => true | _ => false end) eq_refl). simpl in HF.
    rewrite <- HF. rewrite (filter_false _ B) by (intros; apply andb_false_r).
    rewrite Nat.add_0_r. f_equal. apply filter_ext. intros; symmetry; apply andb_true_r.
  - specialize (HF (fun s => match snd s with BSTEP => true | _ => false end) eq_refl). simpl in HF.
    rewrite <- HF. rewrite (filter_false _ b) by (intros; apply andb_false_r).
    simpl. f_equal. apply filter_ext. intros; symmetry; apply andb_true_r.
Qed.

Section Bad.
Variables (b B : list R) (bs : list (R * bound_tag)).
Hypothesis Hb : valid_boundary b.
Hypothesis HB : valid_boundary B.
Hypothesis Hlen : List.length b = List.length B.
Hypothesis HA : arranged b B bs.

Lemma gap_bad p1 x p2 : bs ++ [(1%R, END)] = p1 ++ x :: p2 ->
  (end_of 0 p1 < fst x)%R -> (count_b p1 + 1 < count_B p1)%nat -> bad_pair b B.
Proof.
  intros Hsp Hgap Hc.
  pose proof (arranged_sorted_end _ _ _ HA Hb HB) as HS. rewrite Hsp in HS.
  pose proof (loc_sorted_app_inv _ _ _ HS) as [_ Hr].
  assert (HS1 : loc_sorted p1).
  { clear - HS. unfold loc_sorted in *. induction p1 as [|a p1 IH]; [constructor|].
    simpl in HS. inversion HS; subst. constructor; auto. apply Forall_app in H2. tauto. }
  pose proof (end_of_ge _ HS1) as Hl.
  set (c := ((end_of 0 p1 + fst x) / 2)%R).
  destruct (count_split b B bs p1 x p2 (fun y => Rlt_bool y c) HA Hsp) as [H1 H2].
  { eapply Forall_impl; [|exact Hl]. simpl. intros a Ha. apply Rlt_bool_true. unfold c. lra. }
  { constructor.
    - apply Rlt_bool_false. unfold c. lra.
    - eapply Forall_impl; [|exact Hr]. simpl. intros a Ha. apply Rlt_bool_false. unfold c. lra. }
  pose proof (count_le_length (fun y => Rlt_bool y c) B).
  destruct Hb as [Hsb _]. destruct HB as [HsB _]. apply Sorted_strong in Hsb. apply Sorted_strong in HsB.
  exists (count_b p1). split; [lia|].
  pose proof (nth_lt_count B HsB (S (count_b p1)) c ltac:(lia)) as HN1.
  pose proof (nth_lt_count b Hsb (count_b p1) c ltac:(lia)) as HN2.
  assert (nth (S (count_b p1)) B 0 < c)%R by (apply HN1; lia).
  destruct (Rlt_or_le (nth (count_b p1) b 0%R) c) as [H'|H']; [|lra].
  apply HN2 in H'. lia.
Qed.

Lemma bad_gap : bad_pair b B -> exists p1 x p2, bs ++ [(1%R, END)] = p1 ++ x :: p2 /\
  (end_of 0 p1 < fst x)%R /\ (count_b p1 + 1 < count_B p1)%nat.
Proof.
  intros (i & Hi & Hlt). set (c := nth (S i) B 0%R) in *.
  assert (Hc0 : (0 <= c)%R).
  { destruct HB as [_ HF]. rewrite Forall_forall in HF. apply HF. apply nth_In. lia. }
  destruct (split_first (fun s => Rlt_bool c (fst s)) (bs ++ [(1%R, END)])) as (p1 & x & p2 & Hsp & H1 & H2).
  { exists (nth i b 0%R, bSTEP). split.
    - apply in_or_app. left. eapply Permutation_in; [apply (proj1 HA)|].
      apply in_or_app. left. apply in_map_iff. exists (nth i b 0%R). split; auto. apply nth_In. lia.
    - simpl. apply Rlt_bool_true. exact Hlt. }
  exists p1, x, p2. split; auto. apply Rlt_bool_iff in H2.
  assert (H1' : Forall (fun y => (fst y <= c)%R) p1).
  { eapply Forall_impl; [|exact H1]. simpl. intros a Ha. apply Rlt_bool_niff in Ha. exact Ha. }
  split; [eapply Rle_lt_trans; [apply end_of_le; [exact Hc0|exact H1']|exact H2]|].
  pose proof (arranged_sorted_end _ _ _ HA Hb HB) as HS. rewrite Hsp in HS.
  pose proof (loc_sorted_app_inv _ _ _ HS) as [_ Hr].
  destruct (count_split b B bs p1 x p2 (fun y => Rle_bool y c) HA Hsp) as [E1 E2].
  { eapply Forall_impl; [|exact H1']. simpl. intros a Ha. apply Rle_bool_true. exact Ha. }
  { constructor.
    - apply Rle_bool_false. exact H2.
    - eapply Forall_impl; [|exact Hr]. simpl. intros a Ha. apply Rle_bool_false. lra. }
  destruct Hb as [Hsb _]. destruct HB as [HsB _]. apply Sorted_strong in Hsb. apply Sorted_strong in HsB.
  pose proof (nth_le_count B HsB (S i) c ltac:(lia)) as HN1.
  pose proof (nth_le_count b Hsb i c ltac:(lia)) as HN2.
  assert (S i < count_B p1)%nat by (rewrite <- E2; apply HN1; unfold c; lra).
  assert (~ (i < count_b p1)%nat) by (rewrite <- E1; intros H'; apply HN2 in H'; lra).
  lia.
Qed.
End Bad.

Section Main.
Context {frexp : xr -> Z} (E : env (Xnum frexp)).
Notation XN := (Xnum frexp).
Notation gx := (@get (car XN) (Fin 0)).

(** ** Sorting *)
Lemma bound_lt_fin (x y : bound XN) : bd_fin x -> bd_fin y ->
  bound_lt x y = Rlt_bool (fst (tor x)) (fst (tor y)).
Proof. intros Hx Hy. unfold bound_lt. rewrite Hx, Hy. reflexivity. Qed.

Lemma swo_fin (l : list (bound XN)) : Forall bd_fin l -> strict_weak_order_on l = true.
Proof.
  intros HF. unfold strict_weak_order_on. rewrite Forall_forall in HF.
  apply forallb_forall. intros x Hx. apply andb_true_intro. split.
  - rewrite bound_lt_fin by auto. rewrite Rlt_bool_false by lra. reflexivity.
  - apply forallb_forall. intros y Hy. apply forallb_forall. intros z Hz.
    rewrite !bound_lt_fin by auto.
    generalize (fst (tor x)) (fst (tor y)) (fst (tor z)). intros a c d.
    destruct (Rlt_bool_spec a c), (Rlt_bool_spec c d), (Rlt_bool_spec a d),
      (Rlt_bool_spec c a), (Rlt_bool_spec d c), (Rlt_bool_spec d a); simpl; auto; lra.
Qed.

Lemma join_all_bounds_ok (b B : list R) : sort_ok E ->
  exists l bs, join_all_bounds E (map Fin b) (map Fin B) = Ok (l ++ [mkBound n1 END]) /\
    Forall bd_fin l /\ map tor l = bs /\ arranged b B bs.
Proof.
  intros Hs. unfold join_all_bounds, std_sort.
  set (l0 := (map (fun x : car XN => mkBound x bSTEP) (map Fin b) ++
              map (fun x : car XN => mkBound x BSTEP) (map Fin B))).
  assert (HF : Forall bd_fin l0).
  { apply Forall_app. split; apply Forall_map, Forall_map, Forall_forall; reflexivity. }
  pose proof (swo_fin l0 HF) as Hswo. rewrite Hswo. cbn [bind].
  destruct (Hs l0 Hswo) as [HP HSt].
  exists (sort_bounds E l0), (map tor (sort_bounds E l0)).
  assert (HF' : Forall bd_fin (sort_bounds E l0)) by (eapply Permutation_Forall; eassumption).
  repeat split; auto.
  - apply (Permutation_map tor) in HP.
    replace (map (fun x => (x, bSTEP)) b ++ map (fun x => (x, BSTEP)) B) with (map tor l0); [exact HP|].
    unfold l0. rewrite map_app, !map_map. reflexivity.
  - unfold loc_sorted. clear - HSt HF'.
    induction HSt as [|x l HSt IH Hx]; [constructor|]. inversion HF'; subst.
    cbn [map]. constructor; auto. apply Forall_map.
    rewrite Forall_forall in *. intros y Hy. specialize (Hx y Hy).
    rewrite bound_lt_fin in Hx by auto. apply Rlt_bool_niff in Hx. exact Hx.
Qed.

(** ** The whole function *)
Definition fft_spec (n : nat) (abt : Prop) (FI : fftconv XN -> Prop) : Prop :=
  FI (fftconv_make E (Z.of_nat n + 1)) /\
  forall f sz (s0 : list (car XN)) o0 (s1 : list (car XN)) o1 (dest : list (car XN)) od
         (fn gn : nat -> R) (Q : fftconv XN * list (car XN) -> Prop),
  FI f -> sz <= Z.of_nat n + 1 ->
  (0 < sz -> 0 <= o0 /\ o0 + sz <= size s0 /\ 0 <= o1 /\ o1 + sz <= size s1 /\ 0 <= od /\ od + sz <= size dest) ->
  (forall k, 0 <= k < sz -> gx s0 (o0 + k) = Fin (fn (Z.to_nat k))) ->
  (forall k, 0 <= k < sz -> gx s1 (o1 + k) = Fin (gn (Z.to_nat k))) ->
  (forall f' dest', FI f' -> size dest' = size dest ->
     (forall i, 0 <= i -> gx dest' i =
        if (od <=? i) && (i <? od + sz) then Fin (conv fn gn (Z.to_nat (i - od))) else gx dest i) ->
     Q (f', dest')) ->
  wp (fun _ => False) abt (fft_convolve_same_size E f sz s0 o0 s1 o1 dest od) Q.

Lemma pois_nn n : pois (rn n) n <> 0%R.
Proof.
  rewrite pois_mono. unfold mono. destruct n as [|n].
  - rewrite Rmult_comm. simpl. unfold rn. simpl. rewrite Ropp_0, exp_0. lra.
  - apply Rmult_integral_contrapositive_currified; [apply Rgt_not_eq, exp_pos|].
    apply Rmult_integral_contrapositive_currified; [|apply Rinv_neq_0_compat, fact_neq].
    apply pow_nonzero. unfold rn. apply IZR_neq. lia.
Qed.

Lemma ecdf2_wp (b B : list R) use_fft (FI : fftconv XN -> Prop) :
  valid_boundary b -> valid_boundary B -> List.length b = List.length B -> sort_ok E ->
  (use_fft = true -> fft_spec (List.length b) (asserts E = true /\ bad_pair b B) FI) ->
  exists p, is_noncrossing_probability b B p /\
    wp (fun _ => False) (asserts E = true /\ bad_pair b B) (ecdf2 E (map Fin b) (map Fin B) use_fft)
      (fun r => r = Fin p /\ (asserts E = true -> ~ bad_pair b B)).
Proof.
  intros Hb HB Hlen Hsort Hfft.
  destruct (join_all_bounds_ok b B Hsort) as (l & bs & Hjoin & Hlf & Hlbs & HA).
  exists (INR (fact (List.length b)) * D 0 0 0 0 (bs ++ [(1%R, END)]) (List.length b))%R.
  split; [apply prob_is_D; auto|].
  set (n := List.length b) in *. set (D0 := D 0 0 0 0 (bs ++ [(1%R, END)]) n).
  set (FI' := fun f => use_fft = true -> FI f).
  assert (Hszb : @size (car XN) (map Fin b) = Z.of_nat n) by (unfold size; rewrite map_length; reflexivity).
  unfold ecdf2. rewrite Hszb.
  replace (Z.of_nat n) with (size b) at 1 by reflexivity. rewrite check_valid by auto. cbn [bind].
  replace (Z.of_nat n) with (size B) at 1 by (unfold size; rewrite <- Hlen; reflexivity).
  rewrite check_valid by auto. cbn [bind].
  apply wp_bind. unfold poisson_process_noncrossing_probability. rewrite Hjoin. cbn [bind].
  assert (Hsz0 : @size (car XN) (get_src (dbuf_make (Z.of_nat n + 1) n0)) = Z.of_nat n + 1)
    by (unfold get_src, dbuf_make; simpl; rewrite size_vec; lia).
  apply wp_bind, wp_wr; [lia|].
  apply wp_bind, wp_pmfgen_make; [lia|]. intros g Hg.
  set (bds := l ++ [mkBound (n1 : car XN) END]).
  assert (Hmt : map tor bds = bs ++ [(1%R, END)]).
  { unfold bds. rewrite map_app, Hlbs. reflexivity. }
  assert (Hfin : Forall bd_fin bds).
  { apply Forall_app. split; auto. constructor; [reflexivity|constructor]. }
  pose proof (arranged_sorted_end _ _ _ HA Hb HB) as HS.
  pose proof (arranged_range _ _ _ HA Hb HB) as HR.
  pose proof (count_b_arranged _ _ _ HA) as Hcb. pose proof (count_B_arranged _ _ _ HA) as HcB.
  change (n_of_Z (Z.of_nat n)) with (Fin (rn n)).
  apply wp_bind. apply wp_for_each with (P := fun pre s =>
     forall post, bds = pre ++ post -> inv E n FI' D0 pre post s).
  - (* initially *)
    intros post Hpost. simpl in Hpost. subst post.
    constructor; cbn [e2_b e2_B e2_prev e2_pmf e2_fft e2_buffers]; auto.
    + intros Huf. destruct (Hfft Huf) as [H _]. exact H.
    + rewrite get_src_set_src, size_upd. exact Hsz0.
    + intros _ _ p1 x p2 Heq. destruct p1; discriminate.
    + exists (fun o => if (o =? 0)%nat then 1%R else 0%R). unfold count_b, count_B; cbn [map filter List.length end_of].
      split; [intros o Ho; destruct (Nat.eqb_spec o 0); auto; lia|].
      split.
      * intros o Ho. assert (o = 0)%nat as -> by lia. rewrite get_src_set_src.
        simpl (Z.of_nat 0). rewrite get_upd by lia. simpl. f_equal. unfold scale. simpl.
        rewrite Rmult_0_r, Ropp_0, exp_0. ring.
      * rewrite (rsum_single (S n) 0); [|lia|].
        -- rewrite Hmt, Nat.sub_0_r. simpl. rewrite Rmult_1_l. reflexivity.
        -- intros i Hi Hne. destruct (Nat.eqb_spec i 0); [congruence|ring].
  - (* step *)
    intros pre x post s Hsp Hinv.
    eapply wp_mono.
    + apply (step_ok E n use_fft FI') with (D0 := D0) (pre := pre) (post := post).
      * intros Huf f sz s0 o0 s1 o1 dest od fn gn Q HF Hsz Hbd H0 H1 HQ.
        destruct (Hfft Huf) as [_ Hspec].
        eapply (Hspec f sz s0 o0 s1 o1 dest od fn gn); auto.
        intros f' dest' HF'. apply HQ. intros _; exact HF'.
      * rewrite <- Hsp. exact Hfin.
      * rewrite <- Hsp, Hmt. exact HS.
      * rewrite <- Hsp, Hmt. apply Forall_app. split.
        -- eapply Forall_impl; [|exact HR]. simpl. intros; lra.
        -- constructor; [simpl; lra|constructor].
      * rewrite <- Hsp, Hmt. fold n in Hcb. lia.
      * rewrite <- Hsp, Hmt. fold n in Hlen. lia.
      * intros Hn0 HE Hgap Hcnt. split; auto.
        eapply (gap_bad b B bs Hb HB Hlen HA (map tor pre) (tor x) (map tor post)); eauto.
        rewrite <- Hmt, Hsp, map_app. reflexivity.
      * apply Hinv. exact Hsp.
    + cbv beta. intros t Ht post' Hpost'.
      assert (post' = post) as ->; [|exact Ht].
      rewrite Hsp, <- app_assoc in Hpost'. apply app_inv_head in Hpost'. simpl in Hpost'. congruence.
  - (* end *)
    intros s Hs. specialize (Hs [] (eq_sym (app_nil_r _))).
    destruct Hs as [Hb' HB' Hprev Hpmf HF Hsrc Hdest Hwide (u & Hu0 & Hu & Hsum)].
    rewrite Hmt in *. fold n in Hcb. rewrite Hcb in *.
    assert (HcB' : count_B (bs ++ [(1%R, END)]) = n) by (fold n in Hlen; lia).
    rewrite HcB' in *. rewrite end_of_app in *.
    assert (Hun : u n = D0).
    { rewrite <- Hsum, (rsum_single (S n) n); [|lia|].
      - simpl. rewrite Nat.sub_diag. simpl. ring.
      - intros i Hi Hne. rewrite (Hu0 i) by lia. ring. }
    unfold zn in *. apply wp_ok. apply wp_bind, wp_rdx; [lia|]. rewrite Hu by lia. rewrite Hun.
    apply wp_bind, wp_poisson_pmf; [lia|apply IZR_le; lia|]. rewrite Nat2Z.id. apply wp_ok.
    split.
    + simpl n_div. unfold xdiv. rewrite Req_bool_false_neq by apply pois_nn. f_equal.
      pose proof (pois_nn n) as Hp0. fold (rn n).
      assert (Hsc : scale n 1 n = (pois (rn n) n * INR (fact n))%R).
      { rewrite pois_mono. unfold scale, mono. rewrite Rmult_1_r. field. apply fact_neq. }
      rewrite Hsc. field. exact Hp0.
    + intros HE Hbad. destruct (Nat.eq_dec n 0) as [H0|H0].
      * destruct Hbad as (i & Hi & _). fold n in Hi. lia.
      * destruct (bad_gap b B bs Hb HB Hlen HA Hbad) as (p1 & x & p2 & Hsp & Hgap & Hcnt).
        pose proof (Hwide ltac:(lia) HE p1 x p2 Hsp Hgap). lia.
Qed.

(** without FFT there is nothing to assume *)
Lemma ecdf2_wp_direct (b B : list R) :
  valid_boundary b -> valid_boundary B -> List.length b = List.length B -> sort_ok E ->
  exists p, is_noncrossing_probability b B p /\
    wp (fun _ => False) (asserts E = true /\ bad_pair b B) (ecdf2 E (map Fin b) (map Fin B) false)
      (fun r => r = Fin p /\ (asserts E = true -> ~ bad_pair b B)).
Proof. intros. apply (ecdf2_wp b B false (fun _ => True)); auto. discriminate. Qed.
End Main.
