(** * SafeEcdf2: control flow and memory accesses of ecdf2 for every floating-point type. *)
From Coq Require Import ZArith List Bool Lia String Permutation Sorted.
From Verif Require Import Base Num Hoare Common PoissonPmf FFTConv Ecdf2 SafeFft.
Import List.
Local Open Scope Z_scope.

Definition is_b (t : bound_tag) : bool := match t with bSTEP => true | _ => false end.
Definition is_B (t : bound_tag) : bool := match t with BSTEP => true | _ => false end.

Section Count.
Context {N : num}.
Definition nb (l : list (bound N)) : Z := Z.of_nat (List.length (filter (fun x => is_b (tag x)) l)).
Definition nB (l : list (bound N)) : Z := Z.of_nat (List.length (filter (fun x => is_B (tag x)) l)).
Definition prevl (l : list (bound N)) : car N := last (map location l) n0.

Lemma nb_app l l' : nb (l ++ l') = nb l + nb l'.
Proof. unfold nb. rewrite filter_app, app_length. lia. Qed.
Lemma nB_app l l' : nB (l ++ l') = nB l + nB l'.
Proof. unfold nB. rewrite filter_app, app_length. lia. Qed.
Lemma nb_one x : nb [x] = if is_b (tag x) then 1 else 0.
Proof. unfold nb. simpl. destruct (is_b (tag x)); reflexivity. Qed.
Lemma nB_one x : nB [x] = if is_B (tag x) then 1 else 0.
Proof. unfold nB. simpl. destruct (is_B (tag x)); reflexivity. Qed.
Lemma nb_nonneg l : 0 <= nb l. Proof. unfold nb; lia. Qed.
Lemma nB_nonneg l : 0 <= nB l. Proof. unfold nB; lia. Qed.
Lemma filter_perm_len {A} (p : A -> bool) l l' : Permutation l l' -> List.length (filter p l) = List.length (filter p l').
Proof.
  induction 1 as [|x l l' H IH|x y l|l l' l'' H1 IH1 H2 IH2]; simpl; auto.
  - destruct (p x); simpl; auto.
  - destruct (p x), (p y); reflexivity.
  - congruence.
Qed.
Lemma nb_perm l l' : Permutation l l' -> nb l = nb l'.
Proof. intros H. unfold nb. rewrite (filter_perm_len _ _ _ H). reflexivity. Qed.
Lemma nB_perm l l' : Permutation l l' -> nB l = nB l'.
Proof. intros H. unfold nB. rewrite (filter_perm_len _ _ _ H). reflexivity. Qed.
Lemma nb_joined (b B : list (car N)) :
  nb (map (fun x => mkBound x bSTEP) b ++ map (fun x => mkBound x BSTEP) B) = size b.
Proof.
  rewrite nb_app. unfold nb, size.
  replace (filter (fun x => is_b (tag x)) (map (fun x : car N => mkBound x BSTEP) B)) with (@nil (bound N))
    by (induction B; simpl; auto).
  replace (filter (fun x => is_b (tag x)) (map (fun x : car N => mkBound x bSTEP) b)) with (map (fun x : car N => mkBound x bSTEP) b)
    by (induction b; simpl; congruence).
  rewrite map_length. simpl. lia.
Qed.
Lemma nB_joined (b B : list (car N)) :
  nB (map (fun x => mkBound x bSTEP) b ++ map (fun x => mkBound x BSTEP) B) = size B.
Proof.
  rewrite nB_app. unfold nB, size.
  replace (filter (fun x => is_B (tag x)) (map (fun x : car N => mkBound x bSTEP) b)) with (@nil (bound N))
    by (induction b; simpl; auto).
  replace (filter (fun x => is_B (tag x)) (map (fun x : car N => mkBound x BSTEP) B)) with (map (fun x : car N => mkBound x BSTEP) B)
    by (induction B; simpl; congruence).
  rewrite map_length. simpl. lia.
Qed.
Lemma prevl_snoc l x : prevl (l ++ [x]) = location x.
Proof. unfold prevl. rewrite map_app. simpl. apply last_last. Qed.

Lemma get_src_set_src (d : dbuf N) v : get_src (set_src d v) = v.
Proof. unfold get_src, set_src. destruct (buf0_is_src d); reflexivity. Qed.
Lemma get_dest_set_src (d : dbuf N) v : get_dest (set_src d v) = get_dest d.
Proof. unfold get_dest, set_src. destruct (buf0_is_src d); reflexivity. Qed.
Lemma get_src_set_dest (d : dbuf N) v : get_src (set_dest d v) = get_src d.
Proof. unfold get_src, set_dest. destruct (buf0_is_src d); reflexivity. Qed.
Lemma get_dest_set_dest (d : dbuf N) v : get_dest (set_dest d v) = v.
Proof. unfold get_dest, set_dest. destruct (buf0_is_src d); reflexivity. Qed.
Lemma get_src_flip (d : dbuf N) : get_src (flip d) = get_dest d.
Proof. unfold get_dest, get_src, flip. simpl. destruct (buf0_is_src d); reflexivity. Qed.
Lemma get_dest_flip (d : dbuf N) : get_dest (flip d) = get_src d.
Proof. unfold get_dest, get_src, flip. simpl. destruct (buf0_is_src d); reflexivity. Qed.
Lemma get_src_make n (v : car N) : get_src (dbuf_make n v) = vec n v.
Proof. reflexivity. Qed.
Lemma get_dest_make n (v : car N) : get_dest (dbuf_make n v) = vec n v.
Proof. reflexivity. Qed.
End Count.

Section SafeEcdf2.
Context {N : num} (E : env N).
Notation T := (car N).

(** check_boundary_vector accepts or throws its three messages; it never aborts *)
Lemma check_cases name n (v : list T) :
  check_boundary_vector name n v = Ok tt /\ size v = n \/ exists s, check_boundary_vector name n v = Throw (RuntimeError s).
Proof.
  unfold check_boundary_vector. destruct (Z.eqb_spec (size v) n) as [Hn|Hn]; simpl; [|eauto].
  destruct (is_monotone_increasing v); simpl; [|eauto].
  destruct (Z.ltb_spec 0 (size v)) as [Hs|Hs]; [|auto].
  unfold front, back. rewrite !(rd_get n0) by lia. simpl.
  destruct (n_lt (get n0 v 0) n0); [eauto|].
  destruct (n_lt n1 (get n0 v (size v - 1))); [eauto|auto].
Qed.

Context {thr : exn -> Prop} {abt : Prop}.
Notation WP := (wp thr abt).
Variables (n : Z) (intensity : T) (bounds : list (bound N)) (use_fft : bool).
Hypothesis Hn : 0 <= n.
Hypothesis Hnb : nb bounds = n.
Hypothesis HnB : nB bounds = n.
Hypothesis Hfft : use_fft = true -> fft_lengths E.

Definition lam (pre : list (bound N)) (x : bound N) : T :=
  n_mul intensity (n_sub (location x) (prevl pre)).

(** the two ways an iteration can fail *)
Hypothesis Hthr : forall pre x post, bounds = pre ++ x :: post ->
  n_lt n0 (lam pre x) = false -> n_eq (lam pre x) n0 = false -> thr (RuntimeError msg_lambda).
Hypothesis Hthr2 : forall pre x post, bounds = pre ++ x :: post ->
  n_lt n0 (lam pre x) = true -> n_lt (lam pre x) n0 = true -> thr (RuntimeError msg_compute_array).
Hypothesis Habt : forall pre x post, bounds = pre ++ x :: post ->
  n_lt n0 (lam pre x) = true -> asserts E = true -> nb pre - nB pre + 1 < 0 -> abt.

Record e2_shape (pre : list (bound N)) (s : e2state N) : Prop := mkShape {
  sh_src : size (get_src (e2_buffers s)) = n + 1;
  sh_dest : size (get_dest (e2_buffers s)) = n + 1;
  sh_fft : fft_shape (n + 1) (e2_fft s);
  sh_pmf : pg_shape (n + 1) (e2_pmf s);
  sh_b : e2_b s = nb pre;
  sh_B : e2_B s = nB pre;
  sh_prev : e2_prev s = prevl pre
}.

Lemma sh_update pre x post dest b B (Q : list T * Z * Z -> Prop) :
  bounds = pre ++ x :: post -> size dest = n + 1 -> b = nb pre -> B = nB pre ->
  (forall dest', size dest' = n + 1 -> Q (dest', nb (pre ++ [x]), nB (pre ++ [x]))) ->
  WP (update_dest_buffer_and_step_counts (tag x) dest b B) Q.
Proof.
  intros Hbd Hs -> -> HQ.
  assert (H1 : nb (pre ++ [x]) <= n).
  { rewrite <- Hnb, Hbd. change (pre ++ x :: post) with (pre ++ [x] ++ post). rewrite app_assoc, (nb_app (pre ++ [x])).
    pose proof (nb_nonneg post). lia. }
  assert (H2 : nB (pre ++ [x]) <= n).
  { rewrite <- HnB, Hbd. change (pre ++ x :: post) with (pre ++ [x] ++ post). rewrite app_assoc, (nB_app (pre ++ [x])).
    pose proof (nB_nonneg post). lia. }
  rewrite nb_app, nB_app, nb_one, nB_one in *.
  pose proof (nb_nonneg pre). pose proof (nB_nonneg pre).
  unfold update_dest_buffer_and_step_counts. destruct (tag x); simpl is_b in *; simpl is_B in *; cbv iota in *.
  - apply wp_bind, wp_wr; [lia|]. apply wp_ok. rewrite Z.add_0_r in HQ. apply HQ. rewrite size_upd; exact Hs.
  - apply wp_bind, wp_wr; [lia|]. apply wp_ok. rewrite Z.add_0_r in HQ. apply HQ. rewrite size_upd; exact Hs.
  - apply wp_ok. rewrite !Z.add_0_r in HQ. apply HQ. exact Hs.
Qed.

Lemma sh_step pre x post s : bounds = pre ++ x :: post -> e2_shape pre s ->
  WP (e2_step E intensity use_fft x s) (e2_shape (pre ++ [x])).
Proof.
  intros Hbd [Hs1 Hs2 Hf Hp Hb HB Hv].
  assert (H1 : nb pre <= n) by (rewrite <- Hnb, Hbd, nb_app; pose proof (nb_nonneg (x :: post)); lia).
  assert (H2 : nB pre <= n) by (rewrite <- HnB, Hbd, nB_app; pose proof (nB_nonneg (x :: post)); lia).
  pose proof (nb_nonneg pre) as H3. pose proof (nB_nonneg pre) as H4.
  unfold e2_step. rewrite Hv. change (n_mul intensity (n_sub (location x) (prevl pre))) with (lam pre x).
  destruct (n_lt n0 (lam pre x)) eqn:El.
  - apply wp_bind. apply sh_compute_array with (mk := n + 1); auto; try lia.
    { rewrite Hb, HB. intros HE Hk. eapply Habt; eauto. }
    { intros Hlt. eapply Hthr2; eauto. }
    intros _ g Hg. cbv zeta.
    apply wp_bind, wp_addr; [rewrite HB; lia|]. apply wp_bind, wp_addr; [rewrite HB; lia|].
    assert (Hrange : 0 < e2_b s - e2_B s + 1 -> 0 <= 0 /\ 0 + (e2_b s - e2_B s + 1) <= size (get_array g) /\
       0 <= e2_B s /\ e2_B s + (e2_b s - e2_B s + 1) <= size (get_src (e2_buffers s)) /\
       0 <= e2_B s /\ e2_B s + (e2_b s - e2_B s + 1) <= size (get_dest (e2_buffers s))).
    { intros Hpos. destruct Hg as (_ & _ & Hg3). unfold get_array. lia. }
    assert (Hcont : forall f' dest', fft_shape (n + 1) f' -> size dest' = n + 1 ->
      WP (u <- update_dest_buffer_and_step_counts (tag x) (snd (f', dest')) (e2_b s) (e2_B s) ;;
          let '(dest, b', B') := u in
          Ok (mkE2 (flip (set_dest (e2_buffers s) dest)) (fst (f', dest')) g b' B' (location x))) (e2_shape (pre ++ [x]))).
    { intros f' dest' Hf' Hd'. apply wp_bind. eapply sh_update; eauto. intros d2 Hd2. apply wp_ok.
      constructor; cbn [e2_b e2_B e2_prev e2_pmf e2_fft e2_buffers fst snd];
        rewrite ?get_src_flip, ?get_dest_flip, ?get_dest_set_dest, ?get_src_set_dest, ?prevl_snoc; auto. }
    destruct use_fft eqn:Eu.
    + apply wp_bind. apply sh_fft_convolve with (m := n + 1); auto; try lia.
      intros f' d' Hf' Hd'. apply Hcont; auto. lia.
    + apply wp_bind, wp_bind. apply sh_convolve; auto. intros d' Hd'. apply wp_ok. apply Hcont; auto. lia.
  - destruct (n_eq (lam pre x) n0) eqn:Ee.
    + apply wp_bind. eapply sh_update; eauto. intros d2 Hd2. apply wp_ok.
      constructor; cbn [e2_b e2_B e2_prev e2_pmf e2_fft e2_buffers];
        rewrite ?get_src_set_src, ?get_dest_set_src, ?prevl_snoc; auto.
    + exact (Hthr _ _ _ Hbd El Ee).
Qed.

Lemma sh_loop g (Q : e2state N -> Prop) : pg_shape (n + 1) g ->
  (forall s, e2_shape bounds s -> Q s) ->
  forall src, size src = n + 1 ->
  WP (for_each bounds (mkE2 (set_src (dbuf_make (n + 1) n0) src) (fftconv_make E (n + 1)) g 0 0 n0)
        (e2_step E intensity use_fft)) Q.
Proof.
  intros Hg HQ src Hsrc. apply wp_for_each with (P := e2_shape); auto.
  - constructor; cbn [e2_b e2_B e2_prev e2_pmf e2_fft e2_buffers]; auto.
    + rewrite get_dest_set_src, get_dest_make, size_vec. lia.
    + apply fft_shape_make. lia.
  - intros pre x post s Hbd Hs. eapply sh_step; eauto.
Qed.
End SafeEcdf2.

Section Main.
Context {N : num} (E : env N).
Notation T := (car N).
Definition joined (b B : list T) : list (bound N) :=
  map (fun x => mkBound x bSTEP) b ++ map (fun x => mkBound x BSTEP) B.
Definition swept (b B : list T) : list (bound N) := sort_bounds E (joined b B) ++ [mkBound n1 END].

Lemma swept_counts b B : strict_weak_order_on (joined b B) = true -> sort_ok E ->
  nb (swept b B) = size b /\ nB (swept b B) = size B.
Proof.
  intros Hw Hs. destruct (Hs _ Hw) as [HP _]. unfold swept. rewrite nb_app, nB_app, nb_one, nB_one. simpl.
  rewrite <- (nb_perm _ _ HP), <- (nB_perm _ _ HP). unfold joined. rewrite nb_joined, nB_joined. lia.
Qed.

Lemma sh_ecdf2 (thr : exn -> Prop) (abt : Prop) b B use_fft :
  strict_weak_order_on (joined b B) = true -> sort_ok E -> (use_fft = true -> fft_lengths E) ->
  (forall name v s, check_boundary_vector (N := N) name (size b) v = Throw (RuntimeError s) -> v = b \/ v = B -> thr (RuntimeError s)) ->
  (forall pre x post, swept b B = pre ++ x :: post ->
     n_lt n0 (lam (n_of_Z (size b)) pre x) = false -> n_eq (lam (n_of_Z (size b)) pre x) n0 = false ->
     thr (RuntimeError msg_lambda)) ->
  (forall pre x post, swept b B = pre ++ x :: post ->
     n_lt n0 (lam (n_of_Z (size b)) pre x) = true -> n_lt (lam (n_of_Z (size b)) pre x) n0 = true ->
     thr (RuntimeError msg_compute_array)) ->
  (forall pre x post, swept b B = pre ++ x :: post ->
     n_lt n0 (lam (n_of_Z (size b)) pre x) = true -> asserts E = true -> nb pre - nB pre + 1 < 0 -> abt) ->
  (asserts E = true -> n_le n0 (n_of_Z (size b) : T) = false -> abt) ->
  wp thr abt (ecdf2 E b B use_fft) (fun _ => True).
Proof.
  intros Hw Hs Hf Hchk Hthr Hthr2 Habt Hle. unfold ecdf2.
  destruct (check_cases "b" (size b) b) as [[Hc _]|[m Hc]].
  2:{ rewrite Hc. simpl. eapply Hchk; eauto. }
  rewrite Hc. cbn [bind].
  destruct (check_cases "B" (size b) B) as [[HC HL]|[m HC]].
  2:{ rewrite HC. simpl. eapply Hchk; eauto. }
  rewrite HC. cbn [bind].
  pose proof (size_nonneg b) as Hn.
  destruct (swept_counts b B Hw Hs) as [C1 C2].
  apply wp_bind. unfold poisson_process_noncrossing_probability, join_all_bounds, std_sort.
  fold (joined b B). rewrite Hw. cbn [bind]. fold (swept b B).
  rewrite get_src_make. apply wp_bind, wp_wr; [rewrite size_vec; lia|].
  apply wp_bind, sh_pmfgen_make; [lia|]. intros g Hg.
  apply wp_bind. apply sh_loop with (n := size b); auto; try lia.
  - intros s [Hs1 Hs2 _ _ _ _ _]. apply wp_ok.
    apply wp_bind, wp_rd_any; [lia|]. intros pn _.
    apply wp_bind, sh_poisson_pmf; auto. intros d. apply wp_ok. exact I.
  - rewrite size_upd, size_vec. lia.
Qed.

(** memory safety of ecdf2 *)
Lemma ecdf2_safe b B use_fft :
  strict_weak_order_on (joined b B) = true -> sort_ok E -> (use_fft = true -> fft_lengths E) ->
  safe (ecdf2 E b B use_fft) (fun _ => True).
Proof. intros. apply sh_ecdf2; auto. Qed.
End Main.
