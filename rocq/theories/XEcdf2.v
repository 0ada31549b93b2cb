(** * XEcdf2: ecdf2 in exact arithmetic computes n! D. *)
From Flocq Require Import Core.Raux.
From Coq Require Import ZArith Reals List Bool Lia Lra String Permutation Sorted Factorial.
From Verif Require Import Base Num Hoare XReal RSum PoissonPmf Common FFTConv Ecdf2 XPmf.
From Verif Require Import Spec SpecFacts Cells Events.
Local Open Scope Z_scope.

Definition fin_of (x : xr) : R := match x with Fin r => r | _ => 0%R end.
Definition is_fin (x : xr) : Prop := x = Fin (fin_of x).
Lemma is_fin_Fin r : is_fin (Fin r).
Proof. reflexivity. Qed.

Lemma mono_1 : forall k, mono 1 k = (/ INR (fact k))%R.
Proof. intros. unfold mono. rewrite pow1. unfold Rdiv. ring. Qed.

Section XEcdf2.
Context {frexp : xr -> Z} (E : env (Xnum frexp)).
Notation XN := (Xnum frexp).
Notation gx := (@get (car XN) (Fin 0)).

(** ** Double buffers *)
Lemma get_src_set_src (d : dbuf XN) v : get_src (set_src d v) = v.
Proof. unfold get_src, set_src. destruct (buf0_is_src d); reflexivity. Qed.
Lemma get_dest_set_src (d : dbuf XN) v : get_dest (set_src d v) = get_dest d.
Proof. unfold get_dest, set_src. destruct (buf0_is_src d) eqn:E1; reflexivity. Qed.
Lemma get_src_flip_set_dest (d : dbuf XN) v : get_src (flip (set_dest d v)) = v.
Proof. unfold get_src, flip, set_dest. destruct (buf0_is_src d); reflexivity. Qed.
Lemma get_dest_flip_set_dest (d : dbuf XN) v : get_dest (flip (set_dest d v)) = get_src d.
Proof. unfold get_dest, get_src, flip, set_dest. destruct (buf0_is_src d); reflexivity. Qed.

Definition tor (bd : bound XN) : R * bound_tag := (fin_of (location bd), tag bd).
Definition bd_fin (bd : bound XN) : Prop := location bd = Fin (fin_of (location bd)).

(** ** One step of the mass vector *)
Section Step.
Variables (n : nat) (loc prev : R) (t : bound_tag) (beta gamma : nat) (rest : list (R * bound_tag)).
Variable u : nat -> R.
Let w := (loc - prev)%R.
Definition u_next (N : nat) : R :=
  if ((next_B t gamma <=? N) && (N <=? beta))%nat then conv (mono w) u N else 0%R.

Lemma u_next_sum :
  rsum (S n) (fun o => u o * D o beta gamma prev ((loc, t) :: rest) (n - o))%R =
  rsum (S n) (fun o => u_next o * D o (next_b t beta) (next_B t gamma) loc rest (n - o))%R.
Proof.
  cbn [D].
  rewrite (rsum_ext (S n) _ (fun o => rsum (S (n - o)) (fun j =>
     u o * (mono w j * (if ((next_B t gamma <=? o + j) && (o + j <=? beta))%nat
         then D (o + j) (next_b t beta) (next_B t gamma) loc rest (n - (o + j)) else 0)))%R)).
  2:{ intros o Ho. rewrite <- rsum_scal. apply rsum_ext. intros j Hj.
      replace (n - (o + j))%nat with (n - o - j)%nat by lia. reflexivity. }
  rewrite rsum_triangle. apply rsum_ext. intros N HN.
  unfold u_next.
  destruct ((next_B t gamma <=? N) && (N <=? beta))%nat eqn:Eg.
  - rewrite conv_comm. unfold conv. rewrite <- rsum_scal_r. apply rsum_ext. intros o Ho.
    replace (o + (N - o))%nat with N by lia. rewrite Eg. ring.
  - rewrite Rmult_0_l. apply rsum_0. intros o Ho. replace (o + (N - o))%nat with N by lia.
    rewrite Eg. ring.
Qed.
End Step.

Context {thr : exn -> Prop}.

(** ** The loop *)
Section Loop.
Variable n : nat.
Variable use_fft : bool.
Variable FI : fftconv XN -> Prop.
Variable abt : Prop.
Notation WP := (wp thr abt).
Hypothesis Hconv : use_fft = true ->
  forall f sz (s0 : list (car XN)) o0 (s1 : list (car XN)) o1 (dest : list (car XN)) od
         (fn gn : nat -> R) (Q : fftconv XN * list (car XN) -> Prop),
  FI f -> sz <= Z.of_nat n + 1 ->
  (0 < sz -> 0 <= o0 /\ o0 + sz <= size s0 /\ 0 <= o1 /\ o1 + sz <= size s1 /\ 0 <= od /\ od + sz <= size dest) ->
  (forall k, 0 <= k < sz -> gx s0 (o0 + k) = Fin (fn (Z.to_nat k))) ->
  (forall k, 0 <= k < sz -> gx s1 (o1 + k) = Fin (gn (Z.to_nat k))) ->
  (forall f' dest', FI f' -> size dest' = size dest ->
     (forall i, 0 <= i -> gx dest' i =
        if (od <=? i) && (i <? od + sz) then Fin (conv fn gn (Z.to_nat (i - od))) else gx dest i) ->
     Q (f', dest')) ->
  WP (fft_convolve_same_size E f sz s0 o0 s1 o1 dest od) Q.

Definition zn := Z.of_nat n.
Definition rn := IZR (Z.of_nat n).

(** scaling between the algorithm's Poisson masses and u *)
Definition scale (prev : R) (o : nat) : R := (rn ^ o * exp (- (rn * prev)))%R.

(** Gaps of positive width that were processed with too few b's *)
Definition wide_ok (pre : list (R * bound_tag)) : Prop :=
  forall p1 x p2, pre = p1 ++ x :: p2 -> (end_of 0 p1 < fst x)%R ->
    (count_B p1 <= count_b p1 + 1)%nat.

Record inv (D0 : R) (pre : list (bound XN)) (post : list (bound XN)) (s : e2state XN) : Prop := {
  iv_b : e2_b s = Z.of_nat (count_b (map tor pre));
  iv_B : e2_B s = Z.of_nat (count_B (map tor pre));
  iv_prev : e2_prev s = Fin (end_of 0 (map tor pre));
  iv_pmf : pmfgen_ok (zn + 1) (e2_pmf s);
  iv_fft : FI (e2_fft s);
  iv_src : size (get_src (e2_buffers s)) = zn + 1;
  iv_dest : size (get_dest (e2_buffers s)) = zn + 1;
  iv_wide : (0 < n)%nat -> asserts E = true -> wide_ok (map tor pre);
  iv_u : exists u : nat -> R,
    (forall o, (o < count_B (map tor pre) \/ count_b (map tor pre) < o)%nat -> u o = 0%R) /\
    (forall o, (count_B (map tor pre) <= o <= count_b (map tor pre))%nat ->
       gx (get_src (e2_buffers s)) (Z.of_nat o) = Fin (scale (end_of 0 (map tor pre)) o * u o)) /\
    rsum (S n) (fun o => u o * D o (count_b (map tor pre)) (count_B (map tor pre))
       (end_of 0 (map tor pre)) (map tor post) (n - o))%R = D0
}.

Lemma count_b_snoc l x : count_b (l ++ [x]) = next_b (snd x) (count_b l).
Proof. unfold count_b. rewrite filter_app, app_length. destruct x as [r []]; simpl; lia. Qed.
Lemma count_B_snoc l x : count_B (l ++ [x]) = next_B (snd x) (count_B l).
Proof. unfold count_B. rewrite filter_app, app_length. destruct x as [r []]; simpl; lia. Qed.
Lemma end_of_snoc p l x : end_of p (l ++ [x]) = fst x.
Proof. destruct x. apply end_of_app. Qed.

Lemma wp_update t (dest : list (car XN)) beta gamma (Q : list (car XN) * Z * Z -> Prop) :
  size dest = zn + 1 -> (next_b t beta <= n)%nat -> (next_B t gamma <= n)%nat ->
  (forall dest', size dest' = zn + 1 ->
     (forall o, (next_B t gamma <= o <= next_b t beta)%nat ->
        gx dest' (Z.of_nat o) = if (beta <? o)%nat then Fin 0 else gx dest (Z.of_nat o)) ->
     Q (dest', Z.of_nat (next_b t beta), Z.of_nat (next_B t gamma))) ->
  WP (update_dest_buffer_and_step_counts t dest (Z.of_nat beta) (Z.of_nat gamma)) Q.
Proof.
  intros Hs Hb HB HQ. unfold zn in *. destruct t; cbn [update_dest_buffer_and_step_counts next_b next_B] in *.
  - apply wp_bind, wp_wr; [lia|]. apply wp_ok.
    replace (Z.of_nat beta + 1) with (Z.of_nat (S beta)) by lia.
    apply HQ; [rewrite size_upd; auto|]. intros o Ho. rewrite get_upd by lia.
    destruct (Z.eqb_spec (Z.of_nat (S beta)) (Z.of_nat o)), (Nat.ltb_spec beta o); auto; lia.
  - apply wp_bind, wp_wr; [lia|]. apply wp_ok.
    replace (Z.of_nat gamma + 1) with (Z.of_nat (S gamma)) by lia.
    apply HQ; [rewrite size_upd; auto|]. intros o Ho. rewrite get_upd by lia.
    destruct (Z.eqb_spec (Z.of_nat gamma) (Z.of_nat o)), (Nat.ltb_spec beta o); auto; lia.
  - apply wp_ok, HQ; auto. intros o Ho. destruct (Nat.ltb_spec beta o); auto; lia.
Qed.

Lemma scale_step prev loc k o : (k <= o)%nat ->
  (pois (rn * (loc - prev)) k * scale prev (o - k) = scale loc o * mono (loc - prev) k)%R.
Proof.
  intros Hk. rewrite pois_mono, mono_scal. unfold scale.
  replace (- (rn * loc))%R with (- (rn * (loc - prev)) + - (rn * prev))%R by ring.
  rewrite exp_plus. replace (rn ^ o)%R with (rn ^ k * rn ^ (o - k))%R; [ring|].
  rewrite <- pow_add. f_equal. lia.
Qed.

Lemma step_ok D0 pre bd post s :
  Forall bd_fin (pre ++ bd :: post) ->
  loc_sorted (map tor (pre ++ bd :: post)) ->
  Forall (fun x => 0 <= fst x)%R (map tor (pre ++ bd :: post)) ->
  (count_b (map tor (pre ++ bd :: post)) <= n)%nat ->
  (count_B (map tor (pre ++ bd :: post)) <= n)%nat ->
  ((0 < n)%nat -> asserts E = true -> (end_of 0 (map tor pre) < fst (tor bd))%R ->
     (count_b (map tor pre) + 1 < count_B (map tor pre))%nat -> abt) ->
  inv D0 pre (bd :: post) s ->
  WP (e2_step E (Fin rn) use_fft bd s) (inv D0 (pre ++ [bd]) post).
Proof.
  intros Hfin Hsort Hpos Hnb HnB Habt Hinv.
  destruct Hinv as [Hb HB Hprev Hpmf Hfft Hsrc Hdest Hwide (u & Hu0 & Hu & Hsum)].
  unfold zn in *.
  rewrite !map_app in *. cbn [map] in *.
  set (P := map tor pre) in *. set (prev := end_of 0 P) in *.
  set (loc := fst (tor bd)) in *. set (t := tag bd) in *.
  assert (Hloc : location bd = Fin loc).
  { apply Forall_app in Hfin. destruct Hfin as [_ Hfin]. inversion Hfin; subst. exact H1. }
  assert (Hbd : tor bd = (loc, t)) by reflexivity.
  rewrite Hbd in Hsort, Hpos, Hnb, HnB, Hsum.
  assert (Hpl : (prev <= loc)%R).
  { unfold prev. clear - Hsort Hpos.
    destruct P as [|p P] using rev_ind.
    - simpl. inversion Hpos; subst. exact H1.
    - rewrite end_of_snoc. rewrite <- app_assoc in Hsort. clear - Hsort.
      unfold loc_sorted in Hsort. induction P as [|q P IH]; simpl in Hsort; inversion Hsort; subst.
      + inversion H2; subst. exact H3.
      + auto. }
  set (beta := count_b P) in *. set (gamma := count_B P) in *.
  assert (Hnb' : (next_b t beta <= n)%nat).
  { unfold count_b in Hnb. rewrite filter_app, app_length in Hnb. fold (count_b P) in Hnb.
    fold beta in Hnb. clear - Hnb. destruct t; simpl in *; lia. }
  assert (HnB' : (next_B t gamma <= n)%nat).
  { unfold count_B in HnB. rewrite filter_app, app_length in HnB. fold (count_B P) in HnB.
    fold gamma in HnB. clear - HnB. destruct t; simpl in *; lia. }
  assert (Hbn : (beta <= n)%nat) by (destruct t; simpl in Hnb'; lia).
  assert (HBn : (gamma <= n)%nat) by (destruct t; simpl in HnB'; lia).
  assert (Hrn : (0 <= rn)%R) by (unfold rn; apply IZR_le; lia).
  assert (Hw0 : (0 <= loc - prev)%R) by lra.
  set (w := (loc - prev)%R) in *.
  assert (Hlam : (0 <= rn * w)%R) by (apply Rmult_le_pos; auto).
  assert (HB2 : (gamma <= next_B t gamma)%nat) by (destruct t; simpl; lia).
  assert (Hu'0 : forall o, (o < next_B t gamma \/ next_b t beta < o)%nat ->
            u_next loc prev t beta gamma u o = 0%R).
  { intros o Ho. unfold u_next.
    destruct (Nat.leb_spec (next_B t gamma) o), (Nat.leb_spec o beta); simpl; auto.
    destruct t; simpl in *; lia. }
  assert (Hsum' : rsum (S n) (fun o => u_next loc prev t beta gamma u o *
             D o (next_b t beta) (next_B t gamma) loc (map tor post) (n - o))%R = D0).
  { rewrite <- u_next_sum. exact Hsum. }
  unfold e2_step. rewrite Hloc, Hprev. simpl n_sub. simpl n_mul. fold w. simpl n_lt. simpl n_eq.
  destruct (Rlt_bool_spec 0 (rn * w)) as [Hl|Hl].
  - (* positive lambda *)
    assert (Hn0 : (0 < n)%nat).
    { destruct (Nat.eq_dec n 0) as [H0|]; [|lia]. exfalso. unfold rn in Hl. rewrite H0 in Hl. simpl in Hl. lra. }
    assert (Hgap : (prev < loc)%R).
    { destruct (Rle_lt_or_eq_dec _ _ Hpl) as [?|Heq]; auto. exfalso.
      assert (w = 0)%R by (unfold w; lra). rewrite H in Hl. lra. }
    apply wp_bind. eapply (wp_compute_array E (Z.of_nat n + 1)); try eassumption; try lia.
    { intros HE Hk. apply Habt; auto. lia. }
    intros Hk g' Hg' Harr. unfold get_array in Harr.
    assert (Hdims : 0 <= e2_B s < size (get_src (e2_buffers s))) by lia.
    apply wp_bind, wp_addr; [exact Hdims|]. apply wp_bind, wp_addr; [lia|].
    apply wp_bind.
    assert (Harrsz : size (pmf_array g') = Z.of_nat n + 2) by (destruct Hg' as (? & ? & ? & ?); lia).
    assert (Hcont : forall f' (dest' : list (car XN)), FI f' -> size dest' = Z.of_nat n + 1 ->
      (forall i, 0 <= i -> gx dest' i =
        if (e2_B s <=? i) && (i <? e2_B s + (e2_b s - e2_B s + 1))
        then Fin (conv (pois (rn * w)) (fun k => scale prev (gamma + k) * u (gamma + k)%nat)%R (Z.to_nat (i - e2_B s)))
        else gx (get_dest (e2_buffers s)) i) ->
      WP (u0 <- update_dest_buffer_and_step_counts (tag bd) (snd (f', dest')) (e2_b s) (e2_B s) ;;
          (let '(dest, b', B') := u0 in
           Ok (mkE2 (flip (set_dest (e2_buffers s) dest)) (fst (f', dest')) g' b' B' (Fin loc))))
         (inv D0 (pre ++ [bd]) post)).
    { intros f' dest' HF' Hs' Hd'. apply wp_bind. cbn [fst snd]. rewrite Hb, HB. fold t.
      apply wp_update; auto. intros dest2 Hs2 Hd2. apply wp_ok.
      assert (Hbs : count_b (map tor (pre ++ [bd])) = next_b t beta)
        by (rewrite map_app; simpl; rewrite count_b_snoc; reflexivity).
      assert (HBs : count_B (map tor (pre ++ [bd])) = next_B t gamma)
        by (rewrite map_app; simpl; rewrite count_B_snoc; reflexivity).
      assert (Hes : end_of 0 (map tor (pre ++ [bd])) = loc)
        by (rewrite map_app; simpl; rewrite end_of_snoc; reflexivity).
      constructor; cbn [e2_b e2_B e2_prev e2_pmf e2_fft e2_buffers];
        rewrite ?get_src_flip_set_dest, ?get_dest_flip_set_dest, ?Hbs, ?HBs, ?Hes; auto.
      - intros _ HE. rewrite map_app. simpl map. intros p1 x p2 Heq Hlt.
        destruct p2 as [|y p2] using rev_ind.
        + apply app_inj_tail in Heq. destruct Heq as [<- <-].
          fold P. fold beta gamma. specialize (Hk HE). lia.
        + rewrite app_comm_cons, app_assoc in Heq. apply app_inj_tail in Heq.
          destruct Heq as [Heq _]. eapply (Hwide Hn0 HE); eassumption.
      - exists (u_next loc prev t beta gamma u). split; [exact Hu'0|]. split; [|exact Hsum'].
        intros o Ho. rewrite Hd2 by exact Ho.
        destruct (Nat.ltb_spec beta o) as [Hbo|Hbo].
        + unfold u_next. destruct (Nat.leb_spec o beta); [lia|]. rewrite andb_false_r.
          rewrite Rmult_0_r. reflexivity.
        + rewrite Hd' by lia. rewrite Hb, HB.
          destruct (Z.leb_spec (Z.of_nat gamma) (Z.of_nat o)); [|lia].
          destruct (Z.ltb_spec (Z.of_nat o) (Z.of_nat gamma + (Z.of_nat beta - Z.of_nat gamma + 1))); [|lia].
          cbn [andb]. f_equal. unfold u_next.
          destruct (Nat.leb_spec (next_B t gamma) o); [|lia].
          destruct (Nat.leb_spec o beta); [|lia]. cbn [andb]. fold w.
          replace (Z.to_nat (Z.of_nat o - Z.of_nat gamma)) with (o - gamma)%nat by lia.
          unfold conv. rewrite <- rsum_scal.
          rewrite (rsum_extend (S (o - gamma)) (S o)).
          2: lia.
          2:{ intros i Hi. rewrite (Hu0 (o - i)%nat) by lia. ring. }
          apply rsum_ext. intros k Hk'.
          replace (gamma + (o - gamma - k))%nat with (o - k)%nat by lia.
          rewrite <- Rmult_assoc. unfold w. rewrite scale_step by lia. ring. }
    assert (Hs0 : forall k, 0 <= k < e2_b s - e2_B s + 1 ->
       gx (get_array g') (0 + k) = Fin (pois (rn * w) (Z.to_nat k))).
    { intros k Hk'. rewrite Z.add_0_l. apply Harr. lia. }
    assert (Hs1 : forall k, 0 <= k < e2_b s - e2_B s + 1 ->
       gx (get_src (e2_buffers s)) (e2_B s + k) =
       Fin (scale prev (gamma + Z.to_nat k) * u (gamma + Z.to_nat k)%nat)).
    { intros k Hk'. replace (e2_B s + k) with (Z.of_nat (gamma + Z.to_nat k)) by lia.
      apply Hu. lia. }
    destruct use_fft eqn:Euf.
    + apply (Hconv eq_refl _ _ _ _ _ _ _ _ (pois (rn * w))
              (fun k => scale prev (gamma + k) * u (gamma + k)%nat)%R); auto.
      * lia.
      * unfold get_array. intros. lia.
      * intros f' dest' HF' Hs' Hd'. apply Hcont; auto. lia.
    + apply wp_bind. apply (wp_convolve _ _ _ _ _ _ _ (pois (rn * w))
              (fun k => scale prev (gamma + k) * u (gamma + k)%nat)%R); auto.
      * unfold get_array. intros. lia.
      * intros dest' Hs' Hd'. apply wp_ok. apply Hcont; auto. lia.
  - (* lambda = 0 *)
    assert (Hz : (rn * w = 0)%R) by lra.
    rewrite Req_bool_true by exact Hz.
    apply wp_bind. rewrite Hb, HB. fold t. apply wp_update; auto.
    intros src2 Hs2 Hd2. apply wp_ok.
    assert (Hbs : count_b (map tor (pre ++ [bd])) = next_b t beta)
      by (rewrite map_app; simpl; rewrite count_b_snoc; reflexivity).
    assert (HBs : count_B (map tor (pre ++ [bd])) = next_B t gamma)
      by (rewrite map_app; simpl; rewrite count_B_snoc; reflexivity).
    assert (Hes : end_of 0 (map tor (pre ++ [bd])) = loc)
      by (rewrite map_app; simpl; rewrite end_of_snoc; reflexivity).
    constructor; cbn [e2_b e2_B e2_prev e2_pmf e2_fft e2_buffers];
      rewrite ?get_src_set_src, ?get_dest_set_src, ?Hbs, ?HBs, ?Hes; auto.
    + intros Hn0 HE. rewrite map_app. simpl map. intros p1 x p2 Heq Hlt.
      destruct p2 as [|y p2] using rev_ind.
      * apply app_inj_tail in Heq. destruct Heq as [<- <-]. exfalso.
        fold P prev loc in Hlt. assert (rn <> 0)%R by (unfold rn; apply IZR_neq; lia).
        apply Rmult_integral in Hz. unfold w in Hz. destruct Hz; lra.
      * rewrite app_comm_cons, app_assoc in Heq. apply app_inj_tail in Heq.
        destruct Heq as [Heq _]. eapply (Hwide Hn0 HE); eassumption.
    + exists (u_next loc prev t beta gamma u). split; [exact Hu'0|]. split; [|exact Hsum'].
      intros o Ho. rewrite Hd2 by exact Ho.
      destruct (Nat.ltb_spec beta o) as [Hbo|Hbo].
      * unfold u_next. destruct (Nat.leb_spec o beta); [lia|]. rewrite andb_false_r.
        rewrite Rmult_0_r. reflexivity.
      * rewrite Hu by lia. f_equal. unfold u_next.
        destruct (Nat.leb_spec (next_B t gamma) o); [|lia].
        destruct (Nat.leb_spec o beta); [|lia]. cbn [andb]. fold w.
        assert (Hsc : scale loc o = scale prev o).
        { unfold scale. replace (rn * loc)%R with (rn * prev)%R; auto. unfold w in Hz. lra. }
        rewrite Hsc. f_equal.
        destruct (Nat.eq_dec o 0) as [->|Ho0].
        -- unfold conv. simpl. rewrite mono_0. ring.
        -- assert (w = 0)%R as ->.
           { apply Rmult_integral in Hz. destruct Hz as [Hz|Hz]; auto.
             exfalso. unfold rn in Hz. apply eq_IZR in Hz. lia. }
           rewrite (conv_ext (mono 0) (delta 0) u u).
           ++ rewrite conv_delta. simpl. rewrite Nat.sub_0_r. reflexivity.
           ++ intros i _. rewrite mono_zero. reflexivity.
           ++ auto.
Qed.
End Loop.
End XEcdf2.
