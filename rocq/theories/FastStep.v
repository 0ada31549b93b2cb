(** * FastStep: one iteration of ecdf2 keeps the masses accurate, in any arithmetic of FastNum.v. *)
From Coquelicot Require Import Coquelicot.
From Flocq Require Import Core.Core.
From Coq Require Import ZArith Reals List Bool Lia Lra String Permutation Sorted Factorial.
From Verif Require Import Base Num Hoare Common PoissonPmf FFTConv Ecdf2 RSum.
From Verif Require Import Spec SpecFacts Cells Events XEcdf2 XEcdf2Main SafeFft SafeEcdf2.
From Verif Require Import ErrBound AccStep FastNum FastGrow FastPmf FastConv FastFft.
Import List. Import ListNotations.
Local Open Scope R_scope.

(** ** The input check and the order of the sweep *)
Section Order.
Context (F : num) (E : env F) (fin one raw : car F -> Prop) (val : car F -> R) (u eps eta : R).
Hypothesis HA : arith F fin one raw val u eps eta.

Lemma f0_ok : fin n0 /\ val n0 = 0.
Proof. destruct (ar_int _ _ _ _ _ _ _ _ HA 0 ltac:(lia)) as (H1 & _ & _ & H2). auto. Qed.
Lemma f1_raw : raw n1.
Proof. apply (ar_int _ _ _ _ _ _ _ _ HA 1 ltac:(lia)). Qed.
Lemma f1_ok : fin n1 /\ val n1 = 1.
Proof. destruct (ar_int _ _ _ _ _ _ _ _ HA 1 ltac:(lia)) as (H1 & _ & _ & H2). auto. Qed.

Lemma fmonotone (v : list (car F)) : forall prev, fin prev ->
  Forall fin v -> Forall (Rle (val prev)) (map val v) -> StronglySorted Rle (map val v) -> is_monotone_from prev v = true.
Proof.
  induction v as [|x v IH]; intros prev Hp HF Hl HS; [reflexivity|].
  inversion HF; subst. inversion Hl; subst. inversion HS; subst.
  cbn [is_monotone_from]. rewrite (ar_lt _ _ _ _ _ _ _ _ HA) by auto. rewrite Rlt_bool_false by assumption. apply IH; auto.
Qed.

Lemma flast_nth (v : list (car F)) d : v <> [] -> nth (List.length v - 1) v d = last v d.
Proof.
  induction v as [|x v IH]; intros Hne; [congruence|]. destruct v as [|y v]; [reflexivity|].
  change (last (x :: y :: v) d) with (last (y :: v) d). rewrite <- IH by discriminate.
  cbn [List.length]. rewrite !Nat.sub_succ, !Nat.sub_0_r. reflexivity.
Qed.

Lemma fcheck name (v : list (car F)) : accepted_in fin val v -> check_boundary_vector name (size v) v = Ok tt.
Proof.
  intros [HF [HS HR]]. unfold check_boundary_vector. rewrite Z.eqb_refl. cbn [negb].
  destruct v as [|x v]; [reflexivity|].
  inversion HF as [|? ? Fx HF']; subst. apply Sorted_strong in HS. cbn [map] in HS, HR.
  inversion HS; subst. inversion HR as [|? ? Hr HR']; subst.
  unfold is_monotone_increasing. cbn [is_monotone_from]. rewrite (ar_ninf _ _ _ _ _ _ _ _ HA x Fx).
  rewrite fmonotone by auto. cbn [negb].
  rewrite (proj2 (Z.ltb_lt 0 _)) by (unfold size; cbn [List.length]; lia).
  change (front (x :: v)) with (Ok x). cbn [bind].
  destruct f0_ok as [F0 V0]. destruct f1_ok as [F1 V1].
  rewrite (ar_lt _ _ _ _ _ _ _ _ HA x n0 Fx F0), V0, Rlt_bool_false by lra.
  assert (HB : @back F (x :: v) = Ok (last (x :: v) n0)).
  { unfold back. rewrite (rd_get n0).
    - f_equal. unfold get. rewrite <- flast_nth by discriminate. f_equal. unfold size. lia.
    - unfold size. cbn [List.length]. lia. }
  rewrite HB. cbn [bind].
  assert (Hlast : forall w : list (car F), w <> [] -> Forall fin w ->
     Forall (fun x => 0 <= x <= 1) (map val w) -> fin (last w n0) /\ val (last w n0) <= 1).
  { clear. induction w as [|a w IH]; intros Hne HF HR; [congruence|].
    inversion HF; subst. inversion HR; subst. destruct w as [|c w]; [cbn [last]; split; auto; lra|].
    apply IH; auto. discriminate. }
  destruct (Hlast (x :: v)) as [Fl Vl]; [discriminate|auto|exact HR|].
  rewrite (ar_lt _ _ _ _ _ _ _ _ HA _ _ F1 Fl), V1, Rlt_bool_false by lra. reflexivity.
Qed.

Definition tov (bd : bound F) : R * bound_tag := (val (location bd), tag bd).
Definition finb (bd : bound F) : Prop := fin (location bd).

Lemma fblt (x y : bound F) : finb x -> finb y -> bound_lt x y = Rlt_bool (fst (tov x)) (fst (tov y)).
Proof. intros Hx Hy. unfold bound_lt. apply (ar_lt _ _ _ _ _ _ _ _ HA); auto. Qed.

Lemma fswo (l : list (bound F)) : Forall finb l -> strict_weak_order_on l = true.
Proof.
  intros HF. unfold strict_weak_order_on. rewrite Forall_forall in HF.
  apply forallb_forall. intros x Hx. apply andb_true_intro. split.
  - rewrite fblt by auto. rewrite Rlt_bool_false by lra. reflexivity.
  - apply forallb_forall. intros y Hy. apply forallb_forall. intros z Hz.
    rewrite !fblt by auto.
    generalize (fst (tov x)) (fst (tov y)) (fst (tov z)). intros a c d.
    destruct (Rlt_bool_spec a c), (Rlt_bool_spec c d), (Rlt_bool_spec a d),
      (Rlt_bool_spec c a), (Rlt_bool_spec d c), (Rlt_bool_spec d a); simpl; auto; lra.
Qed.

Variables b B : list (car F).
Hypothesis Hb : accepted_in fin val b.
Hypothesis HB : accepted_in fin val B.
Hypothesis Hpb : Forall (fun x => raw x /\ plain (val x)) b.
Hypothesis HpB : Forall (fun x => raw x /\ plain (val x)) B.
Hypothesis Hsort : sort_ok E.
Notation vb := (map val b).
Notation vB := (map val B).
Notation bs := (map tov (sort_bounds E (joined b B))).

Lemma fjoined : Forall finb (joined b B).
Proof.
  unfold joined. apply Forall_app. split; apply Forall_map; unfold finb; cbn [location]; [apply Hb|apply HB].
Qed.
Lemma fjoined_plain : Forall (fun bd => raw (location bd) /\ plain (val (location bd))) (joined b B).
Proof. unfold joined. apply Forall_app. split; apply Forall_map; cbn [location]; assumption. Qed.

Lemma fswept_fin : Forall finb (sort_bounds E (joined b B)).
Proof. eapply Permutation_Forall; [apply (Hsort _ (fswo _ fjoined))|exact fjoined]. Qed.
Lemma fswept_plain : Forall (fun bd => raw (location bd) /\ plain (val (location bd))) (sort_bounds E (joined b B)).
Proof. eapply Permutation_Forall; [apply (Hsort _ (fswo _ fjoined))|exact fjoined_plain]. Qed.

Lemma fswept_arranged : arranged vb vB bs.
Proof.
  destruct (Hsort _ (fswo _ fjoined)) as [HP HS]. pose proof fswept_fin as HF. split.
  - apply (Permutation_map tov) in HP. unfold joined at 1 in HP. rewrite map_app, !map_map in HP.
    rewrite !map_map. exact HP.
  - unfold loc_sorted. clear HP. induction HS as [|x l HS IH Hx]; [constructor|]. inversion HF; subst.
    cbn [map]. constructor; auto. apply Forall_map.
    rewrite Forall_forall in *. intros y Hy. specialize (Hx y Hy).
    rewrite fblt in Hx by auto. destruct (Rlt_bool_spec (fst (tov y)) (fst (tov x))); [discriminate|lra].
Qed.

Lemma fswept_tov : map tov (swept E b B) = bs ++ [(1, END)].
Proof.
  unfold swept. rewrite map_app. cbn [map]. unfold tov at 2. cbn [location tag].
  rewrite (proj2 f1_ok). reflexivity.
Qed.

Lemma fswept_range : Forall (fun bd => finb bd /\ 0 <= fst (tov bd) <= 1 /\ raw (location bd) /\ plain (fst (tov bd))) (swept E b B).
Proof.
  destruct f1_ok as [F1 V1].
  pose proof (arranged_range _ _ _ fswept_arranged (proj2 Hb) (proj2 HB)) as HR.
  unfold swept. apply Forall_app. split.
  - pose proof fswept_fin as HF. pose proof fswept_plain as HP. rewrite Forall_map in HR.
    rewrite Forall_forall in *. intros bd Hin. split; [|split]; auto. apply HP, Hin.
  - constructor; [|constructor]. split; [exact F1|]. unfold tov. cbn [location fst]. rewrite V1. split; [lra|]. split; [exact f1_raw|].
    right. change 1 with (bpow radix2 0). apply bpow_le. lia.
Qed.
End Order.

(** ** The table of Poisson masses *)
Section Table.
Context (F : num) (E : env F) {thr : exn -> Prop} {abt : Prop}.
Notation WP := (wp thr abt).

Definition fpmfgen (mk : Z) (g : pmfgen F) : Prop :=
  pg_max_k g = mk /\ size (log_gamma_LUT g) = (mk + 2)%Z /\
  (forall i, (0 <= i < mk + 2)%Z -> get n0 (log_gamma_LUT g) i = n_lgamma i) /\
  size (pmf_array g) = (mk + 1)%Z.

Lemma fsize_alloc site k : (0 <= k)%Z -> size (alloc_doubles E site k) = k.
Proof. intros Hk. unfold size, alloc_doubles. rewrite map_length, seq_length. lia. Qed.

Lemma wp_fpmfgen mk (Q : pmfgen F -> Prop) : (0 < mk)%Z ->
  (forall g, fpmfgen mk g -> Q g) -> WP (pmfgen_make E mk) Q.
Proof.
  intros Hmk HQ. unfold pmfgen_make.
  apply wp_bind, wp_cassert_true; [apply Z.ltb_lt; exact Hmk|].
  apply wp_bind. apply wp_for with (P := fun i (a : list (car F)) => size a = (mk + 2)%Z /\
     forall j, (0 <= j < i)%Z -> get n0 a j = n_lgamma j).
  - split; [apply fsize_alloc; lia|lia].
  - intros i a Hi [Hs Ha]. apply wp_wr; [lia|].
    rewrite size_upd. split; auto.
    intros j Hj. rewrite get_upd by lia. destruct (Z.eqb_spec i j) as [->|]; auto. apply Ha. lia.
  - intros lut [Hs Ha]. apply wp_bind.
    apply wp_for with (P := fun _ (a : list (car F)) => size a = (mk + 1)%Z).
    + apply fsize_alloc; lia.
    + intros i a Hi Hs'. apply wp_wr; [lia|]. rewrite size_upd. exact Hs'.
    + intros arr Hs'. apply wp_ok. apply HQ. split; [reflexivity|]. cbn [log_gamma_LUT pmf_array].
      split; [exact Hs|]. split; [|exact Hs']. intros i Hi. apply Ha. lia.
Qed.
End Table.

Section Step.
Context (F : num) (E : env F) (fin one raw : car F -> Prop) (val : car F -> R) (u eps eta : R).
Hypothesis HA : arith F fin one raw val u eps eta.
Hypothesis Hu : bpow radix2 (-53) <= u.
Hypothesis Heps : u <= eps.
Hypothesis Heta0 : 0 < eta.
Hypothesis Heta : eta <= bpow radix2 (-1010).
Variable n : nat.
Hypothesis Hn1 : (1 <= n)%nat.
Notation N := (INR n).
Hypothesis Hn : 65536 * (N * N) * eps <= 1.
(** [dl]: the error a convolution may add. FFTs are only used for convolutions of 128 elements or more. *)
Variable dl : R.
Hypothesis Hdl : 0 <= dl.
Hypothesis Hdl32 : 32 * (N * N) * dl <= 1.
Variable uf : bool.
Hypothesis Huf : uf = true -> (n <= 126)%nat \/
  exists e, arith_fft F fin val u eta /\ fft_accurate_in fin val E e /\ 2 * u <= e /\ e <= / 4096 /\ 400 * e <= dl.
Context {thr : exn -> Prop} {abt : Prop}.
Notation WP := (wp thr abt).
Notation AN := (anear fin val).
Notation tovF := (tov F val).

Lemma wp_fcompute g k (lh : car F) l (Q : pmfgen F -> Prop) :
  fpmfgen F (Z.of_nat n + 1) g -> (k <= Z.of_nat n + 1)%Z ->
  fin lh -> one lh -> bpow radix2 (-1000) <= val lh -> 0 < l <= N -> Rabs (val lh - l) <= 3 * u * l ->
  (asserts E = true -> (k < 0)%Z -> abt) ->
  (forall g', fpmfgen F (Z.of_nat n + 1) g' ->
     (forall i, (0 <= i <= k)%Z -> (i <= Z.of_nat n)%Z ->
        AN (ff1 eps n) eta (get n0 (get_array g') i) (pois l (Z.to_nat i))) -> Q g') ->
  WP (compute_array E g k lh) Q.
Proof.
  intros (Hg1 & Hg2 & Hg3 & Hg4) Hk Fl Ol Hlo Hl Hrel Habt HQ. unfold compute_array.
  pose proof (bpow_gt_0 radix2 (-1000)) as Hb0. destruct (f0_ok F fin one raw val u eps eta HA) as [F0 V0].
  apply wp_bind. apply wp_cassert; [intros HE Hc; apply Z.leb_gt in Hc; auto|]. intros _.
  apply wp_bind, wp_cassert_true; [rewrite Hg1; apply Z.leb_le; exact Hk|].
  rewrite (ar_lt _ _ _ _ _ _ _ _ HA lh n0 Fl F0), V0, Rlt_bool_false by lra.
  rewrite (ar_eq _ _ _ _ _ _ _ _ HA lh n0 Fl F0), V0, Req_bool_false by lra.
  apply wp_bind.
  apply wp_for with (P := fun i (a : list (car F)) => size a = (Z.of_nat n + 2)%Z /\
     forall j, (0 <= j < i)%Z -> (j <= Z.of_nat n)%Z -> AN (ff1 eps n) eta (get n0 a j) (pois l (Z.to_nat j))).
  - split; [|lia]. lia.
  - intros i a Hi [Hs Ha]. apply wp_bind.
    apply (wp_rd n0); [lia|].
    apply wp_wr; [lia|]. rewrite size_upd. split; auto. intros j Hj Hjn.
    rewrite get_upd by lia. destruct (Z.eqb_spec i j) as [->|].
    + rewrite Hg3 by lia.
      pose proof (fpmf_near F fin one raw val u eps eta HA Hu Heps Heta n Hn1 Hn lh l (Z.to_nat j) Fl Ol Hlo Hl Hrel ltac:(lia)) as HP.
      cbv zeta in HP. rewrite Z2Nat.id in HP by lia. exact HP.
    + apply Ha; lia.
  - intros a [Hs Ha]. apply wp_ok, HQ.
    + split; [exact Hg1|]. split; [exact Hg2|]. split; [exact Hg3|]. cbn [pmf_array]. lia.
    + intros i Hi Hin. unfold get_array. cbn [pmf_array]. apply Ha; lia.
Qed.

Lemma wp_fupdate t (dest : list (car F)) beta gamma (Q : list (car F) * Z * Z -> Prop) :
  size dest = (Z.of_nat n + 1)%Z -> (next_b t beta <= n)%nat -> (next_B t gamma <= n)%nat ->
  (forall dest', size dest' = (Z.of_nat n + 1)%Z ->
     (forall o, (next_B t gamma <= o <= next_b t beta)%nat ->
        get n0 dest' (Z.of_nat o) = if (beta <? o)%nat then n0 else get n0 dest (Z.of_nat o)) ->
     Q (dest', Z.of_nat (next_b t beta), Z.of_nat (next_B t gamma))) ->
  WP (update_dest_buffer_and_step_counts t dest (Z.of_nat beta) (Z.of_nat gamma)) Q.
Proof.
  intros Hs Hb HB HQ. destruct t; cbn [update_dest_buffer_and_step_counts next_b next_B] in *.
  - apply wp_bind, wp_wr; [lia|]. apply wp_ok.
    replace (Z.of_nat beta + 1)%Z with (Z.of_nat (S beta)) by lia.
    apply HQ; [rewrite size_upd; auto|]. intros o Ho. rewrite get_upd by lia.
    destruct (Z.eqb_spec (Z.of_nat (S beta)) (Z.of_nat o)), (Nat.ltb_spec beta o); auto; lia.
  - apply wp_bind, wp_wr; [lia|]. apply wp_ok.
    replace (Z.of_nat gamma + 1)%Z with (Z.of_nat (S gamma)) by lia.
    apply HQ; [rewrite size_upd; auto|]. intros o Ho. rewrite get_upd by lia.
    destruct (Z.eqb_spec (Z.of_nat gamma) (Z.of_nat o)), (Nat.ltb_spec beta o); auto; lia.
  - apply wp_ok, HQ; auto. intros o Ho. destruct (Nat.ltb_spec beta o); auto; lia.
Qed.

Lemma wp_fconv (p s : nat -> R) k f sz (s0 : list (car F)) o0 (s1 : list (car F)) o1 (dest : list (car F)) od
  (Q : fftconv F * list (car F) -> Prop) :
  (forall j, 0 <= p j) -> (forall j, 0 <= s j) -> rsum (S n) p <= 1 -> rsum (S n) s <= 1 -> (S k <= 2 * n + 1)%nat ->
  fft_shape (Z.of_nat n + 1) f -> (sz <= Z.of_nat n + 1)%Z ->
  (0 < sz -> 0 <= o0 /\ o0 + sz <= size s0 /\ 0 <= o1 /\ o1 + sz <= size s1 /\ 0 <= od /\ od + sz <= size dest)%Z ->
  (forall j, (0 <= j < sz)%Z -> AN (ff1 eps n) eta (get n0 s0 (o0 + j)) (p (Z.to_nat j))) ->
  (forall j, (0 <= j < sz)%Z -> AN (fh u eps n ^ k) (fav u eps eta n dl k) (get n0 s1 (o1 + j)) (s (Z.to_nat j))) ->
  (forall f' dest', fft_shape (Z.of_nat n + 1) f' -> size dest' = size dest ->
     (forall i, (od <= i < od + sz)%Z ->
        AN (fh u eps n ^ S k) (fav u eps eta n dl (S k)) (get n0 dest' i) (conv p s (Z.to_nat (i - od)))) -> Q (f', dest')) ->
  WP (if uf then fft_convolve_same_size E f sz s0 o0 s1 o1 dest od
      else dest' <- convolve_same_size sz s0 o0 s1 o1 dest od ;; Ok (f, dest')) Q.
Proof.
  intros Hp0 Hs0 Hp1 Hs1 Hk Hf Hsz Hbd H0 H1 HQ.
  pose proof (ff1_range u eps Hu Heps n Hn1 Hn) as F1. pose proof (fh_pow2 u eps Hu Heps n Hn1 Hn k ltac:(lia)) as F2.
  pose proof (fav_le1 u eps eta Hu Heps Heta0 Heta n Hn1 Hn dl Hdl Hdl32 k ltac:(lia)) as A2.
  pose proof (fn_small u eps Hu Heps n Hn1 Hn) as Hns. pose proof (fu_pos u Hu) as Hu0.
  pose proof (fabs_step u eps eta Hu Heps Heta0 Heta n Hn1 Hn dl Hdl Hdl32 k Hk) as HAS.
  assert (A1 : 0 <= eta <= 1).
  { split; [lra|]. eapply Rle_trans; [exact Heta|]. change 1 with (bpow radix2 0). apply bpow_le. lia. }
  assert (HC : WP (dest' <- convolve_same_size sz s0 o0 s1 o1 dest od ;; Ok (f, dest')) Q).
  { apply wp_bind. apply (wp_fconvolve F fin one raw val u eps eta HA Hu0 Heta0 n (ff1 eps n) (fh u eps n ^ k) eta (fav u eps eta n dl k) p s); auto; try lra; try lia.
    intros dest' Hd Hv. apply wp_ok, HQ; auto. intros i Hi.
    eapply anear_weaken; [apply conv_nonneg; auto| | |apply Hv, Hi]; [rewrite ffac_step; lra|lra]. }
  destruct uf eqn:Euf; [|exact HC].
  destruct (Huf eq_refl) as [Hsm|(e & HAF & HFA & He1 & He2 & He3)].
  2:{ pose proof (fav_n u eps eta Hu Heps Heta0 Heta n Hn1 Hn dl Hdl Hdl32 k ltac:(lia)) as HnA.
    assert (HnE : INR (S n) * eta <= 1).
    { pose proof (ftiny u eps eta Hu Heps Heta0 Heta n Hn1 Hn) as Ht. pose proof (fN_ge1 n Hn1) as HN1. rewrite S_INR.
      assert (Hb1 : bpow radix2 (-950) <= / 2) by (change (/ 2) with (bpow radix2 (-1)); apply bpow_le; lia).
      assert (HN3 : N + 1 <= 2 * (N * (N * N))) by (assert (1 <= N * N) by nra; assert (N <= N * (N * N)) by nra; lra).
      apply Rle_trans with (2 * (N * (N * N)) * eta); [apply Rmult_le_compat_r; lra|]. lra. }
    apply (wp_ffft_convolve F E fin one raw val u eps eta e HA HAF HFA Hu He1 He2 Heta0 Heta n (ff1 eps n) (fh u eps n ^ k) eta (fav u eps eta n dl k) p s); auto; try lra; try lia.
    intros f' dest' Hf' Hd Hv. apply HQ; auto. intros i Hi.
    eapply anear_weaken; [apply conv_nonneg; auto| | |apply Hv, Hi]; [rewrite ffac_step; lra|lra]. }
  unfold fft_convolve_same_size. pose proof Hf as Hf0.
  destruct Hf as (Hmax & _). rewrite Hmax.
  rewrite (proj2 (Z.ltb_ge _ _)) by lia.
  destruct (Z.leb_spec sz 0) as [Hz|Hz].
  - apply wp_ok. apply HQ; auto. intros i Hi. lia.
  - rewrite (proj2 (Z.ltb_lt _ _)) by (unfold MINIMUM_SIZE_FOR_FFTW_CONVOLUTION; lia). exact HC.
Qed.

(** ** The invariant of the sweep *)
Record finv (D0 : R) (pre post : list (bound F)) (s : e2state F) : Prop := {
  fi_b : e2_b s = Z.of_nat (count_b (map tovF pre));
  fi_B : e2_B s = Z.of_nat (count_B (map tovF pre));
  fi_prev : fin (e2_prev s) /\ raw (e2_prev s) /\ val (e2_prev s) = end_of 0 (map tovF pre);
  fi_fft : fft_shape (Z.of_nat n + 1) (e2_fft s);
  fi_pmf : fpmfgen F (Z.of_nat n + 1) (e2_pmf s);
  fi_src : size (get_src (e2_buffers s)) = (Z.of_nat n + 1)%Z;
  fi_dest : size (get_dest (e2_buffers s)) = (Z.of_nat n + 1)%Z;
  fi_u : exists w : nat -> R,
    (forall o, 0 <= w o) /\
    (forall o, (o < count_B (map tovF pre) \/ count_b (map tovF pre) < o)%nat -> w o = 0) /\
    rsum (S n) (fun o => scale n (end_of 0 (map tovF pre)) o * w o) <= 1 /\
    (forall o, (count_B (map tovF pre) <= o <= count_b (map tovF pre))%nat ->
       AN (fh u eps n ^ List.length pre) (fav u eps eta n dl (List.length pre))
         (get n0 (get_src (e2_buffers s)) (Z.of_nat o)) (scale n (end_of 0 (map tovF pre)) o * w o)) /\
    rsum (S n) (fun o => w o * D o (count_b (map tovF pre)) (count_B (map tovF pre))
       (end_of 0 (map tovF pre)) (map tovF post) (n - o)) = D0
}.

Lemma anear_zero f a x : x = 0 -> 0 <= a -> AN f a n0 x.
Proof.
  intros -> Ha. destruct (f0_ok F fin one raw val u eps eta HA) as [F0 V0]. split; [exact F0|]. unfold near.
  rewrite V0, Rminus_diag_eq, Rabs_R0 by reflexivity. lra.
Qed.

Lemma fstep D0 pre bd post s :
  Forall (fun x => finb F fin x /\ 0 <= fst (tovF x) <= 1 /\ raw (location x) /\ plain (fst (tovF x))) (pre ++ bd :: post) ->
  loc_sorted (map tovF (pre ++ bd :: post)) ->
  (count_b (map tovF (pre ++ bd :: post)) <= n)%nat ->
  (count_B (map tovF (pre ++ bd :: post)) <= n)%nat ->
  (List.length pre < 2 * n + 1)%nat ->
  (asserts E = true -> end_of 0 (map tovF pre) < fst (tovF bd) ->
     (count_b (map tovF pre) + 1 < count_B (map tovF pre))%nat -> abt) ->
  finv D0 pre (bd :: post) s ->
  WP (e2_step E (n_of_Z (Z.of_nat n)) uf bd s) (finv D0 (pre ++ [bd]) post).
Proof.
  intros HF Hsort Hnb HnB Hlt Habt Hinv.
  destruct Hinv as [Hb HB (Fprev & Rprev & Hprev) Hfs Hpmf Hsrc Hdest (w & Hu0 & Hout & Hmass & Hw & Hsum)].
  rewrite !map_app in *. cbn [map] in *.
  set (P := map tovF pre) in *. set (prev := end_of 0 P) in *.
  set (loc := fst (tovF bd)) in *. set (t := tag bd) in *.
  assert (Hbd : tovF bd = (loc, t)) by reflexivity. rewrite Hbd in Hsort, Hnb, HnB, Hsum.
  assert (Hbdr : finb F fin bd /\ 0 <= loc <= 1 /\ raw (location bd) /\ plain loc).
  { apply Forall_app in HF. destruct HF as [_ HF]. inversion HF; subst. assumption. }
  destruct Hbdr as (Fbd & Hlr & Rbd & Hplain).
  assert (Hp0 : 0 <= prev /\ plain prev).
  { unfold prev, P. clear - HF. destruct pre as [|y p _] using rev_ind; [simpl; split; [lra|left; reflexivity]|].
    rewrite map_app. cbn [map]. rewrite end_of_snoc. apply Forall_app in HF. destruct HF as [HF _].
    apply Forall_app in HF. destruct HF as [_ HF]. inversion HF as [|? ? (Ha1 & Ha2 & Ha4 & Ha3) _]; subst. split; [apply Ha2|exact Ha3]. }
  destruct Hp0 as [Hp0 Hpp].
  assert (Hpl : prev <= loc).
  { apply loc_sorted_app_inv in Hsort. apply end_of_le; [apply Hlr|apply Hsort]. }
  set (beta := count_b P) in *. set (gamma := count_B P) in *.
  assert (Hnb' : (next_b t beta <= n)%nat).
  { unfold count_b in Hnb. rewrite filter_app, app_length in Hnb. fold (count_b P) in Hnb.
    fold beta in Hnb. clear - Hnb. destruct t; simpl in *; lia. }
  assert (HnB' : (next_B t gamma <= n)%nat).
  { unfold count_B in HnB. rewrite filter_app, app_length in HnB. fold (count_B P) in HnB.
    fold gamma in HnB. clear - HnB. destruct t; simpl in *; lia. }
  assert (Hbn : (beta <= n)%nat) by (destruct t; simpl in Hnb'; lia).
  assert (HBn : (gamma <= n)%nat) by (destruct t; simpl in HnB'; lia).
  assert (HB2 : (gamma <= next_B t gamma)%nat) by (destruct t; simpl; lia).
  pose proof (fn_small u eps Hu Heps n Hn1 Hn) as Hn31.
  assert (Hlen' : List.length (pre ++ [bd]) = S (List.length pre)) by (rewrite app_length; simpl; lia).
  assert (Hbs : count_b (map tovF (pre ++ [bd])) = next_b t beta)
    by (rewrite map_app; simpl; rewrite count_b_snoc; reflexivity).
  assert (HBs : count_B (map tovF (pre ++ [bd])) = next_B t gamma)
    by (rewrite map_app; simpl; rewrite count_B_snoc; reflexivity).
  assert (Hes : end_of 0 (map tovF (pre ++ [bd])) = loc)
    by (rewrite map_app; simpl; rewrite end_of_snoc; reflexivity).
  set (k := List.length pre) in *.
  pose proof (fav_le1 u eps eta Hu Heps Heta0 Heta n Hn1 Hn dl Hdl Hdl32 k ltac:(lia)) as Hav.
  pose proof (fav_le1 u eps eta Hu Heps Heta0 Heta n Hn1 Hn dl Hdl Hdl32 (S k) ltac:(lia)) as Hav'.
  set (w' := u_next loc prev t beta gamma w).
  assert (Hu'0 : forall o, 0 <= w' o) by (intros o; apply u_next_pos; auto).
  assert (Hu'out : forall o, (o < next_B t gamma \/ next_b t beta < o)%nat -> w' o = 0)
    by (intros o Ho; unfold w'; eapply u_next_out; eauto).
  assert (Hmass' : rsum (S n) (fun o => scale n loc o * w' o) <= 1) by (apply mass_next; auto).
  assert (Hsum' : rsum (S n) (fun o => w' o * D o (next_b t beta) (next_B t gamma) loc (map tovF post) (n - o)) = D0).
  { unfold w'. rewrite <- u_next_sum. exact Hsum. }
  assert (Hnew : forall (buf : dbuf F) f g, fft_shape (Z.of_nat n + 1) f -> fpmfgen F (Z.of_nat n + 1) g ->
     size (get_src buf) = (Z.of_nat n + 1)%Z -> size (get_dest buf) = (Z.of_nat n + 1)%Z ->
     (forall o, (next_B t gamma <= o <= next_b t beta)%nat ->
        AN (fh u eps n ^ S k) (fav u eps eta n dl (S k)) (get n0 (get_src buf) (Z.of_nat o)) (scale n loc o * w' o)) ->
     finv D0 (pre ++ [bd]) post
       (mkE2 buf f g (Z.of_nat (next_b t beta)) (Z.of_nat (next_B t gamma)) (location bd))).
  { intros buf f g Hf Hg Hs Hd Hv. constructor; cbn [e2_b e2_B e2_prev e2_pmf e2_fft e2_buffers];
      rewrite ?Hbs, ?HBs, ?Hes, ?Hlen'; auto.
    exists w'. auto 6. }
  destruct (ar_rate _ _ _ _ _ _ _ _ HA (Z.of_nat n) (location bd) (e2_prev s)) as (Fl & Ol & Erel & Hpos); auto; try lia.
  { rewrite Hprev. exact Hpp. }
  { rewrite Hprev. split; [exact Hpl|apply Hlr]. }
  change (val (location bd)) with loc in *. rewrite Hprev in *. change (IZR (Z.of_nat n)) with (rn n) in *.
  unfold e2_step. cbv zeta.
  set (lh := n_mul (n_of_Z (Z.of_nat n)) (n_sub (location bd) (e2_prev s))) in *.
  destruct (f0_ok F fin one raw val u eps eta HA) as [F0 V0].
  pose proof (ar_lt _ _ _ _ _ _ _ _ HA n0 lh F0 Fl) as Hgt. rewrite V0 in Hgt.
  pose proof (bpow_gt_0 radix2 (-1000)) as Hb1000.
  assert (HrN : rn n = N) by (unfold rn; rewrite <- INR_IZR_INZ; reflexivity).
  destruct (Rle_lt_or_eq_dec _ _ Hpl) as [Hgap|Hgap].
  - (* positive rate *)
    specialize (Hpos Hgap). rewrite Hgt, Rlt_bool_true by lra.
    set (l := rn n * (loc - prev)) in *.
    assert (Hl : 0 < l <= N).
    { unfold l. rewrite HrN. pose proof (fN_ge1 n Hn1). split; [apply Rmult_lt_0_compat; lra|].
      rewrite <- (Rmult_1_r N) at 2. apply Rmult_le_compat_l; lra. }
    apply wp_bind. eapply wp_fcompute with (l := l); try eassumption.
    { lia. }
    { intros HE Hk. apply Habt; auto. lia. }
    intros g' Hg' Harr.
    apply wp_bind, wp_addr; [lia|].
    apply wp_bind, wp_addr; [lia|].
    apply wp_bind.
    assert (Harrsz : size (pmf_array g') = (Z.of_nat n + 2)%Z) by (destruct Hg' as (_ & _ & _ & ->); lia).
    apply (wp_fconv (pois l) (fun j => scale n prev (gamma + j) * w (gamma + j)%nat) k (e2_fft s)); auto.
    + intros j. apply pois_pos. lra.
    + intros j. apply Rmult_le_pos; [apply scale_pos|apply Hu0].
    + apply pois_sum. lra.
    + apply mass_shift with (beta := beta); auto.
    + lia.
    + unfold get_array. intros _. lia.
    + intros j Hj. rewrite Z.add_0_l. apply Harr; lia.
    + intros j Hj. replace (e2_B s + j)%Z with (Z.of_nat (gamma + Z.to_nat j)) by lia. apply Hw. lia.
    + intros f' dest' Hf' Hs' Hd'. cbn [fst snd]. apply wp_bind. rewrite Hb, HB. fold t.
      apply wp_fupdate; auto; [lia|].
      intros dest2 Hs2 Hd2. apply wp_ok. apply Hnew; auto.
      * rewrite get_src_flip, get_dest_set_dest. exact Hs2.
      * rewrite get_dest_flip, get_src_set_dest. exact Hsrc.
      * intros o Ho. rewrite get_src_flip, get_dest_set_dest. rewrite Hd2 by exact Ho.
        destruct (Nat.ltb_spec beta o) as [Hbo|Hbo].
        { apply anear_zero; [|apply Hav']. unfold w', u_next. destruct (Nat.leb_spec o beta); [lia|].
          rewrite andb_false_r. ring. }
        assert (Ho' : (next_B t gamma <= o <= beta)%nat) by lia.
        pose proof (q_next n loc prev t beta gamma w Hbn o Ho') as HQ. fold w' l in HQ. rewrite HQ.
        pose proof (q_shift n loc prev beta gamma w Hout Hbn o ltac:(lia)) as HS. fold l in HS. rewrite <- HS.
        specialize (Hd' (Z.of_nat o) ltac:(lia)).
        rewrite HB in Hd'. replace (Z.to_nat (Z.of_nat o - Z.of_nat gamma)) with (o - gamma)%nat in Hd' by lia.
        exact Hd'.
  - (* empty gap *)
    assert (Hzero : val lh = 0).
    { rewrite <- Hgap in Erel. rewrite (Rminus_diag_eq prev prev eq_refl), !Rmult_0_r, Rminus_0_r in Erel.
      apply Rabs_le_inv in Erel. lra. }
    rewrite Hgt, Rlt_bool_false by lra.
    rewrite (ar_eq _ _ _ _ _ _ _ _ HA lh n0 Fl F0), V0, Req_bool_true by exact Hzero.
    apply wp_bind. rewrite Hb, HB. fold t. apply wp_fupdate; auto.
    intros src2 Hs2 Hd2. apply wp_ok. apply Hnew; auto.
    + rewrite get_src_set_src. exact Hs2.
    + rewrite get_dest_set_src. exact Hdest.
    + intros o Ho. rewrite get_src_set_src. rewrite Hd2 by exact Ho.
      destruct (Nat.ltb_spec beta o) as [Hbo|Hbo].
      { apply anear_zero; [|apply Hav']. unfold w', u_next. destruct (Nat.leb_spec o beta); [lia|].
        rewrite andb_false_r. ring. }
      assert (Ho' : (next_B t gamma <= o <= beta)%nat) by lia.
      unfold w'. rewrite (q_same n loc prev t beta gamma w Hbn o (eq_sym Hgap) Ho').
      eapply anear_weaken; [| | |apply Hw; lia].
      * apply Rmult_le_pos; [apply scale_pos|apply Hu0].
      * eapply fh_mono; eauto.
      * eapply fav_mono; eauto.
Qed.
End Step.
