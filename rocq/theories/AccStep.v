(** * AccStep: one iteration of ecdf2 in binary64 keeps the masses accurate. *)
From Coquelicot Require Import Coquelicot.
From Flocq Require Import Core.Core IEEE754.BinarySingleNaN.
From Coq Require Import ZArith Reals List Bool Lia Lra String Permutation Sorted Factorial.
From Verif Require Import Base Num Hoare Common PoissonPmf FFTConv Ecdf2 RSum Binary64 Binary64Facts.
From Verif Require Import Spec SpecFacts Cells Events XEcdf2 XEcdf2Main SafeFft SafeEcdf2 Binary64Main.
From Verif Require Import ErrBound B64Round AccPmf AccConv AccProd AccFft AccFftConv AccGrow.
Import List. Import ListNotations.
Local Open Scope R_scope.

(** ** The exact masses *)
Lemma scale_pos n p o : 0 <= scale n p o.
Proof. unfold scale. apply Rmult_le_pos; [apply pow_le; unfold rn; apply IZR_le; lia|apply Rlt_le, exp_pos]. Qed.
Section Mass.
Variables (n : nat) (loc prev : R) (t : bound_tag) (beta gamma : nat) (u : nat -> R).
Hypothesis Hu0 : forall o, 0 <= u o.
Hypothesis Hout : forall o, (o < gamma \/ beta < o)%nat -> u o = 0.
Hypothesis Hpl : prev <= loc.
Hypothesis Hbn : (beta <= n)%nat.
Let q o := scale n prev o * u o.
Hypothesis Hmass : rsum (S n) q <= 1.
Let l := rn n * (loc - prev).
Let u' := u_next loc prev t beta gamma u.

Lemma q_pos o : 0 <= q o.
Proof. apply Rmult_le_pos; [apply scale_pos|apply Hu0]. Qed.
Lemma l_pos : 0 <= l.
Proof. apply Rmult_le_pos; [unfold rn; apply IZR_le, Zle_0_nat|lra]. Qed.
Lemma u_next_pos o : 0 <= u' o.
Proof.
  unfold u', u_next. destruct (_ && _)%bool; [|lra]. apply conv_nonneg; intros; [apply mono_nonneg; lra|apply Hu0].
Qed.
Lemma q_next o : (next_B t gamma <= o <= beta)%nat -> scale n loc o * u' o = conv (pois l) q o.
Proof.
  intros Ho. unfold u', u_next. destruct (Nat.leb_spec (next_B t gamma) o); [|lia].
  destruct (Nat.leb_spec o beta); [|lia]. cbn [andb]. unfold conv. rewrite <- rsum_scal.
  apply rsum_ext. intros k Hk. unfold q. rewrite <- !Rmult_assoc. unfold l. rewrite scale_step by lia. ring.
Qed.
Lemma q_shift o : (gamma <= o)%nat -> conv (pois l) (fun k => q (gamma + k)%nat) (o - gamma) = conv (pois l) q o.
Proof.
  intros Ho. unfold conv. rewrite (rsum_extend (S (o - gamma)) (S o)); [|lia|].
  - apply rsum_ext. intros k Hk. f_equal. f_equal. lia.
  - intros i Hi. unfold q. rewrite (Hout (o - i)%nat) by lia. ring.
Qed.
Lemma mass_next : rsum (S n) (fun o => scale n loc o * u' o) <= 1.
Proof.
  eapply Rle_trans; [|exact Hmass]. eapply Rle_trans; [|apply (conv_mass l q n l_pos q_pos)].
  apply rsum_le. intros o Ho.
  destruct (Nat.leb_spec (next_B t gamma) o) as [H1|H1].
  - destruct (Nat.leb_spec o beta) as [H2|H2].
    + rewrite q_next by lia. lra.
    + unfold u', u_next. destruct (Nat.leb_spec o beta); [lia|]. rewrite andb_false_r, Rmult_0_r.
      apply conv_nonneg; intros; [apply pois_pos, l_pos|apply q_pos].
  - unfold u', u_next. destruct (Nat.leb_spec (next_B t gamma) o); [lia|]. cbn [andb]. rewrite Rmult_0_r.
    apply conv_nonneg; intros; [apply pois_pos, l_pos|apply q_pos].
Qed.
Lemma mass_shift : rsum (S n) (fun k => q (gamma + k)%nat) <= 1.
Proof.
  apply Rle_trans with (rsum (gamma + S n) q).
  - rewrite rsum_add. assert (0 <= rsum gamma q) by (apply rsum_nonneg; intros; apply q_pos). lra.
  - rewrite (rsum_extend (S n)); [exact Hmass|lia|]. intros i Hi. unfold q. rewrite Hout by lia. ring.
Qed.
Lemma u_next_out o : (o < next_B t gamma \/ next_b t beta < o)%nat -> u' o = 0.
Proof.
  intros Ho. unfold u', u_next.
  destruct (Nat.leb_spec (next_B t gamma) o), (Nat.leb_spec o beta); simpl; auto.
  destruct t; simpl in *; lia.
Qed.
Lemma q_same o : loc = prev -> (next_B t gamma <= o <= beta)%nat -> scale n loc o * u' o = q o.
Proof.
  intros He Ho. rewrite q_next by exact Ho.
  rewrite (conv_ext (pois l) (delta 0) q q).
  - rewrite conv_delta. simpl. rewrite Nat.sub_0_r. reflexivity.
  - intros i _. unfold l. rewrite He, Rminus_diag_eq, Rmult_0_r, pois_zero by reflexivity. reflexivity.
  - auto.
Qed.
End Mass.

(** ** The rate of one gap *)
Lemma lam64 (n : nat) (x p : f64) : (1 <= n)%nat -> (Z.of_nat n < 2 ^ 31)%Z ->
  is_finite x = true -> is_finite p = true -> 0 <= B2R p -> B2R p <= B2R x -> B2R x <= 1 ->
  let lh := Bmult mode_NE (b64_of_Z (Z.of_nat n)) (Bminus mode_NE x p) in
  is_finite lh = true /\ Rabs (B2R lh - rn n * (B2R x - B2R p)) <= 3 * u64 * (rn n * (B2R x - B2R p)) /\
  (B2R p < B2R x -> 0 < B2R lh) /\ (B2R x = B2R p -> B2R lh = 0).
Proof.
  intros Hn1 Hn Fx Fp Hp Hle Hx1. cbv zeta. pose proof u64_pos as Hu.
  assert (Hu1 : u64 <= / 2) by (unfold u64; change (/ 2) with (bpow radix2 (-1)); apply bpow_le; lia).
  destruct (of_Z_ok (Z.of_nat n)) as [Fn Vn]; [lia|].
  destruct (minus_ok x p Fx Fp (conj Hp Hle)) as (Fd & Vd & Rd).
  pose proof (rnd_minus_err x p) as Ed. rewrite <- Vd in Ed.
  set (d := Bminus mode_NE x p) in *.
  assert (Hn0 : 0 <= B2R (b64_of_Z (Z.of_nat n))) by (rewrite Vn; apply IZR_le; lia).
  assert (HN1 : 1 <= rn n) by (unfold rn; apply IZR_le; lia).
  destruct (mult_ok (b64_of_Z (Z.of_nat n)) d Fn Fd Hn0 ltac:(lra)) as (Fl & Vl & _).
  pose proof (rnd_int_mult_err (Z.of_nat n) d) as El. rewrite Vn in Vl. rewrite <- Vl in El. fold (rn n) in El.
  set (lh := Bmult mode_NE (b64_of_Z (Z.of_nat n)) d) in *.
  set (w := B2R x - B2R p) in *. assert (Hw : 0 <= w) by (unfold w; lra).
  rewrite (Rabs_pos_eq w Hw) in Ed. rewrite (Rabs_pos_eq (rn n * B2R d)) in El by (apply Rmult_le_pos; lra).
  apply Rabs_le_inv in Ed. apply Rabs_le_inv in El.
  assert (HD : w - u64 * w <= B2R d <= w + u64 * w) by lra.
  assert (HM : rn n * w - rn n * (u64 * w) <= rn n * B2R d <= rn n * w + rn n * (u64 * w)).
  { split; [rewrite <- Rmult_minus_distr_l|rewrite <- Rmult_plus_distr_l]; apply Rmult_le_compat_l; lra. }
  assert (Hrw : 0 <= rn n * w) by (apply Rmult_le_pos; lra).
  set (y := rn n * w) in *. replace (rn n * (u64 * w)) with (u64 * y) in HM by (unfold y; ring).
  assert (Huy : 0 <= u64 * y <= / 2 * y) by (split; [apply Rmult_le_pos; lra|apply Rmult_le_compat_r; lra]).
  assert (Huz : u64 * (rn n * B2R d) <= u64 * (2 * y)) by (apply Rmult_le_compat_l; lra).
  split; [exact Fl|]. split; [apply Rabs_le; split; nra|]. split.
  - intros Hlt. assert (Hw0 : 0 < w) by (unfold w; lra). assert (Hy0 : 0 < y) by (unfold y; apply Rmult_lt_0_compat; lra).
    assert (Hz : 0 < rn n * B2R d) by lra.
    assert (u64 * (rn n * B2R d) <= / 2 * (rn n * B2R d)) by (apply Rmult_le_compat_r; lra). lra.
  - intros He. assert (Hw0 : w = 0) by (unfold w; lra). rewrite Hw0 in HD.
    assert (Hd0 : B2R d = 0) by lra. rewrite Vl, Hd0, Rmult_0_r. apply rnd_0.
Qed.

(** ** The table of Poisson masses *)
Section Table.
Context (L : libm) (E : env (Bnum L)) {thr : exn -> Prop} {abt : Prop}.
Notation BN := (Bnum L).
Notation WP := (wp thr abt).

Definition pmfgen64 (mk : Z) (g : pmfgen BN) : Prop :=
  pg_max_k g = mk /\ @size f64 (log_gamma_LUT g) = (mk + 2)%Z /\
  (forall i, (0 <= i < mk + 2)%Z -> gb (log_gamma_LUT g) i = lm_lgamma L i) /\
  @size f64 (pmf_array g) = (mk + 1)%Z.

Lemma size_alloc64 site k : (0 <= k)%Z -> @size f64 (alloc_doubles E site k) = k.
Proof. intros Hk. unfold size, alloc_doubles. rewrite map_length, seq_length. lia. Qed.

Lemma wp_pmfgen64 mk (Q : pmfgen BN -> Prop) : (0 < mk)%Z ->
  (forall g, pmfgen64 mk g -> Q g) -> WP (pmfgen_make E mk) Q.
Proof.
  intros Hmk HQ. unfold pmfgen_make.
  apply wp_bind, wp_cassert_true; [apply Z.ltb_lt; exact Hmk|].
  apply wp_bind. apply wp_for with (P := fun i (a : list f64) => size a = (mk + 2)%Z /\
     forall j, (0 <= j < i)%Z -> gb a j = lm_lgamma L j).
  - split; [apply size_alloc64; lia|lia].
  - intros i a Hi [Hs Ha]. apply wp_wr; [change (@size (car BN) a) with (@size f64 a); lia|].
    rewrite size_upd. split; auto.
    intros j Hj. rewrite get_upd by lia. destruct (Z.eqb_spec i j) as [->|]; auto. apply Ha. lia.
  - intros lut [Hs Ha]. apply wp_bind.
    apply wp_for with (P := fun _ (a : list f64) => size a = (mk + 1)%Z).
    + apply size_alloc64; lia.
    + intros i a Hi Hs'. apply wp_wr; [change (@size (car BN) a) with (@size f64 a); lia|]. rewrite size_upd. exact Hs'.
    + intros arr Hs'. apply wp_ok. apply HQ. split; [reflexivity|]. cbn [log_gamma_LUT pmf_array].
      split; [exact Hs|]. split; [|exact Hs']. intros i Hi. apply Ha. lia.
Qed.

End Table.

Section Step.
Context (L : libm) (E : env (Bnum L)) (eps : R).
Notation BN := (Bnum L).
Hypothesis HL : libm_accurate L eps.
Hypothesis Heps : u64 <= eps.
Variable n : nat.
Hypothesis Hn1 : (1 <= n)%nat.
Notation N := (INR n).
Hypothesis Hn : 65536 * (N * N) * eps <= 1.
(** whether FFTs are used, and the error one of them may add *)
Variables (uf : bool) (dl : R).
Hypothesis Hdl : 0 <= dl.
Hypothesis Hdl32 : 32 * (N * N) * dl <= 1.
Hypothesis Hfft : uf = true -> exists e, fft_accurate E e /\ u64 <= e /\ e <= / 4096 /\ 400 * e <= dl.
Context {thr : exn -> Prop} {abt : Prop}.
Notation WP := (wp thr abt).

Lemma wp_compute64 g k (lh : f64) l (Q : pmfgen BN -> Prop) :
  pmfgen64 L (Z.of_nat n + 1) g -> (k <= Z.of_nat n + 1)%Z ->
  is_finite lh = true -> 0 < B2R lh -> 0 < l <= N -> Rabs (B2R lh - l) <= 3 * u64 * l ->
  (asserts E = true -> (k < 0)%Z -> abt) ->
  (forall g', pmfgen64 L (Z.of_nat n + 1) g' ->
     (forall i, (0 <= i <= k)%Z -> (i <= Z.of_nat n)%Z ->
        fnear (f1 eps n) eta64 (gb (get_array g') i) (pois l (Z.to_nat i))) -> Q g') ->
  WP (compute_array E g k (lh : car BN)) Q.
Proof.
  intros (Hg1 & Hg2 & Hg3 & Hg4) Hk Fl Hl0 Hl Hrel Habt HQ. unfold compute_array.
  apply wp_bind. apply wp_cassert; [intros HE Hc; apply Z.leb_gt in Hc; auto|]. intros _.
  apply wp_bind, wp_cassert_true; [rewrite Hg1; apply Z.leb_le; exact Hk|].
  pose proof (fin_neg L lh Fl (Rlt_le _ _ Hl0)) as Hneg. rewrite Hneg.
  assert (Heq : @n_eq BN lh n0 = false).
  { change (@n_eq BN lh n0) with (Beqb lh (b64_of_Z 0)). destruct zero_ok as [F0 V0].
    rewrite Beqb_correct, V0 by auto. apply Req_bool_false. lra. }
  rewrite Heq. apply wp_bind.
  apply wp_for with (P := fun i (a : list f64) => size a = (Z.of_nat n + 2)%Z /\
     forall j, (0 <= j < i)%Z -> (j <= Z.of_nat n)%Z -> fnear (f1 eps n) eta64 (gb a j) (pois l (Z.to_nat j))).
  - split; [|lia]. change (@size f64 (pmf_array g) = Z.of_nat n + 2)%Z. lia.
  - intros i a Hi [Hs Ha]. apply wp_bind.
    apply (wp_rd (b64_of_Z 0)); [change (@size (car BN) (log_gamma_LUT g)) with (@size f64 (log_gamma_LUT g)); lia|].
    apply wp_wr; [change (@size (car BN) a) with (@size f64 a); lia|]. rewrite size_upd. split; auto. intros j Hj Hjn.
    rewrite get_upd by lia. destruct (Z.eqb_spec i j) as [->|].
    + change (@get (car BN) (b64_of_Z 0) (log_gamma_LUT g) (j + 1)) with (gb (log_gamma_LUT g) (j + 1)).
      rewrite Hg3 by lia.
      pose proof (pmf_formula_near L eps HL Heps n Hn1 Hn lh l (Z.to_nat j) Fl Hl0 Hl Hrel ltac:(lia)) as HP.
      cbv zeta in HP. rewrite Z2Nat.id in HP by lia. exact HP.
    + apply Ha; lia.
  - intros a [Hs Ha]. apply wp_ok, HQ.
    + split; [exact Hg1|]. split; [exact Hg2|]. split; [exact Hg3|]. cbn [pmf_array]. lia.
    + intros i Hi Hin. unfold get_array. cbn [pmf_array]. apply Ha; lia.
Qed.

Lemma wp_update64 t (dest : list f64) beta gamma (Q : list f64 * Z * Z -> Prop) :
  size dest = (Z.of_nat n + 1)%Z -> (next_b t beta <= n)%nat -> (next_B t gamma <= n)%nat ->
  (forall dest', size dest' = (Z.of_nat n + 1)%Z ->
     (forall o, (next_B t gamma <= o <= next_b t beta)%nat ->
        gb dest' (Z.of_nat o) = if (beta <? o)%nat then b64_of_Z 0 else gb dest (Z.of_nat o)) ->
     Q (dest', Z.of_nat (next_b t beta), Z.of_nat (next_B t gamma))) ->
  WP (@update_dest_buffer_and_step_counts BN t dest (Z.of_nat beta) (Z.of_nat gamma)) Q.
Proof.
  intros Hs Hb HB HQ. destruct t; cbn [update_dest_buffer_and_step_counts next_b next_B] in *.
  - apply wp_bind, wp_wr; [change (@size (car BN) dest) with (@size f64 dest); lia|]. apply wp_ok.
    replace (Z.of_nat beta + 1)%Z with (Z.of_nat (S beta)) by lia.
    apply HQ; [rewrite size_upd; auto|]. intros o Ho. rewrite get_upd by lia.
    destruct (Z.eqb_spec (Z.of_nat (S beta)) (Z.of_nat o)), (Nat.ltb_spec beta o); auto; lia.
  - apply wp_bind, wp_wr; [change (@size (car BN) dest) with (@size f64 dest); lia|]. apply wp_ok.
    replace (Z.of_nat gamma + 1)%Z with (Z.of_nat (S gamma)) by lia.
    apply HQ; [rewrite size_upd; auto|]. intros o Ho. rewrite get_upd by lia.
    destruct (Z.eqb_spec (Z.of_nat gamma) (Z.of_nat o)), (Nat.ltb_spec beta o); auto; lia.
  - apply wp_ok, HQ; auto. intros o Ho. destruct (Nat.ltb_spec beta o); auto; lia.
Qed.

(** one convolution, by either method *)
Lemma wp_either (p s : nat -> R) k f sz (s0 : list f64) o0 (s1 : list f64) o1 (dest : list f64) od (Q : fftconv BN * list f64 -> Prop) :
  (forall j, 0 <= p j) -> (forall j, 0 <= s j) -> rsum (S n) p <= 1 -> rsum (S n) s <= 1 -> (S k <= 2 * n + 1)%nat ->
  fft_shape (Z.of_nat n + 1) f -> (sz <= Z.of_nat n + 1)%Z ->
  (0 < sz -> 0 <= o0 /\ o0 + sz <= size s0 /\ 0 <= o1 /\ o1 + sz <= size s1 /\ 0 <= od /\ od + sz <= size dest)%Z ->
  (forall j, (0 <= j < sz)%Z -> fnear (f1 eps n) eta64 (gb s0 (o0 + j)) (p (Z.to_nat j))) ->
  (forall j, (0 <= j < sz)%Z -> fnear (hf eps n ^ k) (av eps n dl k) (gb s1 (o1 + j)) (s (Z.to_nat j))) ->
  (forall f' dest', fft_shape (Z.of_nat n + 1) f' -> size dest' = size dest ->
     (forall i, (od <= i < od + sz)%Z ->
        fnear (hf eps n ^ S k) (av eps n dl (S k)) (gb dest' i) (conv p s (Z.to_nat (i - od)))) -> Q (f', dest')) ->
  WP (if uf then @fft_convolve_same_size BN E f sz s0 o0 s1 o1 dest od
      else dest' <- @convolve_same_size BN sz s0 o0 s1 o1 dest od ;; Ok (f, dest')) Q.
Proof.
  intros Hp0 Hs0 Hp1 Hs1 Hk Hf Hsz Hbd H0 H1 HQ.
  pose proof (f1_range eps Heps n Hn1 Hn) as F1. pose proof (hf_pow2 eps Heps n Hn1 Hn k ltac:(lia)) as F2.
  pose proof (av_le1 eps Heps n Hn1 Hn dl Hdl Hdl32 k ltac:(lia)) as A2.
  pose proof (av_n eps Heps n Hn1 Hn dl Hdl Hdl32 k ltac:(lia)) as A3.
  pose proof (N_le eps Heps n Hn1 Hn) as N31. pose proof (grow2 eps Heps n Hn1 Hn) as G2.
  pose proof (n_small eps Heps n Hn1 Hn) as Hns. pose proof (N_ge1 n Hn1) as HN.
  pose proof (abs_step eps Heps n Hn1 Hn dl Hdl Hdl32 k Hk) as HA.
  assert (A1 : 0 <= eta64 <= 1).
  { split; [apply Rlt_le, eta64_pos|]. unfold eta64. change 1 with (bpow radix2 0). apply bpow_le. lia. }
  assert (Hne : INR (S n) * eta64 <= 1).
  { rewrite S_INR. apply Rle_trans with ((2 * bpow radix2 31) * eta64); [apply Rmult_le_compat_r; lra|].
    change 2 with (bpow radix2 1). unfold eta64. rewrite <- !bpow_plus. change 1 with (bpow radix2 0). apply bpow_le. lia. }
  destruct uf eqn:Euf.
  - destruct (Hfft eq_refl) as (e & HF & He1 & He2 & He3).
    apply (wp_fft_convolve64 L E e n (f1 eps n) (hf eps n ^ k) eta64 (av eps n dl k) p s); auto; try lra; try lia.
    intros f' dest' Hf' Hd Hv. apply HQ; auto. intros i Hi.
    eapply fnear_weaken; [apply conv_nonneg; auto| | |apply Hv, Hi]; [rewrite fac_step; lra|lra].
  - apply wp_bind. apply (wp_convolve64 L n (f1 eps n) (hf eps n ^ k) eta64 (av eps n dl k) p s); auto.
    intros dest' Hd Hv. apply wp_ok, HQ; auto. intros i Hi.
    eapply fnear_weaken; [apply conv_nonneg; auto| | |apply Hv, Hi]; [rewrite fac_step; lra|lra].
Qed.

(** ** The invariant of the sweep *)
Record inv64 (D0 : R) (pre post : list (bound BN)) (s : e2state BN) : Prop := {
  i64_b : e2_b s = Z.of_nat (count_b (map (tor64 L) pre));
  i64_B : e2_B s = Z.of_nat (count_B (map (tor64 L) pre));
  i64_prev : is_finite (e2_prev s : f64) = true /\ B2R (e2_prev s : f64) = end_of 0 (map (tor64 L) pre);
  i64_fft : fft_shape (Z.of_nat n + 1) (e2_fft s);
  i64_pmf : pmfgen64 L (Z.of_nat n + 1) (e2_pmf s);
  i64_src : @size f64 (get_src (e2_buffers s)) = (Z.of_nat n + 1)%Z;
  i64_dest : @size f64 (get_dest (e2_buffers s)) = (Z.of_nat n + 1)%Z;
  i64_u : exists u : nat -> R,
    (forall o, 0 <= u o) /\
    (forall o, (o < count_B (map (tor64 L) pre) \/ count_b (map (tor64 L) pre) < o)%nat -> u o = 0) /\
    rsum (S n) (fun o => scale n (end_of 0 (map (tor64 L) pre)) o * u o) <= 1 /\
    (forall o, (count_B (map (tor64 L) pre) <= o <= count_b (map (tor64 L) pre))%nat ->
       fnear (hf eps n ^ List.length pre) (av eps n dl (List.length pre))
         (gb (get_src (e2_buffers s)) (Z.of_nat o)) (scale n (end_of 0 (map (tor64 L) pre)) o * u o)) /\
    rsum (S n) (fun o => u o * D o (count_b (map (tor64 L) pre)) (count_B (map (tor64 L) pre))
       (end_of 0 (map (tor64 L) pre)) (map (tor64 L) post) (n - o)) = D0
}.

Lemma fnear_zero f a x : x = 0 -> 0 <= a -> fnear f a (b64_of_Z 0) x.
Proof.
  intros -> Ha. destruct zero_ok as [F0 V0]. split; [exact F0|]. unfold near. rewrite V0, Rminus_diag_eq, Rabs_R0 by reflexivity. lra.
Qed.

Lemma step64 D0 pre bd post s :
  Forall (fun x => fin64 L x /\ 0 <= fst (tor64 L x) <= 1) (pre ++ bd :: post) ->
  loc_sorted (map (tor64 L) (pre ++ bd :: post)) ->
  (count_b (map (tor64 L) (pre ++ bd :: post)) <= n)%nat ->
  (count_B (map (tor64 L) (pre ++ bd :: post)) <= n)%nat ->
  (List.length pre < 2 * n + 1)%nat ->
  (asserts E = true -> end_of 0 (map (tor64 L) pre) < fst (tor64 L bd) ->
     (count_b (map (tor64 L) pre) + 1 < count_B (map (tor64 L) pre))%nat -> abt) ->
  inv64 D0 pre (bd :: post) s ->
  WP (e2_step E (b64_of_Z (Z.of_nat n) : car BN) uf bd s) (inv64 D0 (pre ++ [bd]) post).
Proof.
  intros HF Hsort Hnb HnB Hlt Habt Hinv.
  destruct Hinv as [Hb HB [Fprev Hprev] Hfs Hpmf Hsrc Hdest (u & Hu0 & Hout & Hmass & Hu & Hsum)].
  rewrite !map_app in *. cbn [map] in *.
  set (P := map (tor64 L) pre) in *. set (prev := end_of 0 P) in *.
  set (loc := fst (tor64 L bd)) in *. set (t := tag bd) in *.
  assert (Hbd : tor64 L bd = (loc, t)) by reflexivity. rewrite Hbd in Hsort, Hnb, HnB, Hsum.
  assert (Hbdr : fin64 L bd /\ 0 <= loc <= 1).
  { apply Forall_app in HF. destruct HF as [_ HF]. inversion HF; subst. assumption. }
  destruct Hbdr as [Fbd Hlr].
  assert (Hp0 : 0 <= prev).
  { unfold prev, P. clear - HF. destruct pre as [|y p _] using rev_ind; [simpl; lra|].
    rewrite map_app. cbn [map]. rewrite end_of_snoc. apply Forall_app in HF. destruct HF as [HF _].
    apply Forall_app in HF. destruct HF as [_ HF]. inversion HF; subst. apply H1. }
  assert (Hpl : prev <= loc).
  { apply loc_sorted_app_inv in Hsort. apply end_of_le; [apply Hlr|apply Hsort]. }
  set (beta := count_b P) in *. set (gamma := count_B P) in *.
  assert (Hnb' : (next_b t beta <= n)%nat).
  { unfold count_b in Hnb. rewrite filter_app, app_length in Hnb. fold (count_b P) in Hnb.
    fold beta in Hnb. clear - Hnb. destruct t; simpl in *; lia. }
  assert (HnB' : (next_B t gamma <= n)%nat).
  { unfold count_B in HnB. rewrite filter_app, app_length in HnB. fold (count_B P) in HnB.
    fold gamma in HnB. clear - HnB. destruct t; simpl in *; lia. }
  assert (Hbn : (beta <= n)%nat) by (destruct t; simpl in Hnb'; lia).
  assert (HBn : (gamma <= n)%nat) by (destruct t; simpl in HnB'; lia).
  assert (HB2 : (gamma <= next_B t gamma)%nat) by (destruct t; simpl; lia).
  pose proof (n_small eps Heps n Hn1 Hn) as Hn31.
  assert (Hlen' : List.length (pre ++ [bd]) = S (List.length pre)) by (rewrite app_length; simpl; lia).
  assert (Hbs : count_b (map (tor64 L) (pre ++ [bd])) = next_b t beta)
    by (rewrite map_app; simpl; rewrite count_b_snoc; reflexivity).
  assert (HBs : count_B (map (tor64 L) (pre ++ [bd])) = next_B t gamma)
    by (rewrite map_app; simpl; rewrite count_B_snoc; reflexivity).
  assert (Hes : end_of 0 (map (tor64 L) (pre ++ [bd])) = loc)
    by (rewrite map_app; simpl; rewrite end_of_snoc; reflexivity).
  set (k := List.length pre) in *.
  pose proof (av_le1 eps Heps n Hn1 Hn dl Hdl Hdl32 k ltac:(lia)) as Hav.
  pose proof (av_le1 eps Heps n Hn1 Hn dl Hdl Hdl32 (S k) ltac:(lia)) as Hav'.
  set (u' := u_next loc prev t beta gamma u).
  assert (Hu'0 : forall o, 0 <= u' o) by (intros o; apply u_next_pos; auto).
  assert (Hu'out : forall o, (o < next_B t gamma \/ next_b t beta < o)%nat -> u' o = 0)
    by (intros o Ho; unfold u'; eapply u_next_out; eauto).
  assert (Hmass' : rsum (S n) (fun o => scale n loc o * u' o) <= 1) by (apply mass_next; auto).
  assert (Hsum' : rsum (S n) (fun o => u' o * D o (next_b t beta) (next_B t gamma) loc (map (tor64 L) post) (n - o)) = D0).
  { unfold u'. rewrite <- u_next_sum. exact Hsum. }
  (* what is left to show about the new source buffer *)
  assert (Hnew : forall (buf : dbuf BN) f g, fft_shape (Z.of_nat n + 1) f -> pmfgen64 L (Z.of_nat n + 1) g ->
     @size f64 (get_src buf) = (Z.of_nat n + 1)%Z -> @size f64 (get_dest buf) = (Z.of_nat n + 1)%Z ->
     (forall o, (next_B t gamma <= o <= next_b t beta)%nat ->
        fnear (hf eps n ^ S k) (av eps n dl (S k)) (gb (get_src buf) (Z.of_nat o)) (scale n loc o * u' o)) ->
     inv64 D0 (pre ++ [bd]) post
       (mkE2 buf f g (Z.of_nat (next_b t beta)) (Z.of_nat (next_B t gamma)) (location bd))).
  { intros buf f g Hf Hg Hs Hd Hv. constructor; cbn [e2_b e2_B e2_prev e2_pmf e2_fft e2_buffers];
      rewrite ?Hbs, ?HBs, ?Hes, ?Hlen'; auto.
    exists u'. auto 6. }
  destruct (lam64 n (location bd) (e2_prev s) Hn1 Hn31 Fbd Fprev) as (Fl & Erel & Hpos & Hzero).
  { change (0 <= B2R (e2_prev s : f64)). rewrite Hprev. exact Hp0. }
  { change (B2R (e2_prev s : f64) <= loc). rewrite Hprev. exact Hpl. }
  { apply Hlr. }
  change (@B2R 53 1024 (location bd)) with loc in *.
  change (@B2R 53 1024 (e2_prev s)) with (B2R (e2_prev s : f64)) in *. rewrite Hprev in *.
  unfold e2_step.
  change (@n_mul BN (b64_of_Z (Z.of_nat n) : car BN) (@n_sub BN (location bd) (e2_prev s)))
    with (Bmult mode_NE (b64_of_Z (Z.of_nat n)) (Bminus mode_NE (location bd : f64) (e2_prev s : f64)) : car BN).
  set (lh := Bmult mode_NE (b64_of_Z (Z.of_nat n)) (Bminus mode_NE (location bd : f64) (e2_prev s : f64))) in *.
  pose proof (gt_zero L lh Fl) as Hgt.
  assert (HrN : rn n = N) by (unfold rn; rewrite <- INR_IZR_INZ; reflexivity).
  destruct (Rle_lt_or_eq_dec _ _ Hpl) as [Hgap|Hgap].
  - (* positive rate *)
    specialize (Hpos Hgap). rewrite Rlt_bool_true in Hgt by exact Hpos. cbv zeta.
    match goal with |- wp _ _ (if ?c then _ else _) _ => replace c with true by (symmetry; exact Hgt) end.
    cbv iota.
    set (l := rn n * (loc - prev)) in *.
    assert (Hl : 0 < l <= N).
    { unfold l. rewrite HrN. pose proof (N_ge1 n Hn1). split; [apply Rmult_lt_0_compat; lra|].
      rewrite <- (Rmult_1_r N) at 2. apply Rmult_le_compat_l; lra. }
    apply wp_bind. eapply wp_compute64 with (l := l); try eassumption.
    { lia. }
    { intros HE Hk. apply Habt; auto. lia. }
    intros g' Hg' Harr.
    apply wp_bind, wp_addr; [change (0 <= e2_B s < @size f64 (get_src (e2_buffers s)))%Z; lia|].
    apply wp_bind, wp_addr; [change (0 <= e2_B s < @size f64 (get_dest (e2_buffers s)))%Z; lia|].
    apply wp_bind.
    assert (Harrsz : @size f64 (pmf_array g') = (Z.of_nat n + 2)%Z) by (destruct Hg' as (_ & _ & _ & ->); lia).
    apply (wp_either (pois l) (fun j => scale n prev (gamma + j) * u (gamma + j)%nat) k (e2_fft s)); auto.
    + intros j. apply pois_pos. lra.
    + intros j. apply Rmult_le_pos; [apply scale_pos|apply Hu0].
    + apply pois_sum. lra.
    + apply mass_shift with (beta := beta); auto.
    + lia.
    + change (@size f64 (get_array g')) with (@size f64 (pmf_array g')). intros _. lia.
    + intros j Hj. rewrite Z.add_0_l. apply Harr; lia.
    + intros j Hj. replace (e2_B s + j)%Z with (Z.of_nat (gamma + Z.to_nat j)) by lia. apply Hu. lia.
    + intros f' dest' Hf' Hs' Hd'. cbn [fst snd]. apply wp_bind. rewrite Hb, HB. fold t.
      apply wp_update64; auto; [transitivity (@size f64 (get_dest (e2_buffers s))); auto|].
      intros dest2 Hs2 Hd2. apply wp_ok. apply Hnew; auto.
      * rewrite get_src_flip, get_dest_set_dest. exact Hs2.
      * rewrite get_dest_flip, get_src_set_dest. exact Hsrc.
      * intros o Ho. rewrite get_src_flip, get_dest_set_dest. rewrite Hd2 by exact Ho.
        destruct (Nat.ltb_spec beta o) as [Hbo|Hbo].
        { apply fnear_zero; [|apply Hav']. unfold u', u_next. destruct (Nat.leb_spec o beta); [lia|].
          rewrite andb_false_r. ring. }
        assert (Ho' : (next_B t gamma <= o <= beta)%nat) by lia.
        pose proof (q_next n loc prev t beta gamma u Hbn o Ho') as HQ. fold u' l in HQ. rewrite HQ.
        pose proof (q_shift n loc prev beta gamma u Hout Hbn o ltac:(lia)) as HS. fold l in HS. rewrite <- HS.
        specialize (Hd' (Z.of_nat o) ltac:(lia)).
        rewrite HB in Hd'. replace (Z.to_nat (Z.of_nat o - Z.of_nat gamma)) with (o - gamma)%nat in Hd' by lia.
        exact Hd'.
  - (* empty gap *)
    specialize (Hzero (eq_sym Hgap)). rewrite Rlt_bool_false in Hgt by lra. cbv zeta.
    match goal with |- wp _ _ (if ?c then _ else _) _ => replace c with false by (symmetry; exact Hgt) end.
    pose proof (fin_cases L lh Fl (Req_le _ _ (eq_sym Hzero)) Hgt) as Heq.
    cbv iota.
    match goal with |- wp _ _ (if ?c then _ else _) _ => replace c with true by (symmetry; exact Heq) end. cbv iota.
    apply wp_bind. rewrite Hb, HB. fold t. apply wp_update64; auto.
    intros src2 Hs2 Hd2. apply wp_ok. apply Hnew; auto.
    + rewrite get_src_set_src. exact Hs2.
    + rewrite get_dest_set_src. exact Hdest.
    + intros o Ho. rewrite get_src_set_src. rewrite Hd2 by exact Ho.
      destruct (Nat.ltb_spec beta o) as [Hbo|Hbo].
      { apply fnear_zero; [|apply Hav']. unfold u', u_next. destruct (Nat.leb_spec o beta); [lia|].
        rewrite andb_false_r. ring. }
      assert (Ho' : (next_B t gamma <= o <= beta)%nat) by lia.
      unfold u'. rewrite (q_same n loc prev t beta gamma u Hbn o (eq_sym Hgap) Ho').
      eapply fnear_weaken; [| | |apply Hu; lia].
      * apply Rmult_le_pos; [apply scale_pos|apply Hu0].
      * apply hf_mono; auto.
      * apply av_mono; auto.
Qed.
End Step.
