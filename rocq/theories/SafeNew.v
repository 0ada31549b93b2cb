(** * SafeNew: control flow, memory accesses and termination of ecdf1_new for every floating-point type. *)
From Coq Require Import ZArith List Bool Lia String.
From Verif Require Import Base Num Hoare Common PoissonPmf FFTConv Ecdf1New SafeFft SafeEcdf2.
Import List.
Local Open Scope Z_scope.

Section SafeNew.
Context {N : num} (E : env N).
Notation T := (car N).
Context {thr : exn -> Prop} {abt : Prop}.
Notation WP := (wp thr abt).
Variables (n : Z) (intensity : T) (B : list T) (jump : Z).
Hypothesis Hn : 1 <= n.
Hypothesis HB : size B = n.
Hypothesis Hj : 1 <= jump.
Hypothesis HF : fft_lengths E.

(** boundary locations, with 0 before the first and 1 after the last *)
Definition loc (i : Z) : T := if i <? 0 then n0 else if i <? n then get n0 B i else n1.
Definition rate (i j : Z) : T := n_mul intensity (n_sub (loc j) (loc i)).

Hypothesis Hneg : forall i j, -1 <= i < j -> j <= n -> n_lt (rate i j) n0 = true -> thr (RuntimeError msg_compute_array).
Hypothesis Hle : forall i j, 0 <= i < j -> j < n -> asserts E = true -> n_le n0 (rate i j) = false -> abt.

Lemma wp_rd_loc i (Q : T -> Prop) : 0 <= i < n -> Q (loc i) -> WP (rd B i) Q.
Proof.
  intros Hi HQ. apply wp_rd with (d := n0); [lia|]. unfold loc in HQ.
  destruct (Z.ltb_spec i 0); [lia|]. destruct (Z.ltb_spec i n); [exact HQ|lia].
Qed.

Lemma loc_m1 : loc (-1) = n0.
Proof. reflexivity. Qed.
Lemma loc_n : loc n = n1.
Proof. unfold loc. destruct (Z.ltb_spec n 0); [lia|]. rewrite Z.ltb_irrefl. reflexivity. Qed.

Record in_shape (i : Z) (s : inner) : Prop := mkInSh {
  ish_pmf : pg_shape (n + 1) (in_pmf s);
  ish_fft : fft_shape (n + 1) (in_fft s);
  ish_src : size (get_src (in_mini s)) = jump;
  ish_dst : size (get_dest (in_mini s)) = jump;
  ish_dest : size (in_dest s) = n + 1;
  ish_prev : in_prev s = loc (i - 1)
}.

Lemma sh_subtract pg I i p (dest : list T) (Q : list T -> Prop) :
  pg_shape (n + 1) pg -> 0 <= i < I -> I < n -> size dest = n + 1 ->
  (forall d, size d = n + 1 -> Q d) ->
  WP (subtract_exits E n pg I i p (rate i I) dest) Q.
Proof.
  intros Hpg Hi HI Hs HQ. unfold subtract_exits.
  apply wp_for with (P := fun _ d => size d = n + 1); auto.
  intros j d Hj' Hd. apply wp_bind, wp_rd_any; [lia|]. intros x _.
  apply wp_bind. apply sh_evaluate_pmf with (mk := n + 1); auto; [lia| |].
  - intros HE Hle'. exact (Hle i I Hi HI HE Hle').
  - intros y. apply wp_wr; [lia|]. rewrite size_upd. exact Hd.
Qed.

Lemma sh_inner I_prev I i s : -1 <= I_prev -> I_prev < i < I -> I < n -> I - I_prev <= jump -> in_shape i s ->
  WP (inner_step E n intensity B I_prev I i s) (in_shape (i + 1)).
Proof.
  intros Hp Hi HI HJ [S1 S2 S3 S4 S5 S6]. unfold inner_step.
  apply wp_bind, wp_rd_loc; [lia|]. rewrite S6.
  change (n_mul intensity (n_sub (loc i) (loc (i - 1)))) with (rate (i - 1) i).
  apply wp_bind. apply sh_compute_array with (mk := n + 1); auto; try lia.
  { intros H. apply (Hneg (i - 1) i); auto; lia. }
  intros _ g Hg. pose proof Hg as (_ & _ & Hg3). cbv zeta.
  apply wp_bind, wp_addr; [lia|]. apply wp_bind, wp_addr; [lia|].
  apply wp_bind. apply sh_fft_convolve with (m := n + 1); auto; try lia.
  { intros _. unfold get_array. lia. }
  intros f' d' Hf' Hd'. cbn [fst snd].
  apply wp_bind, wp_rd_any; [lia|]. intros pe _.
  apply wp_bind, wp_rd_loc; [lia|].
  change (n_mul intensity (n_sub (loc I) (loc i))) with (rate i I).
  apply wp_bind, sh_subtract; auto; [lia|]. intros dest Hdest.
  apply wp_bind, wp_wr; [lia|]. apply wp_bind, wp_wr; [lia|]. apply wp_ok.
  constructor; cbn [in_pmf in_fft in_mini in_dest in_prev]; auto.
  - rewrite get_src_flip, get_dest_set_src, get_dest_set_dest, size_upd. lia.
  - rewrite get_dest_flip, get_src_set_src, size_upd. lia.
  - f_equal. lia.
Qed.

Record out_shape (s : outer) : Prop := mkOutSh {
  osh_src : size (get_src (o_bufs s)) = n + 1;
  osh_dst : size (get_dest (o_bufs s)) = n + 1;
  osh_ms : size (get_src (o_mini s)) = jump;
  osh_md : size (get_dest (o_mini s)) = jump;
  osh_fft : fft_shape (n + 1) (o_fft s);
  osh_pmf : pg_shape (n + 1) (o_pmf s);
  osh_tmp : size (o_tmp s) = n + 1;
  osh_prev : o_prev_loc s = loc (o_I_prev s)
}.

Lemma sh_outer s : out_shape s -> -1 <= o_I_prev s < o_I s -> o_I s < n -> o_I s - o_I_prev s <= jump ->
  WP (outer_step E n intensity B s) (fun s' => out_shape s' /\ o_I_prev s' = o_I s /\ o_I s' = o_I s).
Proof.
  intros [S1 S2 S3 S4 S5 S6 S7 S8] Hp HI HJ. unfold outer_step. cbv zeta.
  set (I := o_I s) in *. set (P := o_I_prev s) in *.
  apply wp_bind, wp_rd_loc; [lia|]. rewrite S8.
  change (n_mul intensity (n_sub (loc I) (loc P))) with (rate P I).
  apply wp_bind. apply sh_compute_array with (mk := n + 1); auto; try lia.
  { intros H. apply (Hneg P I); auto; lia. }
  intros _ g Hg. pose proof Hg as (_ & _ & Hg3).
  apply wp_bind, wp_addr; [lia|].
  apply wp_bind. apply sh_fft_convolve with (m := n + 1); auto; try lia.
  { intros _. unfold get_array. lia. }
  intros f1 tmp Hf1 Htmp. cbn [fst snd].
  apply wp_bind, wp_addr; [lia|]. apply wp_bind, wp_addr; [lia|].
  apply wp_bind. apply wp_fill with (d := n0 : T); [lia|]. intros d1 Hd1 _.
  apply wp_bind. apply wp_blit with (d := n0 : T); [lia|]. intros d2 Hd2 _.
  apply wp_bind, wp_addr; [lia|]. apply wp_bind, wp_addr; [lia|].
  apply wp_bind. apply wp_blit with (d := n0 : T); [lia|]. intros m1 Hm1 _.
  apply wp_bind. apply wp_for with (P := in_shape).
  - constructor; cbn [in_pmf in_fft in_mini in_dest in_prev]; auto.
    + rewrite get_src_set_src. lia.
    + rewrite get_dest_set_src. lia.
    + lia.
    + f_equal. lia.
  - intros i t Hi Ht. apply sh_inner; auto; lia.
  - intros r [R1 R2 R3 R4 R5 R6]. apply wp_ok. cbn [o_I_prev o_I]. split; [|split; reflexivity].
    constructor; cbn [o_bufs o_mini o_fft o_pmf o_tmp o_prev_loc o_I_prev]; auto.
    + rewrite get_src_flip, get_dest_set_dest. exact R5.
    + rewrite get_dest_flip, get_src_set_dest. exact S1.
    + lia.
Qed.

Lemma sh_outer_loop fuel : forall s, out_shape s -> -1 <= o_I_prev s < o_I s -> o_I s < n ->
  o_I s - o_I_prev s <= jump -> n - o_I s <= Z.of_nat fuel ->
  WP (outer_loop E fuel n n jump intensity B s) (fun s' => out_shape s' /\ o_I_prev s' = n - 1).
Proof.
  induction fuel as [|fuel IH]; intros s Hs H1 H2 H3 Hf; [lia|].
  cbn [outer_loop]. apply wp_bind. eapply wp_mono; [apply sh_outer; auto|].
  intros s' ([S1 S2 S3 S4 S5 S6 S7 S8] & E1 & E2). rewrite E2.
  destruct (Z.eqb_spec (o_I s) (n - 1)) as [Heq|Hne].
  - apply wp_ok. split; [constructor; auto|lia].
  - apply IH; cbn [o_I o_I_prev]; try lia.
    constructor; cbn [o_bufs o_mini o_fft o_pmf o_tmp o_prev_loc o_I_prev]; auto.
Qed.

Lemma sh_n2 fuel (Q : list T -> Prop) : n <= Z.of_nat fuel ->
  (asserts E = true -> n < jump -> abt) ->
  (forall d, size d = n + 1 -> Q d) ->
  WP (poisson_B_noncrossing_probability_n2 E fuel n intensity B jump) Q.
Proof.
  intros Hfuel Hab HQ. unfold poisson_B_noncrossing_probability_n2.
  apply wp_bind, wp_cassert; [intros HE Hc; apply Z.leb_gt in Hc; auto|]. intros _.
  rewrite get_src_make. apply wp_bind, wp_wr; [rewrite size_vec; lia|].
  apply wp_bind, sh_pmfgen_make; [lia|]. intros g Hg. rewrite HB.
  apply wp_bind. eapply wp_mono; [apply sh_outer_loop|].
  - constructor; cbn [o_bufs o_mini o_fft o_pmf o_tmp o_prev_loc o_I_prev]; auto.
    + rewrite get_src_set_src, size_upd, size_vec. lia.
    + rewrite get_dest_set_src, get_dest_make, size_vec. lia.
    + rewrite get_src_make, size_vec. lia.
    + rewrite get_dest_make, size_vec. lia.
    + apply fft_shape_make. lia.
    + apply size_doubles. lia.
  - cbn [o_I o_I_prev]. lia.
  - cbn [o_I]. lia.
  - cbn [o_I o_I_prev]. lia.
  - cbn [o_I]. lia.
  - intros s ([S1 S2 S3 S4 S5 S6 S7 S8] & EP). cbv zeta. rewrite S8, EP.
    apply wp_bind. rewrite <- loc_n. change (n_mul intensity (n_sub (loc n) (loc (n - 1)))) with (rate (n - 1) n).
    apply sh_compute_array with (mk := n + 1); auto; try lia.
    { intros H. apply (Hneg (n - 1) n); auto; lia. }
    intros _ g' Hg'. pose proof Hg' as (_ & _ & Hg3).
    apply wp_bind, wp_addr; [lia|]. apply wp_bind, wp_addr; [lia|].
    apply wp_bind. apply sh_fft_convolve with (m := n + 1); auto; try lia.
    { intros _. unfold get_array. lia. }
    intros f' d' Hf' Hd'. cbn [fst snd].
    apply wp_fill with (d := n0 : T); [lia|]. intros d2 Hd2 _. apply HQ. lia.
Qed.
End SafeNew.

Section Main.
Context {N : num} (E : env N).
Notation T := (car N).

Lemma sh_new_B (thr : exn -> Prop) (abt : Prop) (B : list T) k : fft_lengths E ->
  1 <= size B -> jump_size_for (N := N) (size B) = Ok k -> 1 <= k ->
  (forall s, check_boundary_vector "B" (size B) B = Throw (RuntimeError s) -> thr (RuntimeError s)) ->
  (forall i j, -1 <= i < j -> j <= size B -> n_lt (rate (size B) (n_of_Z (size B)) B i j) n0 = true ->
     thr (RuntimeError msg_compute_array)) ->
  (forall i j, 0 <= i < j -> j < size B -> asserts E = true ->
     n_le n0 (rate (size B) (n_of_Z (size B)) B i j) = false -> abt) ->
  (asserts E = true -> size B < k -> abt) ->
  (asserts E = true -> n_le n0 (n_of_Z (size B) : T) = false -> abt) ->
  wp thr abt (ecdf1_new_B E B) (fun _ => True).
Proof.
  intros HF Hn Hk Hk1 Hchk Hneg Hle Hab Hab2. unfold ecdf1_new_B.
  destruct (check_cases "B" (size B) B) as [[Hc _]|[m Hc]].
  2:{ rewrite Hc. simpl. eapply Hchk; eauto. }
  rewrite Hc. cbn [bind]. rewrite Hk. cbn [bind].
  apply wp_bind. apply sh_n2; auto; try lia.
  intros probs Hp. apply wp_bind, wp_rd_any; [lia|]. intros pn _.
  apply wp_bind, sh_poisson_pmf; auto; [lia|]. intros d. apply wp_ok. exact I.
Qed.

(** the reflected vector of ecdf1_new_b and ecdf1_mns2016_B *)
Definition reflected (v : list T) : list T := map (fun x => n_sub n1 x) (rev v).
Lemma reflected_size v : size (reflected v) = size v.
Proof. unfold size, reflected. rewrite map_length, rev_length. reflexivity. Qed.

Lemma reflect_loop (v : list T) n : n = size v ->
  for_ 0 n (vec n n0) (fun i st => x <- rd v (n - 1 - i) ;; wr st i (n_sub n1 x)) = Ok (reflected v).
Proof.
  intros ->. enough (HT : total (for_ 0 (size v) (vec (size v) n0)
     (fun i st => x <- rd v (size v - 1 - i) ;; wr st i (n_sub n1 x))) (fun r => r = reflected v)).
  { apply total_iff in HT. destruct HT as (a & -> & ->). reflexivity. }
  pose proof (size_nonneg v) as Hv.
  apply wp_for with (P := fun k st => size st = size v /\
     forall i, 0 <= i < k -> get n0 st i = n_sub n1 (get n0 v (size v - 1 - i))).
  - split; [rewrite size_vec; lia|lia].
  - intros k st Hk [Hs Hg]. apply wp_bind, wp_rd with (d := n0); [lia|]. apply wp_wr; [lia|].
    rewrite size_upd. split; auto. intros i Hi. rewrite get_upd by lia.
    destruct (Z.eqb_spec k i) as [->|]; [reflexivity|apply Hg; lia].
  - intros st [Hs Hg]. apply list_ext_get with (d := n0); [rewrite reflected_size; exact Hs|].
    intros i Hi. rewrite Hg by lia. unfold get, reflected.
    rewrite (nth_indep (map _ _) n0 (n_sub n1 n0)) by (rewrite map_length, rev_length; unfold size in *; lia).
    rewrite (map_nth (fun x => n_sub n1 x)). unfold size in *. rewrite rev_nth by lia.
    f_equal. f_equal. lia.
Qed.

Lemma new_b_eq (b : list T) : ecdf1_new_b E b =
  (do check_boundary_vector "b" (size b) b ;; ecdf1_new_B E (reflected b)).
Proof.
  unfold ecdf1_new_b. destruct (check_boundary_vector "b" (size b) b); cbn [bind]; auto.
  rewrite Z.sub_diag, reflect_loop by reflexivity. reflexivity.
Qed.

Lemma new_B_safe (B : list T) k : fft_lengths E -> 1 <= size B ->
  jump_size_for (N := N) (size B) = Ok k -> 1 <= k -> safe (ecdf1_new_B E B) (fun _ => True).
Proof. intros. eapply sh_new_B; eauto. Qed.

Lemma new_b_safe (b : list T) k : fft_lengths E -> 1 <= size b ->
  jump_size_for (N := N) (size b) = Ok k -> 1 <= k -> safe (ecdf1_new_b E b) (fun _ => True).
Proof.
  intros HF Hn Hk H1. rewrite new_b_eq.
  destruct (check_cases "b" (size b) b) as [[Hc _]|[m Hc]]; rewrite Hc; cbn [bind]; [|exact I].
  eapply new_B_safe; eauto; rewrite reflected_size; eauto.
Qed.
End Main.
