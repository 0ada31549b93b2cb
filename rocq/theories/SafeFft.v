(** * SafeFft: shapes of the library's objects, for every floating-point type.

    Nothing here depends on the values computed: the lemmas hold for every
    [num], every libm and every contents of uninitialised memory. *)
From Coq Require Import ZArith List Bool Lia String.
From Verif Require Import Base Num Hoare Common PoissonPmf FFTConv.
Import List.
Local Open Scope Z_scope.

(** What FFTW is documented to write: n/2+1 complexes, respectively n doubles. *)
Definition fft_lengths {N : num} (E : env N) : Prop :=
  (forall x, List.length (fft_r2c E x) = (List.length x / 2 + 1)%nat) /\
  (forall n z, List.length (fft_c2r E n z) = n).

Lemma round_up_shape n : 0 <= n ->
  exists q, 0 <= q /\ round_up n ROUNDING = 2048 * q /\ n <= 2048 * q < n + 2048.
Proof.
  intros Hn. unfold round_up, ROUNDING. exists (Z.quot (n + 2048 - 1) 2048).
  rewrite Z.quot_div_nonneg by lia.
  pose proof (Z.div_mod (n + 2048 - 1) 2048 ltac:(lia)). pose proof (Z.mod_pos_bound (n + 2048 - 1) 2048 ltac:(lia)).
  repeat split; lia.
Qed.

Section Shapes.
Context {N : num} (E : env N).
Notation T := (car N).

Lemma size_doubles site n : 0 <= n -> size (alloc_doubles E site n) = n.
Proof. intros. unfold size, alloc_doubles. rewrite map_length, seq_length. lia. Qed.
Lemma size_complexes site n : 0 <= n -> size (alloc_complexes E site n) = n.
Proof. intros. unfold size, alloc_complexes. rewrite map_length, seq_length. lia. Qed.

Definition pg_shape (mk : Z) (g : pmfgen N) : Prop :=
  pg_max_k g = mk /\ size (log_gamma_LUT g) = mk + 2 /\ size (pmf_array g) = mk + 1.

Definition plans_shape (P : Z) (pl : list (option Z)) : Prop :=
  size pl = P /\ forall i, 0 <= i < P -> get None pl i = None \/ get None pl i = Some (2048 * (i + 1)).

Definition fft_shape (m : Z) (f : fftconv N) : Prop :=
  maximum_input_size f = m + 2047 /\
  size (r2c_in f) = round_up (2 * m) ROUNDING /\
  size (r2c_out f) = round_up (2 * m) ROUNDING /\
  size (c2r_in f) = round_up (2 * m) ROUNDING /\
  size (c2r_out f) = round_up (2 * m) ROUNDING /\
  size (tmp_complex f) = round_up (2 * m) ROUNDING /\
  plans_shape (Z.quot (round_up (2 * m) ROUNDING) ROUNDING) (r2c_plans f) /\
  plans_shape (Z.quot (round_up (2 * m) ROUNDING) ROUNDING) (c2r_plans f).

Lemma fft_shape_make m : 0 <= m -> fft_shape m (fftconv_make E m).
Proof.
  intros Hm. destruct (round_up_shape (2 * m) ltac:(lia)) as (q & Hq & Hr & _).
  assert (Hpl : plans_shape (Z.quot (round_up (2 * m) ROUNDING) ROUNDING) (vec (Z.quot (round_up (2 * m) ROUNDING) ROUNDING) None)).
  { rewrite Hr. unfold ROUNDING. rewrite Z.mul_comm, Z.quot_mul by lia.
    split; [rewrite size_vec; lia|]. intros i Hi. left. apply get_vec. exact Hi. }
  unfold fft_shape, fftconv_make. cbn [maximum_input_size r2c_in r2c_out c2r_in c2r_out tmp_complex r2c_plans c2r_plans].
  rewrite !size_doubles, !size_complexes by lia.
  unfold ROUNDING at 1. split; [lia|]. repeat split; auto; apply Hpl.
Qed.

Context {thr : exn -> Prop} {abt : Prop}.
Notation WP := (wp thr abt).

Lemma sh_pmfgen_make mk (Q : pmfgen N -> Prop) : 0 < mk ->
  (forall g, pg_shape mk g -> Q g) -> WP (pmfgen_make E mk) Q.
Proof.
  intros Hmk HQ. unfold pmfgen_make.
  apply wp_bind, wp_cassert_true; [apply Z.ltb_lt; exact Hmk|].
  apply wp_bind. apply wp_for with (P := fun _ a => size a = mk + 2).
  - apply size_doubles; lia.
  - intros i a Hi Hs. apply wp_wr; [lia|]. rewrite size_upd. exact Hs.
  - intros lut Hs. apply wp_bind. apply wp_for with (P := fun _ a => size a = mk + 1).
    + apply size_doubles; lia.
    + intros i a Hi Hs'. apply wp_wr; [lia|]. rewrite size_upd. exact Hs'.
    + intros arr Hs'. apply wp_ok, HQ. repeat split; auto.
Qed.

Definition msg_compute_array : string := "Expecting lambda>0 in PoissonPMFGenerator::compute_array()".

Lemma sh_compute_array mk g k lambda (Q : pmfgen N -> Prop) :
  pg_shape mk g -> 0 <= mk -> k <= mk ->
  (asserts E = true -> k < 0 -> abt) ->
  (n_lt lambda n0 = true -> thr (RuntimeError msg_compute_array)) ->
  ((asserts E = true -> 0 <= k) -> forall g', pg_shape mk g' -> Q g') ->
  WP (compute_array E g k lambda) Q.
Proof.
  intros (Hg1 & Hg2 & Hg3) Hmk Hk Habt Hthr HQ. unfold compute_array.
  apply wp_bind, wp_cassert; [intros HE Hc; apply Z.leb_gt in Hc; auto|]. intros Hk0.
  apply wp_bind, wp_cassert_true; [rewrite Hg1; apply Z.leb_le; exact Hk|].
  assert (HQ' : forall g', pg_shape mk g' -> Q g').
  { apply HQ. intros HE. apply Z.leb_le. auto. }
  destruct (n_lt lambda n0) eqn:El; [exact (Hthr eq_refl)|].
  destruct (n_eq lambda n0).
  - apply wp_bind, wp_wr; [lia|]. apply wp_bind.
    apply wp_for with (P := fun _ a => size a = mk + 1).
    + rewrite size_upd; exact Hg3.
    + intros i a Hi Hs. apply wp_wr; [lia|]. rewrite size_upd; exact Hs.
    + intros a Hs. apply wp_ok, HQ'. repeat split; auto.
  - apply wp_bind. apply wp_for with (P := fun _ a => size a = mk + 1).
    + exact Hg3.
    + intros i a Hi Hs. apply wp_bind, wp_rd_any; [lia|]. intros lg _.
      apply wp_wr; [lia|]. rewrite size_upd; exact Hs.
    + intros a Hs. apply wp_ok, HQ'. repeat split; auto.
Qed.

Lemma sh_evaluate_pmf mk g k lambda (Q : T -> Prop) :
  pg_shape mk g -> 0 <= k <= mk -> (asserts E = true -> n_le n0 lambda = false -> abt) ->
  (forall x, Q x) -> WP (evaluate_pmf E g lambda k) Q.
Proof.
  intros (Hg1 & Hg2 & Hg3) Hk Ha HQ. unfold evaluate_pmf.
  apply wp_bind, wp_cassert; [exact Ha|]. intros _.
  apply wp_bind, wp_cassert_true; [apply Z.leb_le; lia|].
  destruct (n_eq lambda n0); [apply wp_ok, HQ|].
  apply wp_bind, wp_rd_any; [lia|]. intros lg _. apply wp_ok, HQ.
Qed.

Lemma sh_poisson_pmf k lambda (Q : T -> Prop) : 0 <= k ->
  (asserts E = true -> n_le n0 lambda = false -> abt) ->
  (forall x, Q x) -> WP (poisson_pmf E lambda k) Q.
Proof.
  intros Hk Ha HQ. unfold poisson_pmf. apply wp_bind, wp_cassert_true; [apply Z.leb_le; lia|].
  apply wp_bind, wp_cassert; [exact Ha|]. intros _.
  destruct (n_eq lambda n0); apply wp_ok, HQ.
Qed.

Lemma sh_convolve sz (s0 : list T) o0 (s1 : list T) o1 dest od (Q : list T -> Prop) :
  (0 < sz -> 0 <= o0 /\ o0 + sz <= size s0 /\ 0 <= o1 /\ o1 + sz <= size s1 /\ 0 <= od /\ od + sz <= size dest) ->
  (forall dest', size dest' = size dest -> Q dest') ->
  WP (convolve_same_size sz s0 o0 s1 o1 dest od) Q.
Proof.
  intros Hb HQ. unfold convolve_same_size.
  apply wp_for with (P := fun _ a => size a = size dest); auto.
  intros j a Hj Hs. apply wp_bind. apply wp_for with (P := fun _ _ => True); auto.
  - intros k acc Hk _. apply wp_bind, wp_rd_any; [lia|]. intros x _.
    apply wp_bind, wp_rd_any; [lia|]. intros y _. apply wp_ok. exact I.
  - intros acc _. apply wp_wr; [lia|]. rewrite size_upd. exact Hs.
Qed.

Lemma sh_copy_zero_padded (src : list T) so dest ss ds (Q : list T -> Prop) :
  0 < ss -> ss <= ds -> ds <= size dest -> 0 <= so -> so + ss <= size src ->
  (forall dest', size dest' = size dest -> Q dest') ->
  WP (copy_zero_padded src so dest ss ds) Q.
Proof.
  intros H1 H2 H3 H4 H5 HQ. unfold copy_zero_padded.
  apply wp_bind. apply wp_blit with (d := n0 : T); [lia|]. intros d1 Hs1 _.
  apply wp_fill with (d := n0 : T); [lia|]. intros d2 Hs2 _. apply HQ. lia.
Qed.

Lemma sh_memoized_plan P pl q (Q : list (option Z) * Z -> Prop) :
  plans_shape P pl -> 0 < q <= P ->
  (forall pl', plans_shape P pl' -> Q (pl', 2048 * q)) ->
  WP (memoized_plan E pl (2048 * q)) Q.
Proof.
  intros [Hs Hp] Hq HQ. unfold memoized_plan, ROUNDING.
  assert (Hi : Z.quot (2048 * q) 2048 = q) by (rewrite Z.mul_comm; apply Z.quot_mul; lia). rewrite Hi.
  apply wp_bind, wp_cassert_true; [apply Z.ltb_lt; lia|].
  apply wp_bind, wp_cassert_true; [apply Z.eqb_eq; rewrite Z.mul_comm; apply Z.rem_mul; lia|].
  apply wp_bind, wp_cassert_true; [apply Z.ltb_lt; lia|].
  apply wp_bind, wp_rd with (d := None); [lia|].
  destruct (Hp (q - 1)) as [-> | ->]; [lia| |].
  - apply wp_bind, wp_wr; [lia|]. apply wp_ok, HQ. split; [rewrite size_upd; auto|].
    intros i Hi'. rewrite get_upd by lia. destruct (Z.eqb_spec (q - 1) i); auto.
    right. f_equal. lia.
  - apply wp_ok. replace (q - 1 + 1) with q by lia. apply HQ. split; auto.
Qed.

Lemma sh_execute_r2c site h (inp : list T) (outp : list (cplx N)) (Q : list T * list (cplx N) -> Prop) :
  fft_lengths E -> 0 < h -> 2 * h <= size inp -> h + 1 <= size outp ->
  (forall inp' outp', size inp' = size inp -> size outp' = size outp -> Q (inp', outp')) ->
  WP (execute_r2c E site (2 * h) inp outp) Q.
Proof.
  intros [HF _] Hh Hin Hout HQ. unfold execute_r2c.
  destruct (Z.ltb_spec (size inp) (2 * h)) as [?|_]; [lia|].
  assert (Hq : Z.quot (2 * h) 2 = h) by (rewrite Z.mul_comm; apply Z.quot_mul; lia). rewrite Hq.
  apply wp_bind. apply wp_blit with (d := (n0, n0) : cplx N).
  - intros _. unfold size in *. rewrite HF, firstn_length.
    replace (Nat.min (Z.to_nat (2 * h)) (List.length inp)) with (Z.to_nat h * 2)%nat by lia.
    rewrite Nat.div_mul by lia. lia.
  - intros o Hso _. apply wp_ok. apply HQ; auto. apply size_doubles. apply size_nonneg.
Qed.

Lemma sh_execute_c2r site h (inp : list (cplx N)) (outp : list T) (Q : list (cplx N) * list T -> Prop) :
  fft_lengths E -> 0 < h -> h + 1 <= size inp -> 2 * h <= size outp ->
  (forall inp' outp', size inp' = size inp -> size outp' = size outp -> Q (inp', outp')) ->
  WP (execute_c2r E site (2 * h) inp outp) Q.
Proof.
  intros [_ HF] Hh Hin Hout HQ. unfold execute_c2r.
  assert (Hq : Z.quot (2 * h) 2 = h) by (rewrite Z.mul_comm; apply Z.quot_mul; lia). rewrite Hq.
  destruct (Z.ltb_spec (size inp) (h + 1)) as [?|_]; [lia|].
  apply wp_bind. apply wp_blit with (d := n0 : T).
  - intros _. unfold size in *. rewrite HF. lia.
  - intros o Hso _. apply wp_ok. apply HQ; auto. apply size_complexes. apply size_nonneg.
Qed.

Lemma sh_fft_convolve m f sz (s0 : list T) o0 (s1 : list T) o1 (dest : list T) od
  (Q : fftconv N * list T -> Prop) : fft_lengths E ->
  fft_shape m f -> sz <= m ->
  (0 < sz -> 0 <= o0 /\ o0 + sz <= size s0 /\ 0 <= o1 /\ o1 + sz <= size s1 /\ 0 <= od /\ od + sz <= size dest) ->
  (forall f' dest', fft_shape m f' -> size dest' = size dest -> Q (f', dest')) ->
  WP (fft_convolve_same_size E f sz s0 o0 s1 o1 dest od) Q.
Proof.
  intros HF HI Hsz Hb HQ.
  pose proof HI as (Hmax & Hs_in & Hs_out & Hs_cin & Hs_cout & Hs_tmp & Hpl_r & Hpl_c).
  unfold fft_convolve_same_size. rewrite Hmax.
  destruct (Z.ltb_spec (m + 2047) sz) as [?|_]; [lia|].
  destruct (Z.leb_spec sz 0) as [Hneg|Hpos]; [apply wp_ok, HQ; auto|].
  destruct (Z.ltb_spec sz MINIMUM_SIZE_FOR_FFTW_CONVOLUTION) as [_|Hbig].
  { apply wp_bind. apply sh_convolve; auto. intros dest' Hs'. apply wp_ok, HQ; auto. }
  specialize (Hb Hpos).
  destruct (round_up_shape (2 * sz) ltac:(lia)) as (q & Hq & Hr & Hqs).
  destruct (round_up_shape (2 * m) ltac:(lia)) as (p & Hp & Hrm & Hps).
  assert (Hqp : 0 < q <= p) by lia.
  rewrite Hrm in *.
  assert (HP : Z.quot (2048 * p) ROUNDING = p) by (unfold ROUNDING; rewrite Z.mul_comm; apply Z.quot_mul; lia).
  rewrite HP in *. cbv zeta. rewrite Hr.
  set (h := 1024 * q). replace (2048 * q) with (2 * h) by lia.
  assert (Hplan : forall pl (Q : list (option Z) * Z -> Prop), plans_shape p pl ->
     (forall pl', plans_shape p pl' -> Q (pl', 2 * h)) -> WP (memoized_plan E pl (2 * h)) Q).
  { intros pl Q' Hpl HQ'. replace (2 * h) with (2048 * q) in * by lia.
    eapply sh_memoized_plan; eauto. }
  apply wp_bind, sh_copy_zero_padded; try lia. intros in1 Hsi1.
  apply wp_bind, Hplan; auto. intros plr1 Hplr1. cbn [fst snd].
  apply wp_bind. apply sh_execute_r2c; auto; try lia.
  intros in1' tmp Hsi1' Hst. cbn [fst snd].
  apply wp_bind, sh_copy_zero_padded; try lia. intros in2 Hsi2.
  apply wp_bind, Hplan; auto. intros plr2 Hplr2. cbn [fst snd].
  apply wp_bind. apply sh_execute_r2c; auto; try lia.
  intros in2' outc Hsi2' Hso. cbn [fst snd].
  assert (Hq2 : Z.quot (2 * h) 2 = h) by (rewrite Z.mul_comm; apply Z.quot_mul; lia). rewrite Hq2.
  apply wp_bind. unfold elementwise_complex_product.
  apply wp_for with (P := fun _ d => size d = 2048 * p); [exact Hs_cin| |].
  { intros i d Hi Hs. apply wp_bind, wp_rd_any; [lia|]. intros x _.
    apply wp_bind, wp_rd_any; [lia|]. intros y _. apply wp_wr; [lia|]. rewrite size_upd; exact Hs. }
  intros cin Hscin.
  apply wp_bind, Hplan; auto. intros plc Hplc. cbn [fst snd].
  apply wp_bind. apply sh_execute_c2r; auto; try lia.
  intros cin' cout Hscin' Hscout. cbn [fst snd].
  apply wp_bind. apply wp_blit with (d := n0 : T); [intros _; lia|].
  intros dest' Hsd _. apply wp_ok, HQ; auto.
  unfold fft_shape. cbn [maximum_input_size r2c_in r2c_out c2r_in c2r_out tmp_complex r2c_plans c2r_plans].
  rewrite Hrm, HP. repeat split; try lia; try apply Hplr2; try apply Hplc.
Qed.
End Shapes.

(** ** Whatever happened before: the shape survives every call that returns *)
Section Kept.
Context {N : num} (E : env N).
Notation T := (car N).

Lemma bind_ok {A B} (o : outcome A) (k : A -> outcome B) r : bind o k = Ok r -> exists a, o = Ok a /\ k a = Ok r.
Proof. destruct o; simpl; try discriminate. eauto. Qed.

Lemma wr_size {A} (l : list A) i x l' : wr l i x = Ok l' -> size l' = size l.
Proof.
  unfold wr. destruct ((i <? 0) || (size l <=? i)); intros H; try discriminate. injection H as <-. apply size_upd.
Qed.

Lemma loop_keep {S} (I : S -> Prop) (body : Z -> S -> outcome S) k : forall i s s',
  (forall i s s', I s -> body i s = Ok s' -> I s') -> I s -> loop k i body s = Ok s' -> I s'.
Proof.
  induction k as [|k IH]; intros i s s' Hb Hs; simpl.
  - intros H; injection H as <-; auto.
  - intros H. apply bind_ok in H. destruct H as (t & H1 & H2). exact (IH _ _ _ Hb (Hb _ _ _ Hs H1) H2).
Qed.
Lemma for_keep {S} (I : S -> Prop) (body : Z -> S -> outcome S) lo hi s s' :
  (forall i s s', I s -> body i s = Ok s' -> I s') -> I s -> for_ lo hi s body = Ok s' -> I s'.
Proof. apply loop_keep. Qed.

Lemma blit_size {A} (src : list A) so dst do_ len r : blit src so dst do_ len = Ok r -> size r = size dst.
Proof.
  unfold blit. apply for_keep with (I := fun d => size d = size dst); auto.
  intros i s s' Hs H. apply bind_ok in H. destruct H as (x & _ & H). apply wr_size in H. congruence.
Qed.
Lemma fill_size {A} (a : list A) lo hi v r : fill a lo hi v = Ok r -> size r = size a.
Proof.
  unfold fill. apply for_keep with (I := fun d => size d = size a); auto.
  intros i s s' Hs H. apply wr_size in H. congruence.
Qed.
Lemma convolve_size sz (s0 : list T) o0 s1 o1 dest od r :
  convolve_same_size sz s0 o0 s1 o1 dest od = Ok r -> size r = size dest.
Proof.
  unfold convolve_same_size. apply for_keep with (I := fun d => size d = size dest); auto.
  intros i s s' Hs H. apply bind_ok in H. destruct H as (x & _ & H). apply wr_size in H. congruence.
Qed.
Lemma copy_size (src : list T) so dest ss ds r : copy_zero_padded src so dest ss ds = Ok r -> size r = size dest.
Proof.
  unfold copy_zero_padded. intros H. apply bind_ok in H. destruct H as (d & H1 & H2).
  apply blit_size in H1. apply fill_size in H2. congruence.
Qed.
Lemma r2c_size site len (inp : list T) outp r : execute_r2c E site len inp outp = Ok r ->
  size (fst r) = size inp /\ size (snd r) = size outp.
Proof.
  unfold execute_r2c. destruct (size inp <? len); [discriminate|]. intros H. apply bind_ok in H.
  destruct H as (o & H1 & H2). injection H2 as <-. apply blit_size in H1. simpl. split; auto.
  apply size_doubles. apply size_nonneg.
Qed.
Lemma c2r_size site len (inp : list (cplx N)) outp r : execute_c2r E site len inp outp = Ok r ->
  size (fst r) = size inp /\ size (snd r) = size outp.
Proof.
  unfold execute_c2r. destruct (size inp <? _); [discriminate|]. intros H. apply bind_ok in H.
  destruct H as (o & H1 & H2). injection H2 as <-. apply blit_size in H1. simpl. split; auto.
  apply size_complexes. apply size_nonneg.
Qed.

Lemma memoized_kept P pl q r : plans_shape P pl -> 0 < q -> memoized_plan E pl (2048 * q) = Ok r ->
  plans_shape P (fst r).
Proof.
  intros [Hs Hp] Hq. unfold memoized_plan, ROUNDING.
  assert (Hi : Z.quot (2048 * q) 2048 = q) by (rewrite Z.mul_comm; apply Z.quot_mul; lia). rewrite Hi.
  intros H. apply bind_ok in H. destruct H as (u1 & _ & H). apply bind_ok in H. destruct H as (u2 & _ & H).
  apply bind_ok in H. destruct H as (u3 & _ & H). apply bind_ok in H. destruct H as (o & Hrd & H).
  destruct o as [sz|].
  - injection H as <-. split; auto.
  - apply bind_ok in H. destruct H as (pl' & Hw & H). assert (Hr : r = (pl', 2048 * q)) by congruence. subst r. cbn [fst].
    pose proof (wr_size _ _ _ _ Hw) as Hs'. split; [congruence|].
    unfold wr in Hw. destruct (Z.ltb_spec (q - 1) 0), (Z.leb_spec (size pl) (q - 1)); try discriminate.
    assert (Hpl : pl' = upd pl (Z.to_nat (q - 1)) (Some (2048 * q))) by (cbn [orb] in Hw; congruence).
    subst pl'. intros i Hi'. rewrite get_upd by lia.
    destruct (Z.eqb_spec (q - 1) i); [right; f_equal; lia|auto].
Qed.

Lemma fft_shape_kept m f sz (a : list T) oa b ob out oo f' out' : fft_shape m f ->
  fft_convolve_same_size E f sz a oa b ob out oo = Ok (f', out') ->
  fft_shape m f' /\ size out' = size out.
Proof.
  intros HI. pose proof HI as (Hmax & Hs_in & Hs_out & Hs_cin & Hs_cout & Hs_tmp & Hpl_r & Hpl_c).
  unfold fft_convolve_same_size.
  destruct (maximum_input_size f <? sz); [discriminate|].
  destruct (Z.leb_spec sz 0) as [_|Hpos]; [intros H; injection H as <- <-; auto|].
  destruct (sz <? MINIMUM_SIZE_FOR_FFTW_CONVOLUTION).
  { intros H. apply bind_ok in H. destruct H as (o & H1 & H2). injection H2 as <- <-. split; auto.
    eapply convolve_size; eauto. }
  cbv zeta. destruct (round_up_shape (2 * sz) ltac:(lia)) as (q & Hq & Hr & Hqs). rewrite Hr.
  assert (Hq0 : 0 < q) by lia. intros H.
  apply bind_ok in H. destruct H as (in1 & H1 & H). apply copy_size in H1.
  apply bind_ok in H. destruct H as (pl1 & P1 & H). eapply memoized_kept in P1; eauto.
  apply bind_ok in H. destruct H as (rc1 & R1 & H). apply r2c_size in R1. destruct R1 as [R1 R1'].
  apply bind_ok in H. destruct H as (in2 & H2 & H). apply copy_size in H2.
  apply bind_ok in H. destruct H as (pl2 & P2 & H). eapply memoized_kept in P2; eauto.
  apply bind_ok in H. destruct H as (rc2 & R2 & H). apply r2c_size in R2. destruct R2 as [R2 R2'].
  apply bind_ok in H. destruct H as (cin & H3 & H).
  assert (Hc : size cin = size (c2r_in f)).
  { unfold elementwise_complex_product in H3. revert H3.
    apply for_keep with (I := fun d => size d = size (c2r_in f)); auto.
    intros i s s' Hs H'. apply bind_ok in H'. destruct H' as (x & _ & H'). apply bind_ok in H'.
    destruct H' as (y & _ & H'). apply wr_size in H'. congruence. }
  apply bind_ok in H. destruct H as (plc & P3 & H). eapply memoized_kept in P3; eauto.
  apply bind_ok in H. destruct H as (cr & R3 & H). apply c2r_size in R3. destruct R3 as [R3 R3'].
  apply bind_ok in H. destruct H as (o & H4 & H). apply blit_size in H4. injection H as <- <-.
  split; auto. unfold fft_shape. cbn [maximum_input_size r2c_in r2c_out c2r_in c2r_out tmp_complex r2c_plans c2r_plans].
  repeat split; try congruence; try apply P2; try apply P3.
Qed.
End Kept.
