(** * ComponentFacts: the convolutions and the Poisson generator, stated over lists of reals. *)
From Coquelicot Require Import Coquelicot.
From Flocq Require Import Core.Raux.
From Coq Require Import ZArith Reals List Bool Lia Lra String Factorial.
From Verif Require Import Base Num Hoare XReal RSum PoissonPmf Common FFTConv XPmf XFft SafeFft.
Import List.
Local Open Scope Z_scope.

(** c_j = sum_{k<=j} a_{oa+k} b_{ob+j-k} *)
Definition truncated_product (a : list R) (oa : nat) (b : list R) (ob : nat) (j : nat) : R :=
  sum_f_R0 (fun k => (nth (oa + k) a 0 * nth (ob + (j - k)) b 0)%R) j.

(** [after] is [before] with its elements od, ..., od+sz-1 replaced by a truncated product. *)
Definition holds_product {frexp} (before after : list (car (Xnum frexp))) (od sz : nat)
  (a : list R) (oa : nat) (b : list R) (ob : nat) : Prop :=
  length after = length before /\
  (forall j, (j < sz)%nat -> nth_error after (od + j) = Some (Fin (truncated_product a oa b ob j))) /\
  (forall i, (i < od \/ od + sz <= i)%nat -> nth_error after i = nth_error before i).

Section Exact.
Context {frexp : xr -> Z} (E : env (Xnum frexp)).
Notation XN := (Xnum frexp).
Notation gx := (@get (car XN) (Fin 0)).

Lemma gx_map (a : list R) o k : gx (map Fin a) (Z.of_nat o + k) = Fin (nth (o + Z.to_nat k) a 0%R) \/ k < 0.
Proof.
  destruct (Z_lt_ge_dec k 0) as [?|?]; [right; auto|left].
  unfold get. replace (Z.to_nat (Z.of_nat o + k)) with (o + Z.to_nat k)%nat by lia.
  exact (map_nth Fin a 0%R (o + Z.to_nat k)%nat).
Qed.

Lemma size_map_Fin (a : list R) : size (map Fin a : list (car XN)) = Z.of_nat (length a).
Proof. unfold size. rewrite map_length. reflexivity. Qed.

Lemma nth_error_ext_get (l l' : list (car XN)) i : size l = size l' ->
  (gx l (Z.of_nat i) = gx l' (Z.of_nat i)) -> nth_error l i = nth_error l' i.
Proof.
  unfold size, get. rewrite Nat2Z.id. intros Hs H.
  destruct (Nat.lt_ge_cases i (length l)) as [Hi|Hi].
  - rewrite (nth_error_nth' l (Fin 0)) by auto. rewrite (nth_error_nth' l' (Fin 0)) by lia. f_equal. exact H.
  - transitivity (@None (car XN)); [|symmetry]; apply nth_error_None; lia.
Qed.

Lemma product_of_get (dest dest' : list (car XN)) a oa b ob od (sz : nat) :
  (od + sz <= length dest \/ sz = 0)%nat ->
  size dest' = size dest ->
  (forall i, 0 <= i -> gx dest' i = if (Z.of_nat od <=? i) && (i <? Z.of_nat od + Z.of_nat sz)
     then Fin (conv (fun k => nth (oa + k) a 0%R) (fun k => nth (ob + k) b 0%R) (Z.to_nat (i - Z.of_nat od))) else gx dest i) ->
  holds_product dest dest' od sz a oa b ob.
Proof.
  intros Hb Hs H. split; [unfold size in Hs; lia|]. split.
  - intros j Hj. rewrite (nth_error_nth' dest' (Fin 0)) by (unfold size in Hs; lia). f_equal.
    specialize (H (Z.of_nat (od + j)) ltac:(lia)). unfold get in H at 1. rewrite Nat2Z.id in H.
    change (nth (od + j) dest' (Fin 0 : car XN) = Fin (truncated_product a oa b ob j)). rewrite H.
    destruct (Z.leb_spec (Z.of_nat od) (Z.of_nat (od + j))); [|lia].
    destruct (Z.ltb_spec (Z.of_nat (od + j)) (Z.of_nat od + Z.of_nat sz)); [|lia]. cbn [andb]. f_equal.
    replace (Z.to_nat (Z.of_nat (od + j) - Z.of_nat od)) with j by lia.
    unfold conv, truncated_product. rewrite rsum_sum_f_R0. reflexivity.
  - intros i Hi. apply nth_error_ext_get; auto. rewrite H by lia.
    destruct (Z.leb_spec (Z.of_nat od) (Z.of_nat i)), (Z.ltb_spec (Z.of_nat i) (Z.of_nat od + Z.of_nat sz)); cbn [andb]; auto; lia.
Qed.

Lemma convolve_exact (a b : list R) (dest : list (car XN)) (sz oa ob od : nat) :
  (oa + sz <= length a)%nat -> (ob + sz <= length b)%nat -> (od + sz <= length dest)%nat ->
  exists dest',
    convolve_same_size (N := XN) (Z.of_nat sz) (map Fin a) (Z.of_nat oa) (map Fin b) (Z.of_nat ob) dest (Z.of_nat od) = Ok dest' /\
    holds_product dest dest' od sz a oa b ob.
Proof.
  intros Ha Hb Hd. apply total_iff.
  apply wp_convolve with (f := fun k => nth (oa + k) a 0%R) (g := fun k => nth (ob + k) b 0%R).
  - rewrite !size_map_Fin. unfold size. lia.
  - intros k Hk. destruct (gx_map a oa k) as [H|]; [exact H|lia].
  - intros k Hk. destruct (gx_map b ob k) as [H|]; [exact H|lia].
  - intros dest' Hs H. apply product_of_get; auto.
Qed.

Lemma convolve_nothing sz (a b dest : list (car XN)) oa ob od : sz <= 0 ->
  convolve_same_size sz a oa b ob dest od = Ok dest.
Proof. intros H. unfold convolve_same_size, for_. replace (Z.to_nat (sz - 0)) with 0%nat by lia. reflexivity. Qed.

(** ** The FFT convolver *)

(** The states an FFTWConvolver built for inputs of up to m elements can be in:
    any sequence of calls, of any sizes and on any data, that returned. (A call that
    throws leaves the object as it was.) *)
Inductive used (m : Z) : fftconv XN -> Prop :=
| used_new : used m (fftconv_make E m)
| used_call f sz a oa b ob out oo f' out' : used m f ->
    fft_convolve_same_size E f sz a oa b ob out oo = Ok (f', out') -> used m f'.

Lemma used_shape m f : 0 <= m -> used m f -> fft_shape m f.
Proof.
  intros Hm. induction 1 as [|f sz a oa b ob out oo f' out' _ IH Hc].
  - apply fft_shape_make. exact Hm.
  - exact (proj1 (fft_shape_kept E m f sz a oa b ob out oo f' out' IH Hc)).
Qed.

Lemma fft_convolve_exact (m : nat) f (a b : list R) (dest : list (car XN)) (sz oa ob od : nat) :
  fft_ok E -> used (Z.of_nat m) f -> (sz <= m)%nat ->
  (oa + sz <= length a)%nat -> (ob + sz <= length b)%nat -> (od + sz <= length dest)%nat ->
  exists f' dest',
    fft_convolve_same_size E f (Z.of_nat sz) (map Fin a) (Z.of_nat oa) (map Fin b) (Z.of_nat ob) dest (Z.of_nat od) = Ok (f', dest') /\
    holds_product dest dest' od sz a oa b ob.
Proof.
  intros HF Hu Hsz Ha Hb Hd. apply used_shape in Hu; [|lia].
  enough (H : total (fft_convolve_same_size E f (Z.of_nat sz) (map Fin a) (Z.of_nat oa) (map Fin b) (Z.of_nat ob) dest (Z.of_nat od))
     (fun r => holds_product dest (snd r) od sz a oa b ob)).
  { apply total_iff in H. destruct H as ([f' dest'] & H1 & H2). eauto. }
  apply wp_fft_convolve with (m := Z.of_nat m) (fn := fun k => nth (oa + k) a 0%R) (gn := fun k => nth (ob + k) b 0%R); auto.
  - lia.
  - rewrite !size_map_Fin. unfold size. lia.
  - intros k Hk. destruct (gx_map a oa k) as [H|]; [exact H|lia].
  - intros k Hk. destruct (gx_map b ob k) as [H|]; [exact H|lia].
  - intros f' dest' _ Hs H. cbn [snd]. apply product_of_get; auto.
Qed.

(** the two convolutions leave the same array *)
Lemma holds_product_unique (dest d1 d2 : list (car XN)) od sz a oa b ob :
  holds_product dest d1 od sz a oa b ob -> holds_product dest d2 od sz a oa b ob -> d1 = d2.
Proof.
  intros (L1 & I1 & O1) (L2 & I2 & O2). apply nth_ext with (d := Fin 0) (d' := Fin 0); [congruence|].
  intros i Hi. assert (H : nth_error d1 i = nth_error d2 i).
  { destruct (Nat.lt_ge_cases i od) as [H|H]; [rewrite O1, O2 by auto; auto|].
    destruct (Nat.lt_ge_cases i (od + sz)) as [H'|H']; [|rewrite O1, O2 by auto; auto].
    replace i with (od + (i - od))%nat by lia. rewrite I1, I2 by lia. reflexivity. }
  rewrite (nth_error_nth' d1 (Fin 0)) in H by auto.
  rewrite (nth_error_nth' d2 (Fin 0)) in H by congruence. congruence.
Qed.

Lemma fft_equals_direct (m : nat) f (a b : list R) (dest : list (car XN)) (sz oa ob od : nat) :
  fft_ok E -> used (Z.of_nat m) f -> (sz <= m)%nat ->
  (oa + sz <= length a)%nat -> (ob + sz <= length b)%nat -> (od + sz <= length dest)%nat ->
  exists f' dest',
    fft_convolve_same_size E f (Z.of_nat sz) (map Fin a) (Z.of_nat oa) (map Fin b) (Z.of_nat ob) dest (Z.of_nat od) = Ok (f', dest') /\
    convolve_same_size (N := XN) (Z.of_nat sz) (map Fin a) (Z.of_nat oa) (map Fin b) (Z.of_nat ob) dest (Z.of_nat od) = Ok dest' /\
    holds_product dest dest' od sz a oa b ob.
Proof.
  intros HF Hu Hsz Ha Hb Hd.
  destruct (fft_convolve_exact m f a b dest sz oa ob od HF Hu Hsz Ha Hb Hd) as (f' & d1 & R1 & P1).
  destruct (convolve_exact a b dest sz oa ob od Ha Hb Hd) as (d2 & R2 & P2).
  exists f', d1. rewrite (holds_product_unique _ _ _ _ _ _ _ _ _ P1 P2) at 2. auto.
Qed.

(** ** Poisson probabilities *)

(** The generator states reachable from the constructor by compute_array calls. *)
Inductive pmf_used (mk : Z) : pmfgen XN -> Prop :=
| pmf_new g : pmfgen_make E mk = Ok g -> pmf_used mk g
| pmf_call g k l g' : pmf_used mk g -> compute_array E g k l = Ok g' -> pmf_used mk g'.

Lemma compute_array_keeps mk g k l g' : pmfgen_ok mk g -> compute_array E g k l = Ok g' -> pmfgen_ok mk g'.
Proof.
  intros (H1 & H2 & H3 & H4) H. unfold compute_array in H.
  apply bind_ok in H. destruct H as (_ & _ & H). apply bind_ok in H. destruct H as (_ & _ & H).
  destruct (n_lt l n0); [discriminate|]. destruct (n_eq l n0).
  - apply bind_ok in H. destruct H as (a & Ha & H). apply bind_ok in H. destruct H as (a' & Ha' & H).
    injection H as <-. repeat split; auto; simpl pmf_array. apply wr_size in Ha.
    revert Ha'. apply for_keep with (I := fun x => size x = mk + 1); [|congruence].
    intros i s s' Hs Hw. apply wr_size in Hw. congruence.
  - apply bind_ok in H. destruct H as (a' & Ha' & H). injection H as <-. repeat split; auto; simpl pmf_array.
    revert Ha'. apply for_keep with (I := fun x => size x = mk + 1); [|congruence].
    intros i s s' Hs Hw. apply bind_ok in Hw. destruct Hw as (x & _ & Hw). apply wr_size in Hw. congruence.
Qed.

Lemma pmf_used_ok mk g : 0 < mk -> pmf_used mk g -> pmfgen_ok mk g.
Proof.
  intros Hm. induction 1 as [g H|g k l g' _ IH H].
  - assert (HT : total (pmfgen_make E mk) (pmfgen_ok mk)) by (apply wp_pmfgen_make; auto).
    rewrite H in HT. exact HT.
  - eapply compute_array_keeps; eauto.
Qed.

(** entries above k keep their value *)
Lemma compute_array_frame mk g k l g' i : pmfgen_ok mk g -> 0 <= k -> compute_array E g k l = Ok g' ->
  (Z.to_nat k < i)%nat -> nth_error (get_array g') i = nth_error (get_array g) i.
Proof.
  intros (H1 & H2 & H3 & H4) Hk H Hi. unfold compute_array in H.
  assert (W : forall (s s' : list (car XN)) j x, j <= k -> wr s j x = Ok s' -> nth_error s' i = nth_error s i).
  { intros s s' j x Hj Hw. unfold wr in Hw. destruct (Z.ltb_spec j 0), (Z.leb_spec (size s) j); try discriminate.
    cbn [orb] in Hw. assert (s' = upd s (Z.to_nat j) x) by congruence. subst s'.
    apply nth_error_ext_get; [apply size_upd|].
    rewrite get_upd by lia. destruct (Z.eqb_spec j (Z.of_nat i)); auto. lia. }
  apply bind_ok in H. destruct H as (_ & _ & H). apply bind_ok in H. destruct H as (_ & _ & H).
  destruct (n_lt l n0); [discriminate|].
  assert (L : forall n j (body : Z -> list (car XN) -> outcome (list (car XN))) s s',
     j + Z.of_nat n <= k + 1 ->
     (forall j s s', j <= k -> body j s = Ok s' -> nth_error s' i = nth_error s i) ->
     loop n j body s = Ok s' -> nth_error s' i = nth_error s i).
  { induction n as [|n IH]; intros j body s s' Hn Hbody Hl; cbn [loop] in Hl; [congruence|].
    apply bind_ok in Hl. destruct Hl as (s1 & Hs1 & Hl).
    rewrite (IH (j + 1) body s1 s') by (auto; lia). eapply Hbody; [|exact Hs1]. lia. }
  destruct (n_eq l n0).
  - apply bind_ok in H. destruct H as (a & Ha & H). apply bind_ok in H. destruct H as (a' & Ha' & H).
    injection H as <-. simpl get_array. unfold for_ in Ha'. apply L in Ha'; [|lia|].
    + rewrite Ha'. eapply W; [|exact Ha]. lia.
    + intros j s s' Hj Hw. eapply W; [|exact Hw]. lia.
  - apply bind_ok in H. destruct H as (a' & Ha' & H). injection H as <-. simpl get_array. unfold for_ in Ha'.
    apply L in Ha'; [exact Ha'|lia|].
    intros j s s' Hj Hw. apply bind_ok in Hw. destruct Hw as (x & _ & Hw). eapply W; [|exact Hw]. lia.
Qed.

Definition poisson (l : R) (k : nat) : R := (exp (- l) * l ^ k / INR (fact k))%R.

Lemma poisson_exact (l : R) (k : nat) : (0 <= l)%R ->
  poisson_pmf E (Fin l) (Z.of_nat k) = Ok (Fin (poisson l k) : car XN).
Proof.
  intros Hl. enough (H : total (poisson_pmf E (Fin l) (Z.of_nat k)) (fun r => r = Fin (poisson l k))).
  { apply total_iff in H. destruct H as (r & -> & ->). reflexivity. }
  apply wp_poisson_pmf; auto; [lia|]. rewrite Nat2Z.id. reflexivity.
Qed.
Lemma evaluate_exact (mk : Z) g (l : R) (k : nat) : 0 < mk -> pmf_used mk g -> (0 <= l)%R -> Z.of_nat k <= mk ->
  evaluate_pmf E g (Fin l) (Z.of_nat k) = Ok (Fin (poisson l k) : car XN).
Proof.
  intros Hm Hg Hl Hk. apply pmf_used_ok in Hg; auto.
  enough (H : total (evaluate_pmf E g (Fin l) (Z.of_nat k)) (fun r => r = Fin (poisson l k))).
  { apply total_iff in H. destruct H as (r & -> & ->). reflexivity. }
  apply wp_evaluate_pmf with (mk := mk); auto; [lia|]. rewrite Nat2Z.id. reflexivity.
Qed.
Lemma compute_array_exact (mk : Z) g (l : R) (k : nat) : 0 < mk -> pmf_used mk g -> (0 <= l)%R -> Z.of_nat k <= mk ->
  exists g', compute_array E g (Z.of_nat k) (Fin l) = Ok g' /\
    length (get_array g') = length (get_array g) /\
    (forall i, (i <= k)%nat -> nth_error (get_array g') i = Some (Fin (poisson l i) : car XN)) /\
    (forall i, (k < i)%nat -> nth_error (get_array g') i = nth_error (get_array g) i).
Proof.
  intros Hm Hg Hl Hk. apply pmf_used_ok in Hg; auto.
  enough (H : total (compute_array E g (Z.of_nat k) (Fin l))
    (fun g' => pmfgen_ok mk g' /\ forall i, 0 <= i <= Z.of_nat k -> gx (get_array g') i = Fin (pois l (Z.to_nat i)))).
  { apply total_iff in H. destruct H as (g' & Hc & Hg' & Hv). exists g'. split; auto.
    pose proof Hg as (_ & _ & _ & S). pose proof Hg' as (_ & _ & _ & S'). unfold get_array, size in *. repeat split.
    - lia.
    - intros i Hi. rewrite (nth_error_nth' (pmf_array g') (Fin 0)) by lia. f_equal.
      specialize (Hv (Z.of_nat i) ltac:(lia)). unfold get in Hv. rewrite Nat2Z.id in Hv. exact Hv.
    - intros i Hi. exact (compute_array_frame mk g (Z.of_nat k) (Fin l) g' i Hg ltac:(lia) Hc ltac:(lia)). }
  apply wp_compute_array with (mk := mk); auto; try lia.
Qed.
Lemma pmf_make_returns (mk : Z) : 0 < mk -> exists g, pmfgen_make E mk = Ok g.
Proof.
  intros Hm. assert (HT : total (pmfgen_make E mk) (pmfgen_ok mk)) by (apply wp_pmfgen_make; auto).
  apply total_iff in HT. destruct HT as (g & H & _). eauto.
Qed.
End Exact.

(** compute_array throws exactly for lambda < 0, whatever the floating-point type *)
Section AnyNum.
Context {N : num} (E : env N).
Lemma compute_array_throws (mk : Z) (g : pmfgen N) k lambda : pg_shape mk g -> 0 <= k <= mk ->
  ((exists e, compute_array E g k lambda = Throw e) <-> n_lt lambda n0 = true) /\
  (n_lt lambda n0 = false -> exists g', compute_array E g k lambda = Ok g').
Proof.
  intros Hg Hk.
  assert (H1 : n_lt lambda n0 = true -> exists e, compute_array E g k lambda = Throw e).
  { intros Hl. pose proof Hg as (H1 & _). unfold compute_array, cassert. rewrite H1.
    destruct (Z.leb_spec 0 k); [|lia]. destruct (Z.leb_spec k mk); [|lia].
    rewrite andb_false_r. cbn [bind]. rewrite Hl. eauto. }
  assert (H2 : n_lt lambda n0 = false -> exists g', compute_array E g k lambda = Ok g').
  { intros Hl. enough (HT : total (compute_array E g k lambda) (fun _ => True)).
    { apply total_iff in HT. destruct HT as (g' & -> & _). eauto. }
    apply sh_compute_array with (mk := mk); auto; try lia; congruence. }
  split; auto. split; auto. intros (e & He). destruct (n_lt lambda n0); auto.
  destruct H2 as (g' & Hg'); auto. congruence.
Qed.

(** ** The guard of the FFT convolver *)
Lemma loop_undef_at {S} (I : Z -> S -> Prop) (body : Z -> S -> outcome S) n : forall i s stop msg,
  I i s -> i <= stop < i + Z.of_nat n ->
  (forall j t, i <= j < stop -> I j t -> exists t', body j t = Ok t' /\ I (j + 1) t') ->
  (forall t, I stop t -> body stop t = Undef msg) ->
  loop n i body s = Undef msg.
Proof.
  induction n as [|n IH]; intros i s stop msg Hs Hi Hok Hbad; [lia|]. cbn [loop].
  destruct (Z.eq_dec i stop) as [->|Hne].
  - rewrite Hbad by auto. reflexivity.
  - destruct (Hok i s ltac:(lia) Hs) as (s' & -> & Hs'). cbn [bind].
    apply (IH (i + 1) s' stop msg); auto; [lia|]. intros j t Hj. apply Hok. lia.
Qed.

Lemma fill_overrun {A} (a : list A) lo hi v : 0 <= lo <= size a -> size a < hi ->
  fill a lo hi v = Undef "write outside an array".
Proof.
  intros Hlo Hhi. unfold fill, for_.
  apply loop_undef_at with (I := fun _ s => size s = size a) (stop := size a); auto; try lia.
  - intros j t Hj Ht. rewrite wr_ok by lia. eexists; split; eauto. rewrite size_upd. exact Ht.
  - intros t Ht. unfold wr. rewrite Ht. destruct (Z.leb_spec (size a) (size a)); [|lia]. rewrite orb_true_r. reflexivity.
Qed.

(** A convolver built for 1024*q elements, first used on more (but at most 2047 more)
    elements, overruns its scratch array. *)
Lemma fft_guard_overrun q sz (a b out : list (car N)) : 1 <= q -> 1024 * q < sz <= 1024 * q + 2047 -> sz <= 2048 * q ->
  sz <= size a ->
  fft_convolve_same_size E (fftconv_make E (1024 * q)) sz a 0 b 0 out 0 = Undef "write outside an array".
Proof.
  intros Hq Hsz Hsz' Ha. unfold fft_convolve_same_size.
  pose proof (fft_shape_make E (1024 * q) ltac:(lia)) as (Hmax & Hin & _). rewrite Hmax.
  destruct (Z.ltb_spec (1024 * q + 2047) sz); [lia|].
  destruct (Z.leb_spec sz 0); [lia|].
  destruct (Z.ltb_spec sz MINIMUM_SIZE_FOR_FFTW_CONVOLUTION) as [Hs|_]; [unfold MINIMUM_SIZE_FOR_FFTW_CONVOLUTION in Hs; lia|].
  cbv zeta.
  destruct (round_up_shape (2 * sz) ltac:(lia)) as (r & Hr & Hru & Hrb). rewrite Hru.
  destruct (round_up_shape (2 * (1024 * q)) ltac:(lia)) as (r' & Hr' & Hru' & Hrb'). rewrite Hru' in Hin.
  assert (r' = q) by lia. subst r'.
  unfold copy_zero_padded.
  assert (HT : total (blit a 0 (r2c_in (fftconv_make E (1024 * q))) 0 sz)
     (fun d => size d = 2048 * q)).
  { apply wp_blit with (d := n0); [lia|]. intros d Hd _. congruence. }
  apply total_iff in HT. destruct HT as (d & -> & Hd). cbn [bind].
  rewrite fill_overrun by lia. reflexivity.
Qed.

(** what the guard does refuse *)
Lemma fft_guard_throws m sz f (a b out : list (car N)) oa ob oo : fft_shape m f -> m + 2047 < sz ->
  exists s, fft_convolve_same_size E f sz a oa b ob out oo = Throw (RuntimeError s).
Proof.
  intros (Hmax & _) H. unfold fft_convolve_same_size. rewrite Hmax.
  destruct (Z.ltb_spec (m + 2047) sz); [|lia]. eauto.
Qed.
End AnyNum.
