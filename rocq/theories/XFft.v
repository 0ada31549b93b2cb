(** * XFft: FFTWConvolver::convolve_same_size in exact arithmetic, with an exact DFT. *)
From Flocq Require Import Core.Raux.
From Coq Require Import ZArith Reals List Bool Lia Lra String.
From Verif Require Import Base Num Hoare XReal RSum Dft PoissonPmf Common FFTConv XPmf XEcdf2 XEcdf2Main.
Local Open Scope Z_scope.

Lemma round_up_spec n : 0 <= n -> exists q, 0 <= q /\ round_up n ROUNDING = 2048 * q /\
  n <= 2048 * q < n + 2048.
Proof.
  intros Hn. unfold round_up, ROUNDING. exists (Z.quot (n + 2048 - 1) 2048).
  rewrite Z.quot_div_nonneg by lia.
  pose proof (Z.div_mod (n + 2048 - 1) 2048 ltac:(lia)).
  pose proof (Z.mod_pos_bound (n + 2048 - 1) 2048 ltac:(lia)).
  pose proof (Z.div_pos (n + 2048 - 1) 2048 ltac:(lia) ltac:(lia)). lia.
Qed.

Section XFft.
Context {frexp : xr -> Z} (E : env (Xnum frexp)).
Notation XN := (Xnum frexp).
Notation gx := (@get (car XN) (Fin 0)).
Notation gc := (@get (cplx XN) (Fin 0, Fin 0)).

(** what FFTW is assumed to compute *)
Definition fft_ok : Prop :=
  (forall x : list R, let n := List.length x in
     fft_r2c E (map Fin x) =
       map (fun k => (Fin (dft_re n (fun j => nth j x 0%R) k), Fin (dft_im n (fun j => nth j x 0%R) k)))
           (seq 0 (n / 2 + 1))) /\
  (forall h (z : list (R * R)), (0 < h)%nat -> List.length z = (h + 1)%nat ->
     fft_c2r E (2 * h) (map (fun c => (Fin (fst c), Fin (snd c))) z) =
       map (fun j => Fin (idft (2 * h) (fun k => fst (nth k z (0%R, 0%R))) (fun k => snd (nth k z (0%R, 0%R))) j))
           (seq 0 (2 * h))).

Lemma nth_map_seq {A} (f : nat -> A) n i d : (i < n)%nat -> nth i (map f (seq 0 n)) d = f i.
Proof.
  intros H. rewrite (nth_indep _ d (f O)) by (rewrite map_length, seq_length; exact H).
  rewrite map_nth, seq_nth by exact H. reflexivity.
Qed.

Context {thr : exn -> Prop} {abt : Prop}.
Notation WP := (wp thr abt).

Lemma wp_copy_zero_padded (src : list (car XN)) so dest ss ds (Q : list (car XN) -> Prop) :
  0 < ss -> ss <= ds -> ds <= size dest -> 0 <= so -> so + ss <= size src ->
  (forall dest', size dest' = size dest ->
     (forall i, 0 <= i < ds -> gx dest' i = if i <? ss then gx src (so + i) else Fin 0) -> Q dest') ->
  WP (copy_zero_padded src so dest ss ds) Q.
Proof.
  intros H1 H2 H3 H4 H5 HQ. unfold copy_zero_padded.
  apply wp_bind. apply wp_blit with (d := Fin 0 : car XN); [lia|]. intros d1 Hs1 Hd1.
  apply wp_fill with (d := Fin 0 : car XN); [lia|]. intros d2 Hs2 Hd2. apply HQ; [lia|].
  intros i Hi. rewrite Hd2, Hd1 by lia.
  destruct (Z.leb_spec ss i), (Z.ltb_spec i ds), (Z.ltb_spec i ss), (Z.leb_spec 0 i), (Z.ltb_spec i (0 + ss));
    simpl; try lia; auto. f_equal. lia.
Qed.

Definition plans_ok (P : Z) (pl : list (option Z)) : Prop :=
  size pl = P /\ forall i, 0 <= i < P -> get None pl i = None \/ get None pl i = Some (2048 * (i + 1)).

Lemma wp_memoized_plan P pl q (Q : list (option Z) * Z -> Prop) :
  plans_ok P pl -> 0 < q <= P ->
  (forall pl', plans_ok P pl' -> Q (pl', 2048 * q)) ->
  WP (memoized_plan E pl (2048 * q)) Q.
Proof.
  intros [Hs Hp] Hq HQ. unfold memoized_plan, ROUNDING.
  assert (Hi : Z.quot (2048 * q) 2048 = q) by (rewrite Z.mul_comm; apply Z.quot_mul; lia). rewrite Hi.
  apply wp_bind, wp_cassert_true; [apply Z.ltb_lt; lia|].
  apply wp_bind, wp_cassert_true; [apply Z.eqb_eq; rewrite Z.mul_comm; apply Z.rem_mul; lia|].
  apply wp_bind, wp_cassert_true; [apply Z.ltb_lt; lia|].
  apply wp_bind, wp_rd with (d := None); [lia|].
  destruct (Hp (q - 1)) as [-> | ->]; [lia| |].
  - apply wp_bind, wp_wr; [lia|]. apply wp_ok, HQ. split; [rewrite size_upd; auto|].
    intros i Hi'. rewrite get_upd by lia. destruct (Z.eqb_spec (q - 1) i); auto.
    right. f_equal. lia.
  - apply wp_ok. replace (q - 1 + 1) with q by lia. apply HQ. split; auto.
Qed.

Lemma size_alloc_complexes site n : 0 <= n -> size (alloc_complexes E site n) = n.
Proof. intros. unfold size, alloc_complexes. rewrite map_length, seq_length. lia. Qed.

Lemma firstn_fin (l : list (car XN)) (x : nat -> R) len : (len <= List.length l)%nat ->
  (forall i, (i < len)%nat -> nth i l (Fin 0) = Fin (x i)) ->
  firstn len l = map Fin (map x (seq 0 len)).
Proof.
  intros Hl H. apply nth_ext with (d := Fin 0 : car XN) (d' := Fin 0).
  - change (car XN) with xr in *. rewrite firstn_length, !map_length, seq_length. lia.
  - intros i Hi. change (car XN) with xr in *. rewrite firstn_length in Hi.
    rewrite map_map. rewrite nth_map_seq by lia.
    rewrite <- H by lia. rewrite <- (firstn_skipn len l) at 2. rewrite app_nth1; auto.
    rewrite firstn_length. lia.
Qed.

Lemma firstn_finc (l : list (cplx XN)) (re im : nat -> R) len : (len <= List.length l)%nat ->
  (forall i, (i < len)%nat -> nth i l (Fin 0, Fin 0) = (Fin (re i), Fin (im i))) ->
  firstn len l = map (fun c => (Fin (fst c), Fin (snd c))) (map (fun k => (re k, im k)) (seq 0 len)).
Proof.
  intros Hl H. unfold cplx in *. apply nth_ext with (d := (Fin 0, Fin 0) : car XN * car XN) (d' := (Fin 0, Fin 0)).
  - change (car XN) with xr in *. rewrite firstn_length, !map_length, seq_length. lia.
  - intros i Hi. change (car XN) with xr in *. rewrite firstn_length in Hi.
    rewrite map_map. rewrite nth_map_seq by lia. simpl.
    rewrite <- H by lia. rewrite <- (firstn_skipn len l) at 2. rewrite app_nth1; auto.
    rewrite firstn_length. lia.
Qed.

Lemma wp_execute_r2c site h (inp : list (car XN)) (outp : list (cplx XN)) (x : nat -> R)
  (Q : list (car XN) * list (cplx XN) -> Prop) : fft_ok -> 0 < h ->
  2 * h <= size inp -> h + 1 <= size outp ->
  (forall i, 0 <= i < 2 * h -> gx inp i = Fin (x (Z.to_nat i))) ->
  (forall inp' outp', size inp' = size inp -> size outp' = size outp ->
     (forall k, 0 <= k <= h -> gc outp' k =
        (Fin (dft_re (Z.to_nat (2 * h)) x (Z.to_nat k)), Fin (dft_im (Z.to_nat (2 * h)) x (Z.to_nat k)))) ->
     Q (inp', outp')) ->
  WP (execute_r2c E site (2 * h) inp outp) Q.
Proof.
  intros [HF _] Hh Hin Hout Hx HQ. unfold execute_r2c.
  destruct (Z.ltb_spec (size inp) (2 * h)) as [?|_]; [lia|].
  assert (Hq : Z.quot (2 * h) 2 = h) by (rewrite Z.mul_comm; apply Z.quot_mul; lia). rewrite Hq.
  rewrite (firstn_fin inp x).
  2:{ unfold size in Hin. lia. }
  2:{ intros i Hi. specialize (Hx (Z.of_nat i) ltac:(lia)). unfold get in Hx. rewrite Nat2Z.id in Hx. exact Hx. }
  rewrite HF. rewrite map_length, seq_length.
  set (n := Z.to_nat (2 * h)).
  set (L := map _ (seq 0 (n / 2 + 1))).
  assert (Hn2 : (n / 2 = Z.to_nat h)%nat).
  { unfold n. replace (Z.to_nat (2 * h)) with (Z.to_nat h * 2)%nat by lia. apply Nat.div_mul. lia. }
  assert (HL : size L = h + 1).
  { unfold size, L. rewrite map_length, seq_length, Hn2. lia. }
  apply wp_bind. apply wp_blit with (d := (Fin 0, Fin 0) : cplx XN); [intros _; change (cplx XN) with (xr * xr)%type in *; lia|].
  intros o Hso Ho. apply wp_ok. apply HQ; auto.
  - apply size_alloc_doubles. apply size_nonneg.
  - intros k Hk. rewrite Ho by lia.
    destruct (Z.leb_spec 0 k), (Z.ltb_spec k (0 + (h + 1))); try lia. simpl (true && true).
    cbv iota. unfold get, L. rewrite nth_map_seq by lia.
    replace (Z.to_nat (0 + (k - 0))) with (Z.to_nat k) by lia.
    assert (Hex : forall i, (i < n)%nat -> nth i (map x (seq 0 n)) 0%R = x i)
      by (intros; apply nth_map_seq; auto).
    fold n. f_equal; f_equal; unfold dft_re, dft_im; [|apply f_equal];
      (apply rsum_ext; intros i Hi; rewrite Hex by auto; reflexivity).
Qed.

Lemma wp_elementwise h (s0 s1 dest : list (cplx XN)) c (a0 b0 a1 b1 : nat -> R) (Q : list (cplx XN) -> Prop) :
  0 <= h -> h + 1 <= size s0 -> h + 1 <= size s1 -> h + 1 <= size dest ->
  (forall k, 0 <= k <= h -> gc s0 k = (Fin (a0 (Z.to_nat k)), Fin (b0 (Z.to_nat k)))) ->
  (forall k, 0 <= k <= h -> gc s1 k = (Fin (a1 (Z.to_nat k)), Fin (b1 (Z.to_nat k)))) ->
  (forall dest', size dest' = size dest ->
     (forall k, 0 <= k <= h -> gc dest' k =
        (Fin (c * (a0 (Z.to_nat k) * a1 (Z.to_nat k) - b0 (Z.to_nat k) * b1 (Z.to_nat k)))%R,
         Fin (c * (a0 (Z.to_nat k) * b1 (Z.to_nat k) + b0 (Z.to_nat k) * a1 (Z.to_nat k)))%R)) -> Q dest') ->
  WP (elementwise_complex_product (h + 1) s0 s1 dest (Fin c : car XN)) Q.
Proof.
  intros Hh H0 H1 Hd G0 G1 HQ. unfold elementwise_complex_product.
  apply wp_for with (P := fun i d => size d = size dest /\
    forall k, 0 <= k < i -> gc d k =
        (Fin (c * (a0 (Z.to_nat k) * a1 (Z.to_nat k) - b0 (Z.to_nat k) * b1 (Z.to_nat k)))%R,
         Fin (c * (a0 (Z.to_nat k) * b1 (Z.to_nat k) + b0 (Z.to_nat k) * a1 (Z.to_nat k)))%R)).
  - split; auto. lia.
  - intros i d Hi [Hs Hk]. apply wp_bind, wp_rd with (d := (Fin 0, Fin 0) : cplx XN); [lia|].
    apply wp_bind, wp_rd with (d := (Fin 0, Fin 0) : cplx XN); [lia|].
    apply wp_wr; [lia|]. rewrite size_upd. split; auto. intros k Hk'. rewrite get_upd by lia.
    destruct (Z.eqb_spec i k) as [->|]; [|apply Hk; lia].
    rewrite G0, G1 by lia. unfold cmul, cscale. simpl. f_equal; f_equal; ring.
  - intros d [Hs Hk]. apply HQ; auto. intros k Hk'. apply Hk. lia.
Qed.

Lemma wp_execute_c2r site h (inp : list (cplx XN)) (outp : list (car XN)) (re im : nat -> R)
  (Q : list (cplx XN) * list (car XN) -> Prop) : fft_ok -> 0 < h ->
  h + 1 <= size inp -> 2 * h <= size outp ->
  (forall k, 0 <= k <= h -> gc inp k = (Fin (re (Z.to_nat k)), Fin (im (Z.to_nat k)))) ->
  (forall inp' outp', size inp' = size inp -> size outp' = size outp ->
     (forall j, 0 <= j < 2 * h -> gx outp' j = Fin (idft (Z.to_nat (2 * h)) re im (Z.to_nat j))) ->
     Q (inp', outp')) ->
  WP (execute_c2r E site (2 * h) inp outp) Q.
Proof.
  intros [_ HF] Hh Hin Hout Hx HQ. unfold execute_c2r.
  assert (Hq : Z.quot (2 * h) 2 = h) by (rewrite Z.mul_comm; apply Z.quot_mul; lia). rewrite Hq.
  destruct (Z.ltb_spec (size inp) (h + 1)) as [?|_]; [lia|].
  rewrite (firstn_finc inp re im).
  2:{ unfold size in Hin. lia. }
  2:{ intros i Hi. specialize (Hx (Z.of_nat i) ltac:(lia)). unfold get in Hx. rewrite Nat2Z.id in Hx. exact Hx. }
  assert (Hn : Z.to_nat (2 * h) = (2 * Z.to_nat h)%nat) by lia.
  rewrite Hn in *. rewrite HF; [|lia|rewrite map_length, seq_length; lia].
  set (L := map _ (seq 0 (2 * Z.to_nat h))).
  assert (HL : @size (car XN) L = 2 * h).
  { unfold size, L. rewrite map_length, seq_length. lia. }
  apply wp_bind. apply wp_blit with (d := Fin 0 : car XN); [intros _; lia|].
  intros o Hso Ho. apply wp_ok. apply HQ; auto.
  - apply size_alloc_complexes. apply size_nonneg.
  - intros j Hj. rewrite Ho by lia.
    destruct (Z.leb_spec 0 j), (Z.ltb_spec j (0 + 2 * h)); try lia. simpl (true && true).
    cbv iota. unfold get, L. rewrite nth_map_seq by lia.
    replace (Z.to_nat (0 + (j - 0))) with (Z.to_nat j) by lia.
    set (hl := Z.to_nat (h + 1)).
    assert (Hex : forall i, (i < hl)%nat -> nth i (map (fun k => (re k, im k)) (seq 0 hl)) (0%R, 0%R) = (re i, im i))
      by (intros; apply (nth_map_seq (fun k => (re k, im k))); auto).
    assert (Hd : (2 * Z.to_nat h / 2 = Z.to_nat h)%nat) by (rewrite Nat.mul_comm; apply Nat.div_mul; lia).
    f_equal. unfold idft. rewrite Hd. rewrite !Hex by (unfold hl; lia). simpl fst.
    f_equal. f_equal. apply rsum_ext. intros i Hi. rewrite Hex by (unfold hl; lia). reflexivity.
Qed.

(** the object invariant of a convolver built for inputs up to m *)
Definition fft_inv (m : Z) (f : fftconv XN) : Prop :=
  maximum_input_size f = m + 2047 /\
  size (r2c_in f) = round_up (2 * m) ROUNDING /\
  size (r2c_out f) = round_up (2 * m) ROUNDING /\
  size (c2r_in f) = round_up (2 * m) ROUNDING /\
  size (c2r_out f) = round_up (2 * m) ROUNDING /\
  size (tmp_complex f) = round_up (2 * m) ROUNDING /\
  plans_ok (Z.quot (round_up (2 * m) ROUNDING) ROUNDING) (r2c_plans f) /\
  plans_ok (Z.quot (round_up (2 * m) ROUNDING) ROUNDING) (c2r_plans f).

Lemma fft_inv_make m : 0 <= m -> fft_inv m (fftconv_make E m).
Proof.
  intros Hm. destruct (round_up_spec (2 * m) ltac:(lia)) as (q & Hq & Hr & _).
  assert (Hpl : plans_ok (Z.quot (round_up (2 * m) ROUNDING) ROUNDING) (vec (Z.quot (round_up (2 * m) ROUNDING) ROUNDING) None)).
  { rewrite Hr. unfold ROUNDING. rewrite Z.mul_comm, Z.quot_mul by lia.
    split; [rewrite size_vec; lia|]. intros i Hi. left. apply get_vec. exact Hi. }
  unfold fft_inv, fftconv_make. cbn [maximum_input_size r2c_in r2c_out c2r_in c2r_out tmp_complex r2c_plans c2r_plans].
  rewrite !size_alloc_doubles, !size_alloc_complexes by lia.
  unfold ROUNDING at 1. split; [lia|]. repeat split; auto; apply Hpl.
Qed.

Theorem wp_fft_convolve m f sz (s0 : list (car XN)) o0 (s1 : list (car XN)) o1 (dest : list (car XN)) od
  (fn gn : nat -> R) (Q : fftconv XN * list (car XN) -> Prop) : fft_ok ->
  fft_inv m f -> sz <= m ->
  (0 < sz -> 0 <= o0 /\ o0 + sz <= size s0 /\ 0 <= o1 /\ o1 + sz <= size s1 /\ 0 <= od /\ od + sz <= size dest) ->
  (forall k, 0 <= k < sz -> gx s0 (o0 + k) = Fin (fn (Z.to_nat k))) ->
  (forall k, 0 <= k < sz -> gx s1 (o1 + k) = Fin (gn (Z.to_nat k))) ->
  (forall f' dest', fft_inv m f' -> size dest' = size dest ->
     (forall i, 0 <= i -> gx dest' i =
        if (od <=? i) && (i <? od + sz) then Fin (conv fn gn (Z.to_nat (i - od))) else gx dest i) ->
     Q (f', dest')) ->
  WP (fft_convolve_same_size E f sz s0 o0 s1 o1 dest od) Q.
Proof.
  intros HF HI Hsz Hb H0 H1 HQ.
  pose proof HI as (Hmax & Hs_in & Hs_out & Hs_cin & Hs_cout & Hs_tmp & Hpl_r & Hpl_c).
  unfold fft_convolve_same_size. rewrite Hmax.
  destruct (Z.ltb_spec (m + 2047) sz) as [?|_]; [lia|].
  destruct (Z.leb_spec sz 0) as [Hneg|Hpos].
  { apply wp_ok, HQ; auto. intros i Hi.
    destruct (Z.leb_spec od i), (Z.ltb_spec i (od + sz)); simpl; auto; lia. }
  destruct (Z.ltb_spec sz MINIMUM_SIZE_FOR_FFTW_CONVOLUTION) as [_|Hbig].
  { apply wp_bind. apply wp_convolve with (f := fn) (g := gn); auto. intros dest' Hs' Hd'. apply wp_ok, HQ; auto. }
  specialize (Hb Hpos).
  destruct (round_up_spec (2 * sz) ltac:(lia)) as (q & Hq & Hr & Hqs).
  destruct (round_up_spec (2 * m) ltac:(lia)) as (p & Hp & Hrm & Hps).
  assert (Hqp : 0 < q <= p) by lia.
  rewrite Hrm in *.
  assert (HP : Z.quot (2048 * p) ROUNDING = p) by (unfold ROUNDING; rewrite Z.mul_comm; apply Z.quot_mul; lia).
  rewrite HP in *. cbv zeta. rewrite Hr.
  set (x := fun i => if (i <? Z.to_nat sz)%nat then fn i else 0%R).
  set (y := fun i => if (i <? Z.to_nat sz)%nat then gn i else 0%R).
  set (h := 1024 * q). replace (2048 * q) with (2 * h) by lia.
  assert (Hplan : forall pl (Q : list (option Z) * Z -> Prop), plans_ok p pl ->
     (forall pl', plans_ok p pl' -> Q (pl', 2 * h)) -> WP (memoized_plan E pl (2 * h)) Q).
  { intros pl Q' Hpl HQ'. replace (2 * h) with (2048 * q) in * by lia.
    eapply wp_memoized_plan; eauto. }
  (* first transform *)
  apply wp_bind, wp_copy_zero_padded; try lia. intros in1 Hsi1 Hi1.
  apply wp_bind, Hplan; auto. intros plr1 Hplr1. cbn [fst snd].
  apply wp_bind. apply wp_execute_r2c with (x := x); auto; try lia.
  { intros i Hi. rewrite Hi1 by lia. unfold x.
    destruct (Z.ltb_spec i sz), (Nat.ltb_spec (Z.to_nat i) (Z.to_nat sz)); try lia; [apply H0; lia|reflexivity]. }
  intros in1' tmp Hsi1' Hst Htmp. cbn [fst snd].
  (* second transform *)
  apply wp_bind, wp_copy_zero_padded; try lia. intros in2 Hsi2 Hi2.
  apply wp_bind, Hplan; auto. intros plr2 Hplr2. cbn [fst snd].
  apply wp_bind. apply wp_execute_r2c with (x := y); auto; try lia.
  { intros i Hi. rewrite Hi2 by lia. unfold y.
    destruct (Z.ltb_spec i sz), (Nat.ltb_spec (Z.to_nat i) (Z.to_nat sz)); try lia; [apply H1; lia|reflexivity]. }
  intros in2' outc Hsi2' Hso Hout. cbn [fst snd].
  (* product *)
  assert (Hq2 : Z.quot (2 * h) 2 = h) by (rewrite Z.mul_comm; apply Z.quot_mul; lia). rewrite Hq2.
  assert (Hc : n_div n1 (n_of_Z (2 * h)) = (Fin (/ IZR (2 * h)) : car XN)).
  { unfold n1. cbn [n_div n_of_Z Xnum xdiv]. rewrite Req_bool_false_neq.
    - f_equal. unfold Rdiv. ring.
    - apply IZR_neq. lia. }
  rewrite Hc.
  apply wp_bind. eapply wp_elementwise with (a0 := dft_re (Z.to_nat (2 * h)) x) (b0 := dft_im (Z.to_nat (2 * h)) x)
     (a1 := dft_re (Z.to_nat (2 * h)) y) (b1 := dft_im (Z.to_nat (2 * h)) y); try lia; auto.
  intros cin Hscin Hcin.
  apply wp_bind, Hplan; auto. intros plc Hplc. cbn [fst snd].
  apply wp_bind. eapply wp_execute_c2r with
    (re := fun k => (/ IZR (2 * h) * prod_re (Z.to_nat (2 * h)) x y k)%R)
    (im := fun k => (/ IZR (2 * h) * prod_im (Z.to_nat (2 * h)) x y k)%R); auto; try lia.
  intros cin' cout Hscin' Hscout Hcout. cbn [fst snd].
  apply wp_bind. apply wp_blit with (d := Fin 0 : car XN); [intros _; lia|].
  intros dest' Hsd Hd. apply wp_ok, HQ; auto.
  - unfold fft_inv. cbn [maximum_input_size r2c_in r2c_out c2r_in c2r_out tmp_complex r2c_plans c2r_plans].
    rewrite Hrm, HP. repeat split; try lia; try apply Hplr2; try apply Hplc.
  - intros i Hi. rewrite Hd by lia.
    destruct (Z.leb_spec od i), (Z.ltb_spec i (od + sz)); cbn [andb]; auto.
    rewrite Hcout by lia. f_equal.
    replace (0 + (i - od)) with (i - od) by lia. set (j := Z.to_nat (i - od)).
    assert (Hn : Z.to_nat (2 * h) = (2 * Z.to_nat h)%nat) by lia. rewrite Hn.
    set (hh := Z.to_nat h) in *.
    assert (Hlin : idft (2 * hh) (fun k => (/ IZR (2 * h) * prod_re (2 * hh) x y k)%R)
       (fun k => (/ IZR (2 * h) * prod_im (2 * hh) x y k)%R) j =
       (/ IZR (2 * h) * idft (2 * hh) (prod_re (2 * hh) x y) (prod_im (2 * hh) x y) j)%R).
    { unfold idft. rewrite !Rmult_plus_distr_l. f_equal; [ring|].
      rewrite (rsum_ext _ _ (fun i => (/ IZR (2 * h) * (prod_re (2 * hh) x y (S i) * cos (2 * PI * INR j * INR (S i) / INR (2 * hh))
          - prod_im (2 * hh) x y (S i) * sin (2 * PI * INR j * INR (S i) / INR (2 * hh))))%R)).
      - rewrite rsum_scal. ring.
      - intros k Hk. ring. }
    rewrite Hlin. rewrite (idft_conv hh (Z.to_nat sz)); try lia.
    + rewrite INR_IZR_INZ. replace (Z.of_nat (2 * hh)) with (2 * h) by lia.
      rewrite <- Rmult_assoc, Rinv_l by (apply IZR_neq; lia). rewrite Rmult_1_l.
      apply conv_ext; intros k Hk; unfold x, y; destruct (Nat.ltb_spec k (Z.to_nat sz)); auto; lia.
    + intros k Hk. unfold x. destruct (Nat.ltb_spec k (Z.to_nat sz)); auto; lia.
    + intros k Hk. unfold y. destruct (Nat.ltb_spec k (Z.to_nat sz)); auto; lia.
Qed.
End XFft.

Lemma fft_spec_ok {frexp} (E : env (Xnum frexp)) n abt : fft_ok E ->
  fft_spec E n abt (fft_inv (Z.of_nat n + 1)).
Proof.
  intros HF. split; [apply fft_inv_make; lia|].
  intros. eapply wp_fft_convolve; eauto.
Qed.
